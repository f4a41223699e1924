From Verif Require Import Base Dict Registry Par Exec Fields FieldsProofs Value Kernel Mesh MeshSpec Coeff FV FVSpec Sparsity SparsitySpec Assembly AssemblySpec AssemblyProps
  Boundary Properties_Boundary Dsl DslSpec DslHeapProofs DslProofs DslAssembly Properties_Dsl Properties_DslAssembly TimeInt TimeSpec TimeIntProofs.

Lemma rseq_surely {A B} (p : outcome A -> Prop) (k : A -> outcome B -> Prop) a r : surely p a -> rseq p k r <-> k a r.
Proof.
  intros Hq. split.
  - intros [(a' & H1 & H2)|[(x & H1 & _)|[[H1 _]|[H1 _]]]]; apply Hq in H1; try discriminate. by injection H1 as ->.
  - intros Hk. left. exists a. split; [by apply Hq|done].
Qed.
Lemma rseq_iff {A B} (p : outcome A -> Prop) (k k' : A -> outcome B -> Prop) r :
  (forall a r, k a r <-> k' a r) -> rseq p k r <-> rseq p k' r.
Proof.
  intros Hk. unfold rseq. split; (intros [(a & H1 & H2)|H]; [left; exists a; split; [done|by apply Hk]|by right]).
Qed.
Lemma rseq_assoc {A B C} (p : outcome A -> Prop) (k : A -> outcome B -> Prop) (k' : B -> outcome C -> Prop) r :
  rseq (rseq p k) k' r <-> rseq p (fun a => rseq (k a) k') r.
Proof.
  unfold rseq. split.
  - intros [(b & [(a & H1 & H2)|[(x & H1 & H2)|[[H1 H2]|[H1 H2]]]] & H3)|[(x & [(a & H1 & H2)|[(y & H1 & H2)|[[H1 H2]|[H1 H2]]]] & H3)|[[[(a & H1 & H2)|[(y & H1 & H2)|[[H1 H2]|[H1 H2]]]] H3]|[[(a & H1 & H2)|[(y & H1 & H2)|[[H1 H2]|[H1 H2]]]] H3]]]]; try discriminate.
    + left. exists a. split; [done|]. left. by exists b.
    + left. exists a. split; [done|]. right; left. by exists x.
    + right; left. exists y. split; [done|]. congruence.
    + left. exists a. split; [done|]. right; right; left. done.
    + right; right; left. done.
    + left. exists a. split; [done|]. right; right; right. done.
    + right; right; right. done.
  - intros [(a & H1 & [(b & H2 & H3)|[(x & H2 & H3)|[[H2 H3]|[H2 H3]]]])|[(x & H1 & H2)|[[H1 H2]|[H1 H2]]]].
    + left. exists b. split; [|done]. left. by exists a.
    + right; left. exists x. split; [|done]. left. by exists a.
    + right; right; left. split; [|done]. left. by exists a.
    + right; right; right. split; [|done]. left. by exists a.
    + right; left. exists x. split; [|done]. right; left. by exists x.
    + right; right; left. split; [|done]. right; right; left. done.
    + right; right; right. split; [|done]. right; right; right. done.
Qed.

Section steps.
  Context (dbg : bool) (cx : ctx Qc) (n : nat) (bcs : list (patch * volBC Qc)).
  Notation m := (cx_mesh cx).
  Context (Hset : setup_ok cx bcs).

  Lemma at_mesh st : cx_mesh (at_state cx n st) = m.
  Proof. done. Qed.
  Lemma at_fits st : cx_fits cx -> cx_fits (at_state cx n st).
  Proof. done. Qed.

  Lemma at0_map_seq (f : nat -> Qc) k c : c < k -> at0 (map f (seq 0 k)) c = f c.
  Proof. intros Hc. unfold at0. change (map f (seq 0 k)) with (f <$> seq 0 k). rewrite list_lookup_fmap, lookup_seq_lt by done. done. Qed.

  Lemma explicit_surely h e st g : state_ok cx st ->
    adds (nCells m) (explicitOperation (at_state cx n st) h e) g ->
    surely (explicitOperation_n (at_state cx n st) h e (length (vf_int (ts_phi st)))) (map g (seq 0 (nCells m))).
  Proof.
    intros [[Hi _] _] Ha. rewrite Hi. specialize (Ha (replicate (nCells m) vzero) (replicate_length _ _)).
    unfold explicitOperation_n.
    assert (map g (seq 0 (nCells m)) = map (fun c => vadd (atV (replicate (nCells m) vzero) c) (g c)) (seq 0 (nCells m))) as ->; [|done].
    apply map_ext_in. intros c Hc. apply in_seq in Hc. unfold atV. rewrite lookup_replicate_2 by lia. simpl. by rewrite Qcplus_0_l.
  Qed.

  (** Forward Euler, given what the explicit operators add. *)
  Lemma forwardEuler_step h e dt st g : state_ok cx st ->
    adds (nCells m) (explicitOperation (at_state cx n st) h e) g ->
    exists st', surely (forwardEuler_solve dbg cx n bcs h e dt st) st' /\ state_ok cx st' /\ euler_with cx bcs g dt st st'.
  Proof.
    intros Hst Hadd. destruct Hset as (Hcx & Hbd & Hpo & Hdj). pose proof (proj1 Hcx) as Hm.
    pose proof (explicit_surely h e st g Hst Hadd) as Hsrc.
    destruct Hst as [(Hi & Hv & Hrv & Hvf & Hrg) Hold].
    set (src := map g (seq 0 (nCells m))) in *.
    set (new := zip_with (fun x y => x - y)%Qc (old_of st) (map (fun x => x * dt)%Qc src)).
    assert (Hnew : length new = nCells m).
    { unfold new. rewrite zip_with_length, map_length. unfold src. rewrite map_length, seq_length. lia. }
    destruct (C43_volume_all m (cx_exec cx) bcs (with_int (ts_phi st) new) Hm Hbd Hpo Hdj) as (phi' & A & I & P & N & Hsz).
    { repeat split; done. }
    exists (TState phi' (Some (vf_int phi'))). simpl in I.
    split; [|split].
    - unfold forwardEuler_solve. eapply surely_rseq; [exact Hsrc|]. eapply surely_rseq; [apply fop_scale|].
      eapply surely_rseq; [apply fop_minus; rewrite map_length; unfold src; rewrite map_length, seq_length; lia|].
      eapply surely_rseq; [apply fop_assign|]. eapply surely_rseq; [apply surely_lift; exact A|].
      eapply surely_rseq; [apply fop_assign|]. apply surely_ret.
    - split; [done|]. unfold old_of. cbn [ts_old ts_phi]. simpl. rewrite I. done.
    - split; [split|].
      + cbn [ts_phi]. by rewrite I.
      + intros c Hc. cbn [ts_phi]. rewrite I. unfold new, at0. rewrite lookup_zip_with.
        destruct (lookup_lt_is_Some_2 (old_of st) c) as [o Ho]; [lia|]. rewrite Ho. simpl.
        change (map (fun x => x * dt)%Qc src) with ((fun x => x * dt)%Qc <$> src).
        rewrite list_lookup_fmap. change src with (g <$> seq 0 (nCells m)). rewrite list_lookup_fmap, lookup_seq_lt by done.
        simpl. ring.
      + done.
      + cbn [ts_phi]. assert (Hpi : forall p bc en, vol_prescribes m p bc phi' en = vol_prescribes m p bc (with_int (ts_phi st) new) en).
        { intros. apply vol_prescribes_int. exact I. }
        split.
        * intros p bc en x Hin Hx. rewrite Hpi in Hx. by apply (P p bc).
        * intros en Hn Hni. rewrite N by (intros p bc Hin; rewrite <- Hpi; by apply Hn).
          destruct en as [b|b|b|b|i]; try done. by destruct (Hni i).
  Qed.

  Lemma kind_fits_state st st' k : sized m (nCells m) (ts_phi st') ->
    kind_fits (at_state cx n st) k -> kind_fits (at_state cx n st') k.
  Proof.
    intros (Hi & Hv & Hrv & Hvf & Hrg). destruct k as [f p s|g p b|f|co p|u]; simpl; try done.
    - intros (H1 & H2 & H3 & H4). split; [done|]. split; [done|]. destruct (decide (p = n)); [|done].
      split; [by split|]. by repeat split.
    - intros (H1 & H2 & H3 & H4). split; [done|]. split; [done|]. destruct (decide (p = n)); [|done].
      split; [by split|]. by repeat split.
    - intros (H1 & H2). split; [done|]. destruct (decide (p = n)); [|done]. by split.
  Qed.
  Lemma supported_state sel h eqn st st' : sized m (nCells m) (ts_phi st') ->
    explicit_supported cx n sel h eqn st -> explicit_supported cx n sel h eqn st'.
  Proof. intros Hs Hx p o Hp Eo Et. destruct (Hx p o Hp Eo Et) as [H1 H2]. split; [by apply (kind_fits_state st)|done]. Qed.

  (** What the explicit operators of a built expression add. *)
  Lemma equation_adds sel h0 eqn st h2 e ts ss :
    cx_fits cx -> explicit_supported cx n sel h0 eqn st ->
    isE h2 e (ts, map (selected sel) ss) -> meansE (nCells m) h0 eqn (ts, ss) ->
    adds (nCells m) (explicitOperation (at_state cx n st) h2 e) (explicit_part cx n sel h0 eqn st).
  Proof.
    intros Hcx Hsup [_ Hs] [[_ Hds] Hval]. simpl in *.
    eapply adds_ext; [by intros| |apply (run_explicit_adds (at_state cx n st) h2 (explicit_kind (at_state cx n st)) _ _ Hs)].
    - intros c Hc. unfold explicit_part.
      specialize (Hval c (fun k t => match t with Explicit => explicit_kind (at_state cx n st) (sel k) c | Implicit => 0%Qc end) (fun _ _ => 0%Qc)).
      unfold valueE in Hval. simpl in Hval. pose proof (valueT_zero (V := Qc) c ts) as Z. cbv beta in Z. simpl in Z. rewrite Z in Hval.
      rewrite Qcplus_0_l in Hval. rewrite map_map. etransitivity; [|etransitivity; [exact Hval|]].
      + f_equal.
      + apply equation_value_fext; intros p.
        * exact (objval_object (V := Qc) h0 (fun k => explicit_kind (at_state cx n st) (sel k) c) (fun _ => 0%Qc) c p).
        * exact (objvalT_zero (V := Qc) c h0 p).
    - intros o Ho Et. apply elem_of_list_fmap in Ho as (o1 & -> & Ho1). simpl in *.
      destruct (derivedS_leaves _ _ _ _ Hds o1 Ho1) as (p & o0 & Hp & E0 & Ek & Ety & Hco).
      split; [|done]. rewrite Ek. destruct (Hsup p o0 Hp E0) as [H1 H2]; [congruence|].
      apply (C39_explicit (at_state cx n st)); [done|done|]. by destruct (sel (so_kind o0)).
  Qed.

  Lemma all_explicit sel h eqn st : all_supported cx n sel h eqn st -> explicit_supported cx n sel h eqn st.
  Proof.
    intros [Hs _] p o Hp Eo Et. destruct (Hs p o Hp Eo) as [H1 H2]. split; [done|]. by destruct (sel (so_kind o)).
  Qed.
  Lemma all_state sel h eqn st st' : state_ok cx st' -> all_supported cx n sel h eqn st -> all_supported cx n sel h eqn st'.
  Proof.
    intros [Hs Ho] [H1 H2]. split.
    - intros p o Hp Eo. destruct (H1 p o Hp Eo). split; [by apply (kind_fits_state st)|done].
    - intros p o Hp Eo. destruct (H2 p o Hp Eo) as [A B]. split; [done|]. cbn in *. by destruct (decide (to_phi o = n)).
  Qed.
  Lemma equation_contributes sel h0 eqn st h2 e ts ss :
    cx_fits cx -> all_supported cx n sel h0 eqn st ->
    isE h2 e (ts, map (selected sel) ss) -> meansE (nCells m) h0 eqn (ts, ss) ->
    contributes m (cx_pattern cx) (implicitOperation (at_state cx n st) h2 (sp_rowPtrs (cx_pattern cx)) e)
      (fun x c => equation_value (object_value h0 (fun _ => 0%Qc) (fun k => implicit_kind (at_state cx n st) (sel k) x c) c) (fun _ => 0%Qc) c eqn).
  Proof.
    intros Hcx [Hsup _] [_ Hs] [[_ Hds] Hval]. simpl in *.
    eapply contributes_ext; [by intros| |apply (run_implicit_contributes (at_state cx n st) h2 (implicit_kind (at_state cx n st)) _ _ Hs)].
    - intros x c Hc.
      specialize (Hval c (fun k t => match t with Explicit => 0%Qc | Implicit => implicit_kind (at_state cx n st) (sel k) x c end) (fun _ _ => 0%Qc)).
      unfold valueE in Hval. simpl in Hval. pose proof (valueT_zero (V := Qc) c ts) as Z. cbv beta in Z. simpl in Z. rewrite Z in Hval.
      rewrite Qcplus_0_l in Hval. cbv beta. rewrite map_map. etransitivity; [|etransitivity; [exact Hval|]].
      + f_equal.
      + apply equation_value_fext; intros p.
        * exact (objval_object (V := Qc) h0 (fun _ => 0%Qc) (fun k => implicit_kind (at_state cx n st) (sel k) x c) c p).
        * exact (objvalT_zero (V := Qc) c h0 p).
    - intros o Ho Et. apply elem_of_list_fmap in Ho as (o1 & -> & Ho1). simpl in *.
      destruct (derivedS_leaves _ _ _ _ Hds o1 Ho1) as (p & o0 & Hp & E0 & Ek & Ety & Hco).
      split; [|done]. rewrite Ek. destruct (Hsup p o0 Hp E0) as [H1 H2].
      apply (C39_implicit (at_state cx n st)); [done|done|]. rewrite <- Ety, Et in H2. by destruct (sel (so_kind o0)).
  Qed.
  Lemma equation_contributes_T h0 eqn sel st h2 e ts ss dt :
    cx_fits cx -> all_supported cx n sel h0 eqn st ->
    isE h2 e (ts, map (selected sel) ss) -> meansE (nCells m) h0 eqn (ts, ss) ->
    contributes m (cx_pattern cx) (implicitOperation_dt (at_state cx n st) h2 (sp_rowPtrs (cx_pattern cx)) e dt)
      (fun x c => equation_value (fun _ => 0%Qc) (object_value_T h0 (fun _ => 0%Qc) (fun phi => implicit_ddt (at_state cx n st) dt phi x c) c) c eqn).
  Proof.
    intros Hcx [_ Hsup] [Ht _] [[Hdt _] Hval]. simpl in *.
    eapply contributes_ext; [by intros| |apply (run_implicit_T_contributes (at_state cx n st) dt h2 (implicit_ddt (at_state cx n st) dt) _ _ Ht)].
    - intros x c Hc.
      specialize (Hval c (fun _ _ => 0%Qc) (fun k t => match t with Explicit => 0%Qc | Implicit => implicit_ddt (at_state cx n st) dt k x c end)).
      unfold valueE in Hval. simpl in Hval. pose proof (valueS_zero (V := Qc) c ss) as Z. cbv beta in Z. simpl in Z. rewrite Z in Hval.
      rewrite Qcplus_0_r in Hval. etransitivity; [exact Hval|].
      apply equation_value_fext; intros p.
      + exact (objvalS_zero (V := Qc) c h0 p).
      + exact (objval_object_T (V := Qc) h0 (fun _ => 0%Qc) (fun k => implicit_ddt (at_state cx n st) dt k x c) c p).
    - intros o Ho Et.
      destruct (derivedT_leaves _ _ _ _ Hdt o Ho) as (p & o0 & Hp & E0 & Ek & Ety & Hco).
      split; [|done]. rewrite Ek. destruct (Hsup p o0 Hp E0) as [H1 H2].
      by apply (C39_ddt_implicit (at_state cx n st)).
  Qed.

  (** The system of a backward Euler step. *)
  Lemma backward_assembled sel h0 eqn st h2 e ts ss dt :
    all_supported cx n sel h0 eqn st ->
    isE h2 e (ts, map (selected sel) ss) -> meansE (nCells m) h0 eqn (ts, ss) ->
    exists values rhs, sys_ok m (cx_pattern cx) values rhs /\
      surely (rseq (implicitOperation (at_state cx n st) h2 (sp_rowPtrs (cx_pattern cx)) e [replicate (sp_nnz (cx_pattern cx)) 0%Qc; replicate (nCells m) 0%Qc])
        (fun ls => implicitOperation_dt (at_state cx n st) h2 (sp_rowPtrs (cx_pattern cx)) e dt ls)) [values; rhs] /\
      forall x c, c < nCells m -> residual (cx_pattern cx) values rhs x c = implicit_at cx n sel h0 eqn dt st x c.
  Proof.
    intros Hsup HE HM. destruct Hset as (Hcx & _). pose proof Hcx as (Hm & Hp & _).
    pose proof (contributes_seq _ _ _ _ _ _ (equation_contributes sel h0 eqn st h2 e ts ss Hcx Hsup HE HM)
                  (equation_contributes_T h0 eqn sel st h2 e ts ss dt Hcx Hsup HE HM)) as HC.
    destruct (HC (replicate (sp_nnz (cx_pattern cx)) 0%Qc) (replicate (nCells m) 0%Qc)) as (v & b & A1 & A2 & A3).
    { split; apply replicate_length. }
    exists v, b. split; [done|]. split; [done|].
    intros x c Hc. rewrite A3 by done. destruct (residual_zero m (cx_pattern cx) x c (sp_nnz (cx_pattern cx)) (nCells m)) as [Z _].
    etransitivity; [apply f_equal2; [exact Z|reflexivity]|]. unfold implicit_at. simpl. rewrite Qcplus_0_l.
    etransitivity; [symmetry; exact (equation_value_add (V := Qc) _ _ _ _ c eqn)|].
    apply equation_value_fext; intros q; simpl; [apply Qcplus_0_r|apply Qcplus_0_l].
  Qed.
  Lemma backwardEuler_system lin d name sel h0 eqn st h2 e ts ss dt :
    state_ok cx st -> all_supported cx n sel h0 eqn st ->
    isE h2 e (ts, map (selected sel) ss) -> meansE (nCells m) h0 eqn (ts, ss) ->
    surely (sp_create (cx_exec cx) m) (cx_pattern cx) -> solver_create d = Ok name ->
    exists values rhs, sys_ok m (cx_pattern cx) values rhs /\
      (forall r, backwardEuler_solve cx n lin d h2 e dt st r <->
         rseq (lin name d (cx_pattern cx) values rhs (vf_int (ts_phi st)))
           (fun x r' => r' = Ok (TState (with_int (ts_phi st) x) (Some x))) r) /\
      forall x c, c < nCells m -> residual (cx_pattern cx) values rhs x c = implicit_at cx n sel h0 eqn dt st x c.
  Proof.
    intros Hst Hsup HE HM Hpat Hsol. destruct Hset as (Hcx & _). pose proof Hcx as (Hm & Hp & _).
    pose proof (explicit_surely h2 e st _ Hst (equation_adds sel h0 eqn st h2 e ts ss Hcx (all_explicit _ _ _ _ Hsup) HE HM)) as R1.
    destruct (backward_assembled sel h0 eqn st h2 e ts ss dt Hsup HE HM) as (v & b & A2 & A1 & A3).
    exists v, b. split; [done|]. split; [|done].
    intros r. unfold backwardEuler_solve. rewrite (rseq_surely _ _ _ _ R1), (rseq_surely _ _ _ _ Hpat). cbv zeta.
    pose proof (pr_rows _ _ Hp) as Er. unfold sp_rows in Er. rewrite Er.
    rewrite <- rseq_assoc. rewrite (rseq_surely _ _ _ _ A1). unfold solver_solve. rewrite Hsol.
    apply rseq_iff. intros x r'. by rewrite (rseq_surely _ _ _ _ (fop_assign _ _ _)).
  Qed.
End steps.

(** ** build *)
Section build.
  Context (cx : ctx Qc) (d : dict).
  Lemma op_build_idem o o' : op_build cx d o = Ok o' -> op_build cx d o' = Ok o'.
  Proof.
    unfold op_build. destruct o as [k t co]. cbn [so_kind so_type so_coeff]. destruct k as [f p s|g p b|f|c p|u]; try (intros [=<-]; done).
    - match goal with |- context [(div_build ?a ?b ?c).1] => destruct (div_build a b c).1 as [[? ?]| | |] eqn:E end; try done. intros [=<-]. cbn [so_kind so_type so_coeff]. by rewrite E.
    - match goal with |- context [(laplacian_build ?a ?b ?c).1] => destruct (laplacian_build a b c).1 as [?| | |] eqn:E end; try done. intros [=<-]. cbn [so_kind so_type so_coeff]. by rewrite E.
  Qed.
  Lemma op_build_kind sel o o0 : so_kind o = so_kind o0 -> op_build cx d o0 = Ok (selected sel o0) -> op_build cx d o = Ok (selected sel o).
  Proof.
    unfold op_build, selected. destruct o as [k t co], o0 as [k0 t0 co0]. cbn [so_kind so_type so_coeff]. intros ->.
    destruct k0 as [f p s|g p b|f|c p|u].
    - match goal with |- context [(div_build ?a ?b ?c).1] => destruct (div_build a b c).1 as [[? ?]| | |] eqn:E end; try done. intros [=<-]. done.
    - match goal with |- context [(laplacian_build ?a ?b ?c).1] => destruct (laplacian_build a b c).1 as [?| | |] eqn:E end; try done. intros [=<-]. done.
    - intros [=<-]. done.
    - intros [=<-]. done.
    - intros [=<-]. done.
  Qed.
  Lemma buildS_spec l : forall (h : heap Qc) os os',
    Forall2 (isS h) l os -> Forall2 (fun o o' => op_build cx d o = Ok o') os os' ->
    exists h', buildS cx d l h = Ok (tt, h') /\ h_temporal h' = h_temporal h /\
      Forall2 (isS h') l os' /\ (forall p o, isS h p o -> op_build cx d o = Ok o -> isS h' p o).
  Proof.
    induction l as [|p l IH]; intros h os os' HF HB.
    - apply Forall2_nil_inv_l in HF as ->. apply Forall2_nil_inv_l in HB as ->. exists h. simpl. done.
    - apply Forall2_cons_inv_l in HF as (o & os1 & Ho & HF & ->).
      apply Forall2_cons_inv_l in HB as (o' & os1' & Hb & HB & ->).
      set (h1 := Heap (<[p := o']> (h_spatial h)) (h_temporal h)).
      assert (exists os2, Forall2 (isS h1) l os2 /\ Forall2 (fun o o' => op_build cx d o = Ok o') os2 os1') as (os2 & HF2 & HB2).
      { clear IH. revert os1 os1' HF HB. induction l as [|q l IH2]; intros os1 os1' HF HB.
        - apply Forall2_nil_inv_l in HF as ->. apply Forall2_nil_inv_l in HB as ->. exists []. split; constructor.
        - apply Forall2_cons_inv_l in HF as (oq & osq & Hq & HF & ->).
          apply Forall2_cons_inv_l in HB as (oq' & osq' & Hbq & HB & ->).
          destruct (IH2 _ _ HF HB) as (os2 & A1 & A2).
          destruct (decide (q = p)) as [->|Hne].
          + exists (o' :: os2). unfold isS in *. assert (oq = o) as -> by congruence. assert (oq' = o') as -> by congruence.
            split; constructor; try done.
            * simpl. apply list_lookup_insert. by apply lookup_lt_Some in Ho.
            * by apply (op_build_idem o).
          + exists (oq :: os2). split; constructor; try done. unfold isS in *. simpl. by rewrite list_lookup_insert_ne. }
      destruct (IH h1 os2 os1' HF2 HB2) as (h' & E & Ht & HF' & Hk).
      assert (Hkeep : forall q x, isS h q x -> op_build cx d x = Ok x -> isS h1 q x).
      { intros q x Hx Hbx. unfold isS in *. simpl. destruct (decide (p = q)) as [->|Hne].
        - assert (x = o) as -> by congruence. assert (o' = o) as -> by congruence. rewrite list_lookup_insert; [done|]. by apply lookup_lt_Some in Ho.
        - by rewrite list_lookup_insert_ne. }
      exists h'. split.
      { cbn [buildS]. unfold bind at 1. unfold readS at 1. unfold isS in Ho. rewrite Ho, Hb. exact E. }
      split; [done|]. split.
      + constructor; [|done]. apply Hk; [|by apply (op_build_idem o)].
        unfold isS in *. simpl. apply list_lookup_insert. by apply lookup_lt_Some in Ho.
      + intros q x Hx Hbx. apply Hk; [|done]. by apply Hkeep.
  Qed.
End build.

(** ** The value of an equation depends on its objects only *)
Lemma tterm_value_ext (v v' : nat -> Qc) c s : v (tterm_object s) = v' (tterm_object s) -> tterm_value v c s = tterm_value v' c s.
Proof. induction s; simpl; intros E; [done|..]; by rewrite IHs. Qed.
Lemma equation_value_objects (v v' w w' : nat -> Qc) c e :
  (forall p, p ∈ spatial_objects e -> v p = v' p) -> (forall p, p ∈ temporal_objects e -> w p = w' p) ->
  equation_value v w c e = equation_value v' w' c e.
Proof.
  assert (Et : forall t, (forall p, p ∈ term_spatial t -> v p = v' p) -> (forall p, p ∈ term_temporal t -> w p = w' p) ->
    term_value v w c t = term_value v' w' c t).
  { intros [s|s] Hv Hw; simpl in *; [apply sterm_value_ext, Hv|apply tterm_value_ext, Hw]; left. }
  assert (Hs : forall (a b : nat -> Qc) l, (forall p, p ∈ l -> a p = b p) -> map a l = map b l).
  { intros a b l Hl. apply map_ext_in. intros x Hx. by apply Hl, elem_of_list_In. }
  induction e as [x|a b|a b|a IHa b IHb|a IHa b IHb|a IHa s|a IHa s|k a IHa]; simpl; intros Hv Hw.
  - by rewrite (Hs _ _ _ Hv), (Hs _ _ _ Hw).
  - rewrite (Et a), (Et b); try done; intros p Hp; (apply Hv || apply Hw); apply elem_of_app; tauto.
  - rewrite (Et a), (Et b); try done; intros p Hp; (apply Hv || apply Hw); apply elem_of_app; tauto.
  - rewrite IHa, IHb; try done; intros p Hp; (apply Hv || apply Hw); apply elem_of_app; tauto.
  - rewrite IHa, IHb; try done; intros p Hp; (apply Hv || apply Hw); apply elem_of_app; tauto.
  - rewrite IHa; [|intros p Hp; apply Hv; apply elem_of_app; tauto|done]. f_equal. apply (sterm_value_ext (V := Qc)). apply Hv. apply elem_of_app. right. left.
  - rewrite IHa; [|intros p Hp; apply Hv; apply elem_of_app; tauto|done]. do 2 f_equal. apply (sterm_value_ext (V := Qc)). apply Hv. apply elem_of_app. right. left.
  - by rewrite IHa.
Qed.
Lemma implicit_at_all cx n sel h eqn dt st x c :
  (forall p o, p ∈ spatial_objects eqn -> h_spatial h !! p = Some o -> so_type o = Implicit) ->
  implicit_at cx n sel h eqn dt st x c = equation_at cx n sel h eqn dt st x c.
Proof.
  intros Hi. unfold implicit_at, equation_at. apply equation_value_objects; [|done].
  intros p Hp. unfold object_value. destruct (h_spatial h !! p) as [o|] eqn:Eo; [|done]. by rewrite (Hi p o Hp Eo).
Qed.
