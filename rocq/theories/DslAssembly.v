(** Assembly of equations; the library's operators as leaves. *)
From Verif Require Import Base Dict Registry Par Exec Value Kernel KernelProofs Mesh MeshSpec Coeff FV FVSpec FVProofs FVProps
  Sparsity SparsitySpec Assembly AssemblySpec AssemblyProofs AssemblyProps Dsl DslSpec DslHeapProofs DslProofs.

Section assembly.
  Context {V : Type} `{HT : ValueType V} {HL : ValueLaws V} {HU : ValueUnit V} {HUL : UnitLaws V} {HG : ValueTag V}.
  Add Ring Vring3 : (V_ring (V := V)).

  (** ** The value of an equation is linear in the values of its objects *)
  Section linear.
    Context (v v' w w' : nat -> V) (c : nat).
    Lemma sterm_value_add s : sterm_value (fun p => vadd (v p) (v' p)) c s = vadd (sterm_value v c s) (sterm_value v' c s).
    Proof. induction s; simpl; [done|..]; by rewrite IHs, vscale_add. Qed.
    Lemma tterm_value_add s : tterm_value (fun p => vadd (w p) (w' p)) c s = vadd (tterm_value w c s) (tterm_value w' c s).
    Proof. induction s; simpl; [done|..]; by rewrite IHs, vscale_add. Qed.
    Lemma equation_value_add e :
      equation_value (fun p => vadd (v p) (v' p)) (fun p => vadd (w p) (w' p)) c e =
      vadd (equation_value v w c e) (equation_value v' w' c e).
    Proof.
      assert (Et : forall t, term_value (fun p => vadd (v p) (v' p)) (fun p => vadd (w p) (w' p)) c t =
        vadd (term_value v w c t) (term_value v' w' c t)).
      { intros [s|s]; simpl; [apply sterm_value_add|apply tterm_value_add]. }
      assert (Hs : forall (a b : nat -> V) l, vsum (map (fun p => vadd (a p) (b p)) l) = vadd (vsum (map a l)) (vsum (map b l))).
      { intros a b l. induction l as [|x l IH]; simpl; [ring|]. rewrite IH. ring. }
      induction e; simpl; rewrite ?Et, ?IHe, ?IHe1, ?IHe2, ?sterm_value_add, ?Hs, ?vscale_add; ring.
    Qed.
  End linear.
  Section scale.
    Context (v w : nat -> V) (k : Qc) (c : nat).
    Lemma vscale_swap a b (x : V) : vscale a (vscale b x) = vscale b (vscale a x).
    Proof. rewrite <- !vscale_mul. f_equal. ring. Qed.
    Lemma sterm_value_scale s : sterm_value (fun p => vscale k (v p)) c s = vscale k (sterm_value v c s).
    Proof. induction s; simpl; [done|..]; by rewrite IHs, vscale_swap. Qed.
    Lemma tterm_value_scale s : tterm_value (fun p => vscale k (w p)) c s = vscale k (tterm_value w c s).
    Proof. induction s; simpl; [done|..]; by rewrite IHs, vscale_swap. Qed.
    Lemma equation_value_scale e :
      equation_value (fun p => vscale k (v p)) (fun p => vscale k (w p)) c e = vscale k (equation_value v w c e).
    Proof.
      assert (Et : forall t, term_value (fun p => vscale k (v p)) (fun p => vscale k (w p)) c t = vscale k (term_value v w c t)).
      { intros [s|s]; simpl; [apply sterm_value_scale|apply tterm_value_scale]. }
      induction e; simpl; rewrite ?Et, ?IHe, ?IHe1, ?IHe2, ?sterm_value_scale; rewrite ?vscale_add, ?vscale_neg; try done.
      - by rewrite !vsum_map_scale.
      - unfold vsub. by rewrite vscale_add, vscale_neg.
      - unfold vsub. by rewrite vscale_add, vscale_neg.
      - unfold vsub. by rewrite vscale_add, vscale_neg.
      - apply vscale_swap.
    Qed.
  End scale.

  (** ** rhs -= V * source *)
  Lemma subtract_source_contributes e m p (src : list V) : valid_topology m -> length src = nCells m ->
    contributes m p (fun ls => lift (subtract_source e m src ls)) (fun _ c => vscale (at0 (cellVolumes m) c) (atV src c)).
  Proof.
    intros Hm Hl values rhs [Hv Hr].
    destruct (own_slot_iff (fun i => (1, i)) (fun i => SSub (1, i) (vscale (at0 (cellVolumes m) i) (atV src i))) e 0 (nCells m) [values; rhs]
      (fun i => s ← src !! i; v ← cellVolumes m !! i; Some [SSub (1, i) (vscale v s)])) as (m' & Hrun & Hsh & Hg & Ho).
    - intros i Hi. rewrite (lookup_atV src) by lia. rewrite (vol_lookup m Hm) by lia. done.
    - intros i Hi. split; [done|]. rewrite shape2. apply in_shape2_1. lia.
    - intros i j _ _ E. congruence.
    - rewrite shape2 in Hsh. apply shape2_inv in Hsh as (values' & rhs' & -> & L1 & L2).
      assert (Ev : values' = values).
      { apply list_eq. intros i. specialize (Ho (0, i)). unfold mget in Ho. simpl in Ho. apply Ho. intros j _ E. congruence. }
      subst values'. exists values, rhs'. split; [|split].
      + unfold subtract_source. rewrite Hr. apply surely_lift. exact Hrun.
      + split; [done|lia].
      + intros x c Hc. unfold residual, vsub. rewrite <- vadd_assoc. f_equal.
        specialize (Hg c ltac:(lia)). unfold mget in Hg. simpl in Hg. unfold atV at 1 2. rewrite Hg.
        rewrite (lookup_atV rhs) by lia. simpl. unfold vsub. ring.
  Qed.

  (** ** assemble *)
  Lemma residual_zero m p (x : list V) c a b : 
    residual p (replicate a vzero) (replicate b vzero) x c = vzero /\ sys_ok m p (replicate (sp_nnz p) (vzero : V)) (replicate (nCells m) vzero).
  Proof.
    split; [|split; apply replicate_length].
    unfold residual, mat_row. rewrite vsum_map_zero; [|intros k _].
    - rewrite atV_zero. ring.
    - rewrite atV_zero. ring.
  Qed.

  Context (cx : ctx V) (h0 : heap V) (eqn : equation).
  Notation m := (cx_mesh cx).
  Notation p := (cx_pattern cx).
  Context (Hm : valid_topology m).
  Context (Hwf : equation_wf h0 (nCells m) eqn) (Hsf : single_fields h0 eqn).

  Definition mixed_value (GE : spatialKind V -> nat -> V) (GI : spatialKind V -> list V -> nat -> V)
    (GT : nat -> list V -> nat -> V) (x : list V) (c : nat) : V :=
    equation_value (object_value h0 (fun k => vscale (at0 (cellVolumes m) c) (GE k c)) (fun k => GI k x c) c)
      (object_value_T h0 (fun _ => vzero) (fun k => GT k x c) c) c eqn.

  Lemma mixed_split GE GI GT x c :
    mixed_value GE GI GT x c =
    vadd (vadd (equation_value (object_value h0 (fun _ => vzero) (fun k => GI k x c) c) (fun _ => vzero) c eqn)
               (equation_value (fun _ => vzero) (object_value_T h0 (fun _ => vzero) (fun k => GT k x c) c) c eqn))
         (vscale (at0 (cellVolumes m) c) (equation_value (object_value h0 (fun k => GE k c) (fun _ => vzero) c) (fun _ => vzero) c eqn)).
  Proof.
    rewrite <- equation_value_scale, <- !equation_value_add. unfold mixed_value.
    apply equation_value_fext; intros q.
    - unfold object_value. destruct (h_spatial h0 !! q) as [o|].
      + destruct (so_type o); rewrite ?vscale_0_r; [ring|]. rewrite vscale_swap. ring.
      + rewrite ?vscale_0_r. ring.
    - rewrite vscale_0_r. ring.
  Qed.

  Lemma assembled GE GI GT dt : explicit_leaves cx h0 GE eqn -> implicit_leaves cx h0 GI eqn -> implicit_leaves_T cx dt h0 GT eqn ->
    (forall q o, q ∈ temporal_objects eqn -> h_temporal h0 !! q = Some o -> to_type o = Implicit) ->
    exists e h1, eval_equation eqn h0 = Ok (e, h1) /\ preserved h0 h1 /\
    forall values rhs, sys_ok m p values rhs -> exists values' rhs',
      surely (assemble cx h1 e dt [values; rhs]) [values'; rhs'] /\ sys_ok m p values' rhs' /\
      forall x c, c < nCells m -> residual p values' rhs' x c = mixed_value GE GI GT x c.
  Proof.
    intros HE HI HTT Hno.
    destruct (built cx h0 eqn Hwf Hsf) as (e & h1 & Ee & Hpres & B1 & B2 & B3 & B4).
    exists e, h1. split; [done|]. split; [done|]. intros values rhs Hs.
    specialize (B1 GE HE). specialize (B2 GI HI). specialize (B3 dt GT HTT). specialize (B4 Hno dt).
    set (g := fun c => equation_value (object_value h0 (fun k => GE k c) (fun _ => vzero) c) (fun _ => vzero) c eqn) in *.
    assert (L0 : length (replicate (nCells m) (vzero : V)) = nCells m) by apply replicate_length.
    pose proof (B1 _ L0) as R1. set (s0 := map _ _) in R1.
    assert (Ls0 : length s0 = nCells m) by (unfold s0; by rewrite map_length, seq_length).
    pose proof (B4 s0 Ls0) as R2. set (s1 := map _ _) in R2.
    assert (Ls1 : length s1 = nCells m) by (unfold s1; by rewrite map_length, seq_length).
    assert (Vs1 : forall c, c < nCells m -> atV s1 c = g c).
    { intros c Hc. unfold s1, s0, atV. rewrite (list_lookup_fmap _ (seq 0 (nCells m)) c), lookup_seq_lt by done. simpl.
      rewrite (list_lookup_fmap _ (seq 0 (nCells m)) c), lookup_seq_lt by done. simpl.
      fold (atV (replicate (nCells m) (vzero : V)) c). rewrite atV_zero. ring. }
    destruct Hs as [Hv Hr].
    assert (E0 : map (fun l => replicate (length l) (vzero : V)) [values; rhs] = [replicate (sp_nnz p) vzero; replicate (nCells m) vzero]).
    { simpl. by rewrite Hv, Hr. }
    pose proof (contributes_seq _ _ _ _ _ _ B2 (contributes_seq _ _ _ _ _ _ B3
      (subtract_source_contributes (cx_exec cx) m p s1 Hm Ls1))) as HC.
    destruct (HC (replicate (sp_nnz p) vzero) (replicate (nCells m) vzero)) as (v' & r' & A1 & A2 & A3).
    { split; apply replicate_length. }
    exists v', r'. split; [|split; [done|]].
    - unfold assemble. eapply surely_rseq; [exact R1|]. eapply surely_rseq; [exact R2|].
      rewrite E0. exact A1.
    - intros x c Hc. rewrite A3 by done. destruct (residual_zero m p x c (sp_nnz p) (nCells m)) as [-> _].
      rewrite Vs1 by done. rewrite mixed_split. fold (g c). ring.
  Qed.

  (** The system built by solve (fresh pattern = cached pattern). *)
  Lemma solve_assembled GE GI : explicit_leaves cx h0 GE eqn -> implicit_leaves cx h0 GI eqn ->
    pattern_rows m p ->
    exists e h1, eval_equation eqn h0 = Ok (e, h1) /\ preserved h0 h1 /\ exists values' rhs',
      surely (solve_system cx h1 e p) [values'; rhs'] /\ sys_ok m p values' rhs' /\
      forall x c, c < nCells m -> residual p values' rhs' x c =
        equation_value (object_value h0 (fun k => vscale (at0 (cellVolumes m) c) (GE k c)) (fun k => GI k x c) c) (fun _ => vzero) c eqn.
  Proof.
    intros HE HI Hp.
    destruct (built cx h0 eqn Hwf Hsf) as (e & h1 & Ee & Hpres & B1 & B2 & _ & _).
    exists e, h1. split; [done|]. split; [done|].
    specialize (B1 GE HE). specialize (B2 GI HI).
    set (g := fun c => equation_value (object_value h0 (fun k => GE k c) (fun _ => vzero) c) (fun _ => vzero) c eqn) in *.
    assert (L0 : length (replicate (nCells m) (vzero : V)) = nCells m) by apply replicate_length.
    pose proof (B1 _ L0) as R1. set (s1 := map _ _) in R1.
    assert (Ls1 : length s1 = nCells m) by (unfold s1; by rewrite map_length, seq_length).
    assert (Vs1 : forall c, c < nCells m -> atV s1 c = g c).
    { intros c Hc. unfold s1, atV. rewrite (list_lookup_fmap _ (seq 0 (nCells m)) c), lookup_seq_lt by done. simpl.
      fold (atV (replicate (nCells m) (vzero : V)) c). rewrite atV_zero. ring. }
    destruct (B2 (replicate (sp_nnz p) vzero) (replicate (nCells m) vzero)) as (v1 & r1 & A1 & A2 & A3).
    { split; apply replicate_length. }
    destruct (subtract_source_contributes (cx_exec cx) m p s1 Hm Ls1 v1 r1 A2) as (v2 & r2 & C1 & C2 & C3).
    exists v2, r2. split; [|split; [done|]].
    - unfold solve_system. pose proof (pr_rows m p Hp) as Er. unfold sp_rows in Er. rewrite Er.
      eapply surely_rseq; [exact A1|]. eapply surely_rseq; [exact R1|]. exact C1.
    - intros x c Hc. rewrite C3, A3 by done. destruct (residual_zero m p x c (sp_nnz p) (nCells m)) as [-> _].
      rewrite Vs1 by done. unfold g.
      assert (E : forall a b : V, vadd (vadd vzero a) b = vadd a b) by (intros; ring). rewrite E.
      rewrite <- (vscale_0_r (at0 (cellVolumes m) c)).
      rewrite <- equation_value_scale, <- equation_value_add. apply equation_value_fext; intros q.
      + unfold object_value. destruct (h_spatial h0 !! q) as [o|].
        * destruct (so_type o); rewrite ?vscale_0_r; [ring|]. rewrite vscale_swap. ring.
        * rewrite ?vscale_0_r. ring.
      + rewrite ?vscale_0_r. ring.
  Qed.
End assembly.
