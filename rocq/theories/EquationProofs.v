(** Proofs about equation objects. *)
From Verif Require Import Base Dict Registry Par Exec Value Kernel Mesh MeshSpec Coeff FV FVSpec Sparsity SparsitySpec Assembly AssemblySpec Dsl DslSpec DslHeapProofs DslProofs DslFresh DslAssembly Properties_Dsl Properties_DslAssembly EquationObj EquationSpec.

Section proofs.
  Context {V : Type} {VT : ValueType V} {VL : ValueLaws V} {VU : ValueUnit V} {VUL : UnitLaws V} {VG : ValueTag V}.
  Notation heap := (heap V).
  Notation world := (world V).

  (** An operator object in memory. *)
  Definition live (h : heap) (x : operand) : Prop :=
    match x with OpS p => p < length (h_spatial h) | OpT p => p < length (h_temporal h) end.
  (** Objects other than [P] are the same. *)
  Definition same_at (h h' : heap) (x : operand) : Prop :=
    match x with OpS p => h_spatial h' !! p = h_spatial h !! p | OpT p => h_temporal h' !! p = h_temporal h !! p end.
  Definition frame (P : operand -> Prop) (h h' : heap) : Prop :=
    bigger h h' /\ forall x, live h x -> ~ P x -> same_at h h' x.

  Lemma ext_frame P (h h' : heap) : ext h h' -> frame P h h'.
  Proof.
    intros [[l1 E1] [l2 E2]]. split.
    - split; [rewrite E1|rewrite E2]; rewrite app_length; lia.
    - intros [p|p] Hl _; simpl in *; [rewrite E1|rewrite E2]; by apply lookup_app_l.
  Qed.
  Lemma live_bigger (h h' : heap) x : bigger h h' -> live h x -> live h' x.
  Proof. intros [H1 H2]. destruct x; simpl; lia. Qed.
  Lemma frame_trans P (h h' h'' : heap) : frame P h h' -> frame P h' h'' -> frame P h h''.
  Proof.
    intros [B1 F1] [B2 F2]. split; [by eapply bigger_trans|]. intros x Hl Hx.
    pose proof (F1 x Hl Hx) as E1. pose proof (F2 x (live_bigger _ _ _ B1 Hl) Hx) as E2.
    destruct x; simpl in *; congruence.
  Qed.

  Lemma live_S (h : heap) p : live h (OpS p) <-> exists o, isS h p o.
  Proof. unfold isS. simpl. rewrite <- lookup_lt_is_Some. unfold is_Some. done. Qed.
  Lemma live_T (h : heap) p : live h (OpT p) <-> exists o, isT h p o.
  Proof. unfold isT. simpl. rewrite <- lookup_lt_is_Some. unfold is_Some. done. Qed.

  Lemma F2_exists {A B} (R : A -> B -> Prop) l : (forall x, x ∈ l -> exists y, R x y) -> exists l', Forall2 R l l'.
  Proof.
    induction l as [|x l IH]; intros HR; [exists []; constructor|].
    destruct (HR x) as [y Hy]; [left|]. destruct IH as [l' Hl]; [intros; apply HR; by right|].
    exists (y :: l'). by constructor.
  Qed.
  Lemma live_isE (h : heap) e : (forall x, x ∈ operands e -> live h x) -> exists v, isE h e v.
  Proof.
    intros Hl. destruct (F2_exists (isT h) (ex_temporal e)) as [ts Ht].
    { intros p Hp. apply live_T, Hl. unfold operands. apply elem_of_app. left. by apply elem_of_list_fmap_1. }
    destruct (F2_exists (isS h) (ex_spatial e)) as [ss Hs].
    { intros p Hp. apply live_S, Hl. unfold operands. apply elem_of_app. right. by apply elem_of_list_fmap_1. }
    exists (ts, ss). by split.
  Qed.
  Lemma isE_live (h : heap) e v x : isE h e v -> x ∈ operands e -> live h x.
  Proof.
    intros [H1 H2] Hx. unfold operands in Hx. apply elem_of_app in Hx as [Hx|Hx]; apply elem_of_list_fmap in Hx as (p & -> & Hp);
      apply elem_of_list_lookup in Hp as [i Hi].
    - apply live_T. destruct (Forall2_lookup_l _ _ _ _ _ H1 Hi) as (o & _ & Ho). by exists o.
    - apply live_S. destruct (Forall2_lookup_l _ _ _ _ _ H2 Hi) as (o & _ & Ho). by exists o.
  Qed.
  Lemma isE_same (h h' : heap) e v : (forall x, x ∈ operands e -> same_at h h' x) -> isE h e v -> isE h' e v.
  Proof.
    intros Hs [H1 H2]. split.
    - apply Forall2_same_length_lookup_2; [by eapply Forall2_length|]. intros i p o Hp Ho.
      pose proof (Forall2_lookup_lr _ _ _ _ _ _ H1 Hp Ho) as Hi. unfold isT in *.
      rewrite <- Hi. apply (Hs (OpT p)). unfold operands. apply elem_of_app. left. apply elem_of_list_fmap_1. by eapply elem_of_list_lookup_2.
    - apply Forall2_same_length_lookup_2; [by eapply Forall2_length|]. intros i p o Hp Ho.
      pose proof (Forall2_lookup_lr _ _ _ _ _ _ H2 Hp Ho) as Hi. unfold isS in *.
      rewrite <- Hi. apply (Hs (OpS p)). unfold operands. apply elem_of_app. right. apply elem_of_list_fmap_1. by eapply elem_of_list_lookup_2.
  Qed.

  (** Operators at or above the size of [h0]. *)
  Definition newer (h0 : heap) (x : operand) : Prop := ~ live h0 x.
  Lemma own_newer (h0 : heap) e x : own h0 e -> x ∈ operands e -> newer h0 x.
  Proof.
    intros [H1 H2] Hx. unfold operands in Hx. apply elem_of_app in Hx as [Hx|Hx]; apply elem_of_list_fmap in Hx as (p & -> & Hp);
      unfold newer; simpl.
    - pose proof (H2 p Hp). lia.
    - pose proof (H1 p Hp). lia.
  Qed.

  Lemma objects_wf (h : heap) t : (forall p, p ∈ spatial_objects t -> live h (OpS p)) -> (forall p, p ∈ temporal_objects t -> live h (OpT p)) ->
    equation_wf h 0 t.
  Proof.
    assert (HO : forall p, live h (OpS p) -> objS h 0 p).
    { intros p Hp. apply live_S in Hp as [o Ho]. exists o. split; [done|]. unfold coeff_ok. destruct (view_ _); [lia|done]. }
    assert (HP : forall p, live h (OpT p) -> objT h 0 p).
    { intros p Hp. apply live_T in Hp as [o Ho]. exists o. split; [done|]. unfold coeff_ok. destruct (view_ _); [lia|done]. }
    assert (HC : forall c, coeff_ok c 0) by (intros c; unfold coeff_ok; destruct (view_ _); [lia|done]).
    assert (HS : forall s, live h (OpS (sterm_object s)) -> sterm_wf h 0 s).
    { induction s as [q|k s IH|f s IH|c s IH]; intros Hl; cbn [sterm_object sterm_wf] in *; auto; split; auto; lia. }
    assert (HTT : forall s, live h (OpT (tterm_object s)) -> tterm_wf h 0 s).
    { induction s as [q|k s IH|f s IH|c s IH]; intros Hl; cbn [tterm_object tterm_wf] in *; auto; split; auto; lia. }
    assert (HTM : forall a, (forall p, p ∈ term_spatial a -> live h (OpS p)) -> (forall p, p ∈ term_temporal a -> live h (OpT p)) -> term_wf h 0 a).
    { intros [s|s] H1' H2'; [apply HS, H1'|apply HTT, H2']; left. }
    induction t as [x|a b|a b|a IHa b IHb|a IHa b IHb|a IHa s|a IHa s|k a IHa]; intros HS1 HT1; cbn [spatial_objects temporal_objects equation_wf] in *.
    - split; apply Forall_forall; auto.
    - split; apply HTM; intros; (apply HS1 || apply HT1); apply elem_of_app; auto.
    - split; apply HTM; intros; (apply HS1 || apply HT1); apply elem_of_app; auto.
    - split; [apply IHa|apply IHb]; intros; (apply HS1 || apply HT1); apply elem_of_app; auto.
    - split; [apply IHa|apply IHb]; intros; (apply HS1 || apply HT1); apply elem_of_app; auto.
    - split; [apply IHa; [intros; apply HS1; apply elem_of_app; auto|done]|]. apply HS, HS1, elem_of_app. right. left.
    - split; [apply IHa; [intros; apply HS1; apply elem_of_app; auto|done]|]. apply HS, HS1, elem_of_app. right. left.
    - by apply IHa.
  Qed.

  Section build.
  Context (cx : ctx V) (d : dict).
  Lemma build_idem o o' : op_build cx d o = Ok o' -> op_build cx d o' = Ok o'.
  Proof.
    unfold op_build. destruct o as [k t co]. cbn [so_kind so_type so_coeff]. destruct k as [f p s|g p b|f|c p|u]; try (intros [=<-]; done).
    - match goal with |- context [(div_build ?a ?b ?c).1] => destruct (div_build a b c).1 as [[? ?]| | |] eqn:E end; try done. intros [=<-]. cbn [so_kind so_type so_coeff]. by rewrite E.
    - match goal with |- context [(laplacian_build ?a ?b ?c).1] => destruct (laplacian_build a b c).1 as [?| | |] eqn:E end; try done. intros [=<-]. cbn [so_kind so_type so_coeff]. by rewrite E.
  Qed.
  Lemma build_kind sel o o0 : so_kind o = so_kind o0 -> op_build cx d o0 = Ok (with_scheme sel o0) -> op_build cx d o = Ok (with_scheme sel o).
  Proof.
    unfold op_build, with_scheme. destruct o as [k t co], o0 as [k0 t0 co0]. cbn [so_kind so_type so_coeff]. intros ->.
    destruct k0 as [f p s|g p b|f|c p|u].
    - match goal with |- context [(div_build ?a ?b ?c).1] => destruct (div_build a b c).1 as [[? ?]| | |] eqn:E end; try done. intros [=<-]. done.
    - match goal with |- context [(laplacian_build ?a ?b ?c).1] => destruct (laplacian_build a b c).1 as [?| | |] eqn:E end; try done. intros [=<-]. done.
    - intros [=<-]. done.
    - intros [=<-]. done.
    - intros [=<-]. done.
  Qed.
  Lemma build_values l : forall (h : heap) os os',
    Forall2 (isS h) l os -> Forall2 (fun o o' => op_build cx d o = Ok o') os os' ->
    exists h', buildS cx d l h = Ok (tt, h') /\ h_temporal h' = h_temporal h /\
      Forall2 (isS h') l os' /\ (forall p o, isS h p o -> op_build cx d o = Ok o -> isS h' p o).
  Proof.
    induction l as [|p l IH]; intros h os os' HF HB.
    - apply Forall2_nil_inv_l in HF as ->. apply Forall2_nil_inv_l in HB as ->. exists h. simpl. done.
    - apply Forall2_cons_inv_l in HF as (o & os1 & Ho & HF & ->).
      apply Forall2_cons_inv_l in HB as (o' & os1' & Hb & HB & ->).
      set (h1 := Heap (<[p := o']> (h_spatial h)) (h_temporal h)).
      assert (exists os2, Forall2 (isS h1) l os2 /\ Forall2 (fun o o' => op_build cx d o = Ok o') os2 os1') as (os2 & HF2 & HB2).
      { clear IH. revert os1 os1' HF HB. induction l as [|q l IH2]; intros os1 os1' HF HB.
        - apply Forall2_nil_inv_l in HF as ->. apply Forall2_nil_inv_l in HB as ->. exists []. split; constructor.
        - apply Forall2_cons_inv_l in HF as (oq & osq & Hq & HF & ->).
          apply Forall2_cons_inv_l in HB as (oq' & osq' & Hbq & HB & ->).
          destruct (IH2 _ _ HF HB) as (os2 & A1 & A2).
          destruct (decide (q = p)) as [->|Hne].
          + exists (o' :: os2). unfold isS in *. assert (oq = o) as -> by congruence. assert (oq' = o') as -> by congruence.
            split; constructor; try done.
            * simpl. apply list_lookup_insert. by apply lookup_lt_Some in Ho.
            * by apply (build_idem o).
          + exists (oq :: os2). split; constructor; try done. unfold isS in *. simpl. by rewrite list_lookup_insert_ne. }
      destruct (IH h1 os2 os1' HF2 HB2) as (h' & E & Ht & HF' & Hk).
      assert (Hkeep : forall q x, isS h q x -> op_build cx d x = Ok x -> isS h1 q x).
      { intros q x Hx Hbx. unfold isS in *. simpl. destruct (decide (p = q)) as [->|Hne].
        - assert (x = o) as -> by congruence. assert (o' = o) as -> by congruence. rewrite list_lookup_insert; [done|]. by apply lookup_lt_Some in Ho.
        - by rewrite list_lookup_insert_ne. }
      exists h'. split.
      { cbn [buildS]. unfold bind at 1. unfold readS at 1. unfold isS in Ho. rewrite Ho, Hb. exact E. }
      split; [done|]. split.
      + constructor; [|done]. apply Hk; [|by apply (build_idem o)].
        unfold isS in *. simpl. apply list_lookup_insert. by apply lookup_lt_Some in Ho.
      + intros q x Hx Hbx. apply Hk; [|done]. by apply Hkeep.
  Qed.
  Lemma buildS_frame l : forall (h h' : heap), buildS cx d l h = Ok (tt, h') -> frame (fun x => exists p, p ∈ l /\ x = OpS p) h h'.
  Proof using Type.
    induction l as [|p l IH]; intros h h' E; cbn [buildS] in E.
    - injection E as <-. apply ext_frame, ext_refl.
    - unfold bind at 1, readS at 1 in E. destruct (h_spatial h !! p) as [o|] eqn:Eo; [|done].
      destruct (op_build cx d o) as [o'| | |]; try done. cbn [bind writeS] in E. unfold bind, writeS in E. apply IH in E as [B F].
      split.
      + destruct B as [B1 B2]. cbn in B1, B2. rewrite insert_length in B1. by split.
      + intros x Hl Hx. assert (live (Heap (<[p := o']> (h_spatial h)) (h_temporal h)) x) as Hl'.
        { destruct x; simpl in *; [by rewrite insert_length|done]. }
        assert (~ exists p0, p0 ∈ l /\ x = OpS p0) as Hx'.
        { intros (p0 & H1 & H2). apply Hx. exists p0. split; [by right|done]. }
        specialize (F x Hl' Hx'). destruct x as [q|q]; simpl in *; [|done].
        rewrite F. apply list_lookup_insert_ne. intros ->. apply Hx. exists q. split; [left|done].
  Qed.
  End build.

  (** ** The operations of a program *)
  Lemma eval_frame (h : heap) t e h' : (forall p, p ∈ spatial_objects t -> live h (OpS p)) -> (forall p, p ∈ temporal_objects t -> live h (OpT p)) ->
    eval_equation t h = Ok (e, h') -> ext h h' /\ exists v, isE h' e v.
  Proof.
    intros H1 H2 E. destruct (eval_equation_spec 0 h t h (ext_refl h) (objects_wf h t H1 H2)) as [[_ Hok]|[_ Hn]]; [|congruence].
    destruct Hok as (e1 & h1 & E1 & Hx & v & Hv & _). assert (e1 = e /\ h1 = h') as [-> ->] by (split; congruence). split; [done|]. by exists v.
  Qed.
  Lemma copyE_frame (h : heap) e v : isE h e v -> exists e' h', copyE e h = Ok (e', h') /\ ext h h' /\ isE h' e' v /\ own h e'.
  Proof.
    intros Hv. destruct (copyE_ok h e v Hv) as (e' & h' & E & Hx & Hv'). exists e', h'. split; [done|]. split; [done|]. split; [done|].
    pose proof (copyE_par h h e (bigger_refl h)) as Hp. unfold par in Hp. destruct (Hp e' h' E) as [_ Ho]. done.
  Qed.

  Lemma addOperator_frame (h : heap) e x e' h' : live h x -> addOperator e x h = Ok (e', h') ->
    ext h h' /\ forall y, y ∈ operands e' -> y ∈ operands e \/ (newer h y /\ live h' y).
  Proof.
    intros Hl E. destruct x as [p|p]; cbn [addOperator] in E.
    - apply live_S in Hl as [o Ho]. unfold addOperatorS, bind in E. rewrite (copyS_eq h p o Ho) in E. injection E as <- <-.
      split; [apply ext_pushS|]. intros y Hy. unfold operands in Hy. cbn [ex_temporal ex_spatial] in Hy. rewrite map_app in Hy.
      rewrite app_assoc in Hy. apply elem_of_app in Hy as [Hy|Hy]; [by left|]. right. apply elem_of_list_singleton in Hy as ->.
      split; [unfold newer; simpl; lia|]. simpl. rewrite app_length. simpl. lia.
    - apply live_T in Hl as [o Ho]. unfold addOperatorT, bind in E. rewrite (copyT_eq h p o Ho) in E. injection E as <- <-.
      split; [apply ext_pushT|]. intros y Hy. unfold operands in Hy. cbn [ex_temporal ex_spatial] in Hy. rewrite map_app in Hy.
      apply elem_of_app in Hy as [Hy|Hy]; [|left; unfold operands; apply elem_of_app; by right].
      apply elem_of_app in Hy as [Hy|Hy]; [left; unfold operands; apply elem_of_app; by left|]. right. apply elem_of_list_singleton in Hy as ->.
      split; [unfold newer; simpl; lia|]. simpl. rewrite app_length. simpl. lia.
  Qed.
  Lemma addExpression_frame (h : heap) e v e2 v2 e' h' : isE h e v -> isE h e2 v2 -> addExpression e e2 h = Ok (e', h') ->
    ext h h' /\ forall y, y ∈ operands e' -> y ∈ operands e \/ (newer h y /\ live h' y).
  Proof.
    intros Hv Hv2 E. destruct (addExpression_ok h e v e2 v2 Hv Hv2) as (e1 & h1 & E1 & Hx & Hv').
    assert (e1 = e' /\ h1 = h') as [-> ->] by (split; congruence). split; [done|]. intros y Hy.
    pose proof (isE_live _ _ _ _ Hv' Hy) as Hly.
    assert ((y ∈ operands e) \/ newer h y) as [Hc|Hc]; [|by left|by right].
    unfold addExpression in E. unfold bind in E. pose proof (mapM_copyT_par h (ex_temporal e2) h (bigger_refl h)) as P1. unfold par in P1.
    destruct (mapM_ copyT (ex_temporal e2) h) as [[ts ha]| | |] eqn:Et; try done. destruct (P1 _ _ eq_refl) as [B1 Q1].
    pose proof (mapM_copyS_par h (ex_spatial e2) ha B1) as P2. unfold par in P2.
    destruct (mapM_ copyS (ex_spatial e2) ha) as [[ss hb]| | |] eqn:Es; try done. destruct (P2 _ _ eq_refl) as [B2 Q2].
    cbn in E. injection E as <- <-. unfold operands in Hy |- *. cbn [ex_temporal ex_spatial] in Hy. rewrite !map_app in Hy. rewrite !elem_of_app in *.
    destruct Hy as [[Hy|Hy]|[Hy|Hy]]; [by left; left| |by left; right|]; right; apply elem_of_list_fmap in Hy as (p & -> & Hp); unfold newer; simpl.
    - pose proof (Q1 p Hp). lia.
    - pose proof (Q2 p Hp). lia.
  Qed.

  (** ** The program's objects and those of its equations stay apart *)
  Definition Inv (w : world) : Prop :=
    (forall x, x ∈ reachable w -> live (w_heap w) x) /\
    forall j o, w_eqns w !! j = Some (Some o) -> forall x, x ∈ operands (eo_expr o) -> live (w_heap w) x /\ x ∉ reachable w.

  Lemma inv_keep (w w' : world) : Inv w -> bigger (w_heap w) (w_heap w') ->
    (forall x, x ∈ reachable w' -> x ∈ reachable w \/ (newer (w_heap w) x /\ live (w_heap w') x)) ->
    (forall j o, w_eqns w' !! j = Some (Some o) ->
      (exists j' o', w_eqns w !! j' = Some (Some o') /\ eo_expr o' = eo_expr o) \/
      (forall x, x ∈ operands (eo_expr o) -> live (w_heap w') x /\ x ∉ reachable w')) -> Inv w'.
  Proof.
    intros [I1 I2] B HR HE. split.
    - intros x Hx. destruct (HR x Hx) as [Hr|[_ Hr]]; [|done]. apply (live_bigger _ _ _ B). by apply I1.
    - intros j o Ho x Hx. destruct (HE j o Ho) as [(j' & o' & Ho' & Ee)|Hn]; [|by apply Hn].
      rewrite <- Ee in Hx. destruct (I2 j' o' Ho' x Hx) as [Hl Hr]. split; [by apply (live_bigger _ _ _ B)|].
      intros Hx'. destruct (HR x Hx') as [Hc|[Hc _]]; done.
  Qed.

  Lemma reachable_set (w : world) i e e' h x : w_exprs w !! i = Some e -> x ∈ reachable (set_expr w i e' h) ->
    x ∈ reachable w \/ x ∈ operands e'.
  Proof.
    intros Hi Hx. unfold reachable in *. cbn [set_expr w_ops w_exprs] in Hx. rewrite elem_of_app in *. destruct Hx as [Hx|Hx]; [by left; left|].
    apply elem_of_list_In, in_concat in Hx as (l & Hl & Hx). apply in_map_iff in Hl as (e1 & <- & He1). apply elem_of_list_In in He1, Hx.
    apply elem_of_list_lookup in He1 as [k Hk]. destruct (decide (i = k)) as [->|Hne].
    - rewrite list_lookup_insert in Hk by (by apply lookup_lt_Some in Hi). injection Hk as <-. by right.
    - rewrite list_lookup_insert_ne in Hk by done. left. right. apply elem_of_list_In, in_concat. exists (operands e1).
      split; [|by apply elem_of_list_In]. apply in_map. apply elem_of_list_In. by eapply elem_of_list_lookup_2.
  Qed.
  Lemma reachable_expr (w : world) i e x : w_exprs w !! i = Some e -> x ∈ operands e -> x ∈ reachable w.
  Proof.
    intros Hi Hx. unfold reachable. apply elem_of_app. right. apply elem_of_list_In, in_concat. exists (operands e).
    split; [|by apply elem_of_list_In]. apply in_map, elem_of_list_In. by eapply elem_of_list_lookup_2.
  Qed.

  Lemma step_with_inv {A} (m : M A) (w : world) k w' : step_with m w k (Ok w') -> exists a h, m (w_heap w) = Ok (a, h) /\ w' = k a h.
  Proof. unfold step_with. destruct (m (w_heap w)) as [[a h]| | |]; intros Hr; try done. injection Hr as ->. by exists a, h. Qed.

  Lemma write_frame_S (h : heap) p o (P : operand -> Prop) : P (OpS p) -> frame P h (Heap (<[p := o]> (h_spatial h)) (h_temporal h)).
  Proof.
    intros Hp. split; [split; simpl; rewrite ?insert_length; lia|]. intros [q|q] Hl Hx; simpl; [|done].
    apply list_lookup_insert_ne. intros ->. done.
  Qed.
  Lemma write_frame_T (h : heap) p o (P : operand -> Prop) : P (OpT p) -> frame P h (Heap (h_spatial h) (<[p := o]> (h_temporal h))).
  Proof.
    intros Hp. split; [split; simpl; rewrite ?insert_length; lia|]. intros [q|q] Hl Hx; simpl; [done|].
    apply list_lookup_insert_ne. intros ->. done.
  Qed.
  Lemma scale_frame (h : heap) x k u h' (P : operand -> Prop) : P x ->
    (match x with OpS p => mulScalarS p k | OpT p => mulScalarT p k end) h = Ok (u, h') -> frame P h h'.
  Proof.
    intros Hp. destruct x as [p|p]; unfold mulScalarS, mulScalarT, bind, readS, readT, writeS, writeT.
    - destruct (h_spatial h !! p); [|done]. intros [=_ <-]. by apply write_frame_S.
    - destruct (h_temporal h !! p); [|done]. intros [=_ <-]. by apply write_frame_T.
  Qed.
  Lemma scaleBy_frame (h : heap) x c u h' (P : operand -> Prop) : P x ->
    (match x with OpS p => mulCoeffS p c | OpT p => mulCoeffT p c end) h = Ok (u, h') -> frame P h h'.
  Proof.
    intros Hp. destruct x as [p|p]; unfold mulCoeffS, mulCoeffT, bind, readS, readT, writeS, writeT.
    - destruct (h_spatial h !! p) as [o|]; [|done]. destruct (coeff_mul_assign (so_coeff o) c); try done. intros [=_ <-]. by apply write_frame_S.
    - destruct (h_temporal h !! p) as [o|]; [|done]. destruct (coeff_mul_assign (to_coeff o) c); try done. intros [=_ <-]. by apply write_frame_T.
  Qed.

  Lemma eqn_construct_frame (h : heap) cx d e v o h' : isE h e v -> eqn_construct cx d e h = Ok (o, h') ->
    frame (fun _ => False) h h' /\ (forall x, x ∈ operands (eo_expr o) -> newer h x /\ live h' x).
  Proof.
    intros Hv E. unfold eqn_construct in E. destruct (copyE_frame h e v Hv) as (e1 & h1 & E1 & X1 & V1 & O1).
    rewrite (bind_eq _ _ _ _ _ E1) in E. destruct (copyE_frame h1 e1 v V1) as (e2 & h2 & E2 & X2 & V2 & O2).
    rewrite (bind_eq _ _ _ _ _ E2) in E. unfold bind in E. destruct (expr_build cx d e2 h2) as [[[] h3]| | |] eqn:E3; try done.
    cbn in E. injection E as <- <-. cbn [eo_expr]. pose proof (buildS_frame cx d _ _ _ E3) as [B3 F3].
    assert (Hnew : forall x, x ∈ operands e2 -> newer h x).
    { intros x Hx Hl. pose proof (own_newer _ _ _ O2 Hx) as Hn. apply Hn. apply (live_bigger h h1); [by apply (ext_frame (fun _ => False))|done]. }
    split.
    - split; [repeat (eapply bigger_trans; [by apply (ext_frame (fun _ => False)); eassumption|]); done|].
      intros x Hl _. pose proof (ext_frame (fun _ => False) _ _ X1) as [B1 F1]. pose proof (ext_frame (fun _ => False) _ _ X2) as [B2 F2].
      pose proof (F1 x Hl (fun b => b)) as S1. pose proof (F2 x (live_bigger _ _ _ B1 Hl) (fun b => b)) as S2.
      assert (same_at h2 h3 x) as S3.
      { apply F3; [by apply (live_bigger _ _ _ B2), (live_bigger _ _ _ B1)|]. intros (p & Hp & ->).
        apply (Hnew (OpS p)); [|done]. unfold operands. apply elem_of_app. right. by apply elem_of_list_fmap_1. }
      destruct x; simpl in *; congruence.
    - intros x Hx. split; [by apply Hnew|]. apply (live_bigger h2); [done|]. by apply (isE_live _ _ _ _ V2).
  Qed.

  Lemma step_inv op (w w' : world) : Inv w -> wstep op w (Ok w') -> Inv w' /\ frame (fun x => x ∈ reachable w) (w_heap w) (w_heap w').
  Proof.
    intros HI Hst. pose proof HI as [I1 I2].
    assert (Hname : forall t, names_only t (reachable w) -> (forall p, p ∈ spatial_objects t -> live (w_heap w) (OpS p)) /\ (forall p, p ∈ temporal_objects t -> live (w_heap w) (OpT p))).
    { intros t [N1 N2]. split; intros p Hp; apply I1; [by apply N1|by apply N2]. }
    assert (Hold : forall j o, w_eqns w !! j = Some (Some o) -> exists j' o', w_eqns w !! j' = Some (Some o') /\ eo_expr o' = eo_expr o).
    { intros j o Ho. by exists j, o. }
    assert (Hin : forall e i, w_exprs w !! i = Some e -> exists v, isE (w_heap w) e v).
    { intros e i Hi. apply live_isE. intros x Hx. apply I1. by eapply reachable_expr. }
    destruct op as [o|o|x k|x c|p cx d|t|i x|i j|cx d t|j|j|j cx dt|j ls]; cbn [wstep] in Hst.
    - apply step_with_inv in Hst as (p & h & E & ->). injection E as <- <-. cbn [push_op w_heap].
      assert (frame (fun x => x ∈ reachable w) (w_heap w) (pushS (w_heap w) o)) as HF by apply ext_frame, ext_pushS.
      split; [|exact HF]. apply (inv_keep w); [done|apply HF| |by intros; left; eapply Hold].
      intros x Hx. unfold reachable in *. cbn [push_op w_ops w_exprs w_heap] in *. rewrite !elem_of_app in *.
      destruct Hx as [[Hx|Hx]|Hx]; [by left; left| |by left; right]. apply elem_of_list_singleton in Hx as ->. right. split; [unfold newer; simpl; lia|].
      simpl. rewrite app_length. simpl. lia.
    - apply step_with_inv in Hst as (p & h & E & ->). injection E as <- <-. cbn [push_op w_heap].
      assert (frame (fun x => x ∈ reachable w) (w_heap w) (pushT (w_heap w) o)) as HF by apply ext_frame, ext_pushT.
      split; [|exact HF]. apply (inv_keep w); [done|apply HF| |by intros; left; eapply Hold].
      intros x Hx. unfold reachable in *. cbn [push_op w_ops w_exprs w_heap] in *. rewrite !elem_of_app in *.
      destruct Hx as [[Hx|Hx]|Hx]; [by left; left| |by left; right]. apply elem_of_list_singleton in Hx as ->. right. split; [unfold newer; simpl; lia|].
      simpl. rewrite app_length. simpl. lia.
    - destruct Hst as [Hx Hst]. apply step_with_inv in Hst as (u & h & E & ->).
      pose proof (scale_frame _ _ _ _ _ (fun x => x ∈ reachable w) Hx E) as HF. split; [|exact HF].
      apply (inv_keep w); [done|apply HF|by intros; left|by intros; left; eapply Hold].
    - destruct Hst as [Hx Hst]. apply step_with_inv in Hst as (u & h & E & ->).
      pose proof (scaleBy_frame _ _ _ _ _ (fun x => x ∈ reachable w) Hx E) as HF. split; [|exact HF].
      apply (inv_keep w); [done|apply HF|by intros; left|by intros; left; eapply Hold].
    - destruct Hst as [Hx Hst]. apply step_with_inv in Hst as ([] & h & E & ->). apply buildS_frame in E as [B F].
      assert (frame (fun x => x ∈ reachable w) (w_heap w) h) as HF.
      { split; [done|]. intros y Hl Hy. apply F; [done|]. intros (q & Hq & ->). apply elem_of_list_singleton in Hq as ->. done. }
      split; [|exact HF]. apply (inv_keep w); [done|apply HF|by intros; left|by intros; left; eapply Hold].
    - destruct Hst as [Hn Hst]. apply step_with_inv in Hst as (e & h & E & ->). destruct (Hname t Hn) as [N1 N2].
      unfold bind in E. destruct (eval_equation t (w_heap w)) as [[e0 h0]| | |] eqn:E0; try done.
      destruct (eval_frame _ _ _ _ N1 N2 E0) as [X0 [v V0]]. destruct (copyE_frame h0 e0 v V0) as (e1 & h1 & E1 & X1 & V1 & O1).
      assert (e1 = e /\ h1 = h) as [-> ->] by (split; congruence).
      assert (frame (fun x => x ∈ reachable w) (w_heap w) h) as HF by (apply ext_frame; by eapply ext_trans).
      split; [|exact HF]. apply (inv_keep w); [done|apply HF| |by intros; left; eapply Hold].
      intros x Hx. unfold reachable in *. cbn [push_expr w_ops w_exprs w_heap] in *. rewrite map_app, concat_app in Hx. rewrite !elem_of_app in *.
      destruct Hx as [Hx|[Hx|Hx]]; [by left; left|by left; right|]. cbn [map concat] in Hx. rewrite app_nil_r in Hx. right.
      split; [|by apply (isE_live _ _ _ _ V1)]. intros Hl. apply (own_newer _ _ _ O1 Hx).
      apply (live_bigger (w_heap w)); [|done]. apply (ext_frame (fun _ => False)). done.
    - destruct Hst as (Hx & e & Hi & Hst). apply step_with_inv in Hst as (e' & h & E & ->).
      destruct (addOperator_frame _ _ _ _ _ (I1 _ Hx) E) as [X1 Hop].
      assert (frame (fun x => x ∈ reachable w) (w_heap w) h) as HF by (by apply ext_frame).
      split; [|exact HF]. apply (inv_keep w); [done|apply HF| |by intros; left; eapply Hold].
      intros y Hy. cbn [set_expr w_heap]. destruct (reachable_set _ _ _ _ _ _ Hi Hy) as [Hy'|Hy']; [by left|].
      destruct (Hop y Hy') as [Hy2|Hy2]; [left; exact (reachable_expr _ _ _ _ Hi Hy2)|by right].
    - destruct Hst as (_ & e & e2 & Hi & Hj & Hst). apply step_with_inv in Hst as (e' & h & E & ->).
      destruct (Hin _ _ Hi) as [v Hv]. destruct (Hin _ _ Hj) as [v2 Hv2].
      destruct (addExpression_frame _ _ _ _ _ _ _ Hv Hv2 E) as [X1 Hop].
      assert (frame (fun x => x ∈ reachable w) (w_heap w) h) as HF by (by apply ext_frame).
      split; [|exact HF]. apply (inv_keep w); [done|apply HF| |by intros; left; eapply Hold].
      intros y Hy. cbn [set_expr w_heap]. destruct (reachable_set _ _ _ _ _ _ Hi Hy) as [Hy'|Hy']; [by left|].
      destruct (Hop y Hy') as [Hy2|Hy2]; [left; exact (reachable_expr _ _ _ _ Hi Hy2)|by right].
    - destruct Hst as [Hn Hst]. destruct (Hname t Hn) as [N1 N2].
      unfold bind in Hst. destruct (eval_equation t (w_heap w)) as [[e0 h0]| | |] eqn:E0; try done.
      + destruct (eval_frame _ _ _ _ N1 N2 E0) as [X0 [v V0]].
        destruct (eqn_construct cx d e0 h0) as [[o h]| | |] eqn:E1; try done.
        * injection Hst as ->. destruct (eqn_construct_frame _ _ _ _ _ _ _ V0 E1) as [[B F] Hnew].
          pose proof (ext_frame (fun _ => False) _ _ X0) as [B0 F0].
          assert (frame (fun x => x ∈ reachable w) (w_heap w) h) as HF.
          { split; [by eapply bigger_trans|]. intros x Hl _. pose proof (F0 x Hl (fun b => b)) as S0.
            pose proof (F x (live_bigger _ _ _ B0 Hl) (fun b => b)) as S1. destruct x; simpl in *; congruence. }
          split; [|exact HF]. apply (inv_keep w); [done|apply HF|by intros; left|].
          intros j o' Ho'. cbn [push_eqn w_eqns] in Ho'. apply lookup_app_Some in Ho' as [Ho'|[_ Ho']]; [left; by eapply Hold|].
          apply list_lookup_singleton_Some in Ho' as [_ [= ->]]. right. intros x Hx. destruct (Hnew x Hx) as [Hn1 Hn2]. split; [done|].
          intros Hr. apply Hn1. apply (live_bigger (w_heap w)); [done|]. by apply I1.
        * injection Hst as ->. split; [|apply ext_frame, ext_refl]. apply (inv_keep w); [done|apply bigger_refl|by intros; left|].
          intros j o' Ho'. cbn [push_eqn w_eqns] in Ho'. apply lookup_app_Some in Ho' as [Ho'|[_ Ho']]; [left; by eapply Hold|].
          apply list_lookup_singleton_Some in Ho' as [_ Ho']. done.
      + injection Hst as ->. split; [|apply ext_frame, ext_refl]. apply (inv_keep w); [done|apply bigger_refl|by intros; left|].
        intros j o' Ho'. cbn [push_eqn w_eqns] in Ho'. apply lookup_app_Some in Ho' as [Ho'|[_ Ho']]; [left; by eapply Hold|].
        apply list_lookup_singleton_Some in Ho' as [_ Ho']. done.
    - destruct Hst as (o & Hj & Hst). apply step_with_inv in Hst as (o' & h & E & ->).
      destruct (live_isE (w_heap w) (eo_expr o)) as [v V0]; [intros x Hx; by apply (I2 j o Hj)|].
      destruct (copyE_frame _ _ _ V0) as (e1 & h1 & E1 & X1 & V1 & O1). unfold eqn_copy in E. rewrite (bind_eq _ _ _ _ _ E1) in E.
      cbn in E. injection E as <- <-. assert (frame (fun x => x ∈ reachable w) (w_heap w) h1) as HF by (by apply ext_frame).
      split; [|exact HF]. apply (inv_keep w); [done|apply HF|by intros; left|].
      intros j' o' Ho'. cbn [push_eqn w_eqns] in Ho'. apply lookup_app_Some in Ho' as [Ho'|[_ Ho']]; [left; by eapply Hold|].
      apply list_lookup_singleton_Some in Ho' as [_ [= <-]]. right. cbn [eo_expr]. intros x Hx. split; [by apply (isE_live _ _ _ _ V1)|].
      intros Hr. apply (own_newer _ _ _ O1 Hx). by apply I1.
    - destruct Hst as (o & Hj & [= ->]). split; [|apply ext_frame, ext_refl]. apply (inv_keep w); [done|apply bigger_refl|by intros; left|].
      intros j' o' Ho'. cbn [set_eqn w_eqns] in Ho'. left. destruct (decide (j = j')) as [->|Hne].
      + rewrite list_lookup_insert in Ho' by (by apply lookup_lt_Some in Hj). done.
      + rewrite list_lookup_insert_ne in Ho' by done. by eapply Hold.
    - destruct Hst as (o & Hj & Hst). destruct Hst as [(ls & _ & [= ->])|[(x & _ & Hc)|[[_ Hc]|[_ Hc]]]]; try done.
      split; [|apply ext_frame, ext_refl]. apply (inv_keep w); [done|apply bigger_refl|by intros; left|].
      intros j' o' Ho'. cbn [set_eqn w_eqns] in Ho'. left. destruct (decide (j = j')) as [->|Hne].
      + rewrite list_lookup_insert in Ho' by (by apply lookup_lt_Some in Hj). injection Ho' as <-. by exists j', o.
      + rewrite list_lookup_insert_ne in Ho' by done. by eapply Hold.
    - destruct Hst as (o & Hj & _ & [= ->]).
      split; [|apply ext_frame, ext_refl]. apply (inv_keep w); [done|apply bigger_refl|by intros; left|].
      intros j' o' Ho'. cbn [set_eqn w_eqns] in Ho'. left. destruct (decide (j = j')) as [->|Hne].
      + rewrite list_lookup_insert in Ho' by (by apply lookup_lt_Some in Hj). injection Ho' as <-. by exists j', o.
      + rewrite list_lookup_insert_ne in Ho' by done. by eapply Hold.
  Qed.

  Lemma empty_inv : Inv empty_world.
  Proof. split; [intros x Hx; by apply elem_of_nil in Hx|]. intros j o Ho. done. Qed.
  Lemma history_inv ops (w w' : world) : history ops w w' -> Inv w -> Inv w'.
  Proof. induction 1 as [|op ops w w1 w2 Hs Hh IH]; intros HI; [done|]. apply IH. by apply (step_inv op w). Qed.

  Lemma step_eqn op (w w' : world) j o : wstep op w (Ok w') -> w_eqns w !! j = Some (Some o) -> op <> FreeEqn j ->
    exists o', w_eqns w' !! j = Some (Some o') /\ eo_expr o' = eo_expr o /\
      (o' = o \/ (exists cx dt, op = Assemble j cx dt /\ assemble cx (w_heap w) (eo_expr o) dt (eo_ls o) (Ok (eo_ls o'))) \/
       (exists ls, op = WriteSystem j ls /\ map length ls = map length (eo_ls o) /\ eo_ls o' = ls)).
  Proof.
    intros Hst Hj Hne. pose proof (lookup_lt_Some _ _ _ Hj) as Hlt.
    assert (Hpush : forall x, (w_eqns w ++ [x]) !! j = Some (Some o)) by (intros x; by rewrite lookup_app_l).
    destruct op as [a|a|x k|x c|p cx d|t|i x|i i2|cx d t|i|i|i cx dt|i ls]; cbn [wstep] in Hst.
    - apply step_with_inv in Hst as (p & h & _ & ->). exists o. auto.
    - apply step_with_inv in Hst as (p & h & _ & ->). exists o. auto.
    - destruct Hst as [_ Hst]. apply step_with_inv in Hst as (p & h & _ & ->). exists o. auto.
    - destruct Hst as [_ Hst]. apply step_with_inv in Hst as (p & h & _ & ->). exists o. auto.
    - destruct Hst as [_ Hst]. apply step_with_inv in Hst as (q & h & _ & ->). exists o. auto.
    - destruct Hst as [_ Hst]. apply step_with_inv in Hst as (p & h & _ & ->). exists o. auto.
    - destruct Hst as (_ & e & _ & Hst). apply step_with_inv in Hst as (p & h & _ & ->). exists o. auto.
    - destruct Hst as (_ & e & e2 & _ & _ & Hst). apply step_with_inv in Hst as (p & h & _ & ->). exists o. auto.
    - destruct Hst as [_ Hst]. destruct (bind _ _ _) as [[o' h]| | |]; try done; injection Hst as ->; exists o; cbn [push_eqn w_eqns]; auto.
    - destruct Hst as (o1 & _ & Hst). apply step_with_inv in Hst as (p & h & _ & ->). exists o. cbn [push_eqn w_eqns]. auto.
    - destruct Hst as (o1 & Hi & [= ->]). exists o. cbn [set_eqn w_eqns]. rewrite list_lookup_insert_ne by congruence. auto.
    - destruct Hst as (o1 & Hi & Hst). destruct Hst as [(ls & Ha & [= ->])|[(x & _ & Hc)|[[_ Hc]|[_ Hc]]]]; try done.
      cbn [set_eqn w_eqns]. destruct (decide (i = j)) as [->|Hij].
      + assert (o1 = o) as -> by congruence. eexists. rewrite list_lookup_insert by done. split; [reflexivity|]. split; [done|]. right; left. by exists cx, dt.
      + exists o. rewrite list_lookup_insert_ne by done. auto.
    - destruct Hst as (o1 & Hi & Hl & [= ->]). cbn [set_eqn w_eqns]. destruct (decide (i = j)) as [->|Hij].
      + assert (o1 = o) as -> by congruence. eexists. rewrite list_lookup_insert by done. split; [reflexivity|]. split; [done|]. right; right. by exists ls.
      + exists o. rewrite list_lookup_insert_ne by done. auto.
  Qed.

  (** Equation object j holds the operators of text [t], as evaluated in [h1], with
      the schemes [sel]. *)
  Definition holds (n : nat) (h1 : heap) (t : equation) (sel : spatialKind V -> spatialKind V) (w : world) (j : nat) : Prop :=
    exists o ts ss, w_eqns w !! j = Some (Some o) /\ isE (w_heap w) (eo_expr o) (ts, map (with_scheme sel) ss) /\ meansE n h1 t (ts, ss).

  Lemma step_expr op (w w' : world) j o v : Inv w -> wstep op w (Ok w') -> w_eqns w !! j = Some (Some o) ->
    isE (w_heap w) (eo_expr o) v -> isE (w_heap w') (eo_expr o) v.
  Proof.
    intros HI Hst Hj Hv. destruct (step_inv op w w' HI Hst) as [_ [_ F]]. apply (isE_same (w_heap w)); [|done].
    intros x Hx. destruct HI as [_ I2]. destruct (I2 j o Hj x Hx). by apply F.
  Qed.
  Lemma step_holds op n h1 t sel (w w' : world) j : Inv w -> wstep op w (Ok w') -> op <> FreeEqn j -> holds n h1 t sel w j -> holds n h1 t sel w' j.
  Proof.
    intros HI Hst Hne (o & ts & ss & Hj & Hv & Hm). destruct (step_eqn op w w' j o Hst Hj Hne) as (o' & Hj' & Ee & _).
    exists o', ts, ss. split; [done|]. split; [|done]. rewrite Ee. by apply (step_expr op w w' j).
  Qed.

  Lemma assembled_holds n h1 t sel (w : world) j cx0 cx dt o values rhs : n = nCells (cx_mesh cx) ->
    holds n h1 t sel w j -> w_eqns w !! j = Some (Some o) -> eo_ls o = [values; rhs] ->
    good_context cx0 sel h1 t cx -> sys_ok (cx_mesh cx) (cx_pattern cx) values rhs ->
    exists values' rhs', surely (assemble cx (w_heap w) (eo_expr o) dt (eo_ls o)) [values'; rhs'] /\
      sys_ok (cx_mesh cx) (cx_pattern cx) values' rhs' /\
      forall x c, c < nCells (cx_mesh cx) -> residual (cx_pattern cx) values' rhs' x c = text_value cx dt sel h1 t x c.
  Proof.
    intros -> (o1 & ts & ss & Hj & [HvT HvS] & [[HdT HdS] HM]) Ho Els (Hcx & _ & _ & [HaS HaT]) Hsys.
    assert (o1 = o) as -> by congruence. cbn [fst snd] in *. set (h := w_heap w) in *. set (x0 := eo_expr o) in *.
    assert (HS : forall p, p ∈ ex_spatial x0 -> exists o1 o0 q, h_spatial h !! p = Some (with_scheme sel o1) /\ o1 ∈ ss /\
       q ∈ spatial_objects t /\ h_spatial h1 !! q = Some o0 /\ so_kind o1 = so_kind o0 /\ so_type o1 = so_type o0 /\ coeff_ok (so_coeff o1) (nCells (cx_mesh cx))).
    { intros p Hp. apply elem_of_list_lookup in Hp as [i Hi]. destruct (Forall2_lookup_l _ _ _ _ _ HvS Hi) as (o2 & Ho2 & Hp).
      change (map (with_scheme sel) ss) with (with_scheme sel <$> ss) in Ho2. rewrite list_lookup_fmap in Ho2. destruct (ss !! i) as [o3|] eqn:E3; [|done]. injection Ho2 as <-.
      destruct (Forall2_lookup_r _ _ _ _ _ HdS E3) as (q & Hq & o0 & E0 & Ek & Et & Hc). exists o3, o0, q.
      split; [exact Hp|]. split; [by eapply elem_of_list_lookup_2|]. split; [by eapply elem_of_list_lookup_2|]. done. }
    assert (HTT : forall p, p ∈ ex_temporal x0 -> exists o1 o0 q, h_temporal h !! p = Some o1 /\ q ∈ temporal_objects t /\ h_temporal h1 !! q = Some o0 /\
       to_phi o1 = to_phi o0 /\ to_type o1 = to_type o0 /\ coeff_ok (to_coeff o1) (nCells (cx_mesh cx))).
    { intros p Hp. apply elem_of_list_lookup in Hp as [i Hi]. destruct (Forall2_lookup_l _ _ _ _ _ HvT Hi) as (o2 & Ho2 & Hp).
      destruct (Forall2_lookup_r _ _ _ _ _ HdT Ho2) as (q & Hq & o0 & E0 & Ek & Et & Hc). exists o2, o0, q.
      split; [exact Hp|]. split; [by eapply elem_of_list_lookup_2|]. done. }
    assert (Hwf : equation_wf h (nCells (cx_mesh cx)) (EVar x0)).
    { split; apply Forall_forall; intros p Hp.
      - destruct (HTT p Hp) as (o1 & o0 & q & E1 & _ & _ & _ & _ & Hc). by exists o1.
      - destruct (HS p Hp) as (o1 & o0 & q & E1 & _ & _ & _ & _ & _ & Hc). by exists (with_scheme sel o1). }
    assert (Hsup : equation_supported cx h (EVar x0)).
    { split; intros p op Hp Eo; cbn [spatial_objects temporal_objects] in Hp.
      - destruct (HS p Hp) as (o1 & o0 & q & E1 & _ & Hq & E0 & Ek & Et & _). assert (op = with_scheme sel o1) as -> by congruence.
        destruct (HaS q o0 Hq E0) as [A1 A2]. unfold with_scheme in *. rewrite Ek, Et. split; [exact A1|].
        unfold spatial_supported in *. cbn [so_kind so_type] in *. exact A2.
      - destruct (HTT p Hp) as (o1 & o0 & q & E1 & Hq & E0 & Ek & Et & _). assert (op = o1) as -> by congruence.
        rewrite Ek, Et. exact (HaT q o0 Hq E0). }
    destruct (C46_assemble cx h (EVar x0) dt Hcx Hwf I Hsup) as (e & h' & Ee & HA). cbn in Ee. injection Ee as <- <-.
    rewrite Els. destruct (HA values rhs Hsys) as (v' & r' & A1 & A2 & A3). exists v', r'. split; [done|]. split; [done|].
    intros x c Hc. rewrite A3 by done. unfold text_value.
    set (GS := fun (k : spatialKind V) (ty : opType) => match ty with
       Explicit => vscale (at0 (cellVolumes (cx_mesh cx)) c) (explicit_kind cx k c) | Implicit => implicit_kind cx k x c end).
    set (GT := fun (k : nat) (ty : opType) => match ty with Explicit => vzero | Implicit => implicit_ddt cx dt k x c end).
    etransitivity; [|etransitivity; [exact (HM c (fun k ty => GS (sel k) ty) GT)|]].
    - cbn [equation_value]. unfold valueE. cbn [fst snd]. f_equal.
      + f_equal. clear -HvT. induction HvT as [|p o1 l l' Hp _ IH]; [done|]. cbn [map]. f_equal; [|exact IH].
        unfold object_value_T, valueT. unfold isT in Hp. rewrite Hp. done.
      + f_equal. clear -HvS. remember (map (with_scheme sel) ss) as l2 eqn:E2. revert ss E2.
        induction HvS as [|p o1 l l' Hp _ IH]; intros ss E2; [by destruct ss|]. destruct ss as [|o2 ss]; [done|]. cbn [map] in E2 |- *. injection E2 as -> ->.
        f_equal; [|by apply IH]. unfold object_value, valueS. unfold isS in Hp. rewrite Hp. done.
    - apply equation_value_fext; intros q; done.
  Qed.

  (** Results depend on the contents of the operators only. *)
  Lemma run_explicit_content cx (h h' : heap) l os : Forall2 (isS h) l os -> forall l' , Forall2 (isS h') l' os -> forall s r,
    run_explicit cx h l s r <-> run_explicit cx h' l' s r.
  Proof using Type.
    induction 1 as [|p o l os Hp _ IH]; intros l' HF s r.
    - apply Forall2_nil_inv_r in HF as ->. done.
    - apply Forall2_cons_inv_r in HF as (p' & l2 & Hp' & HF & ->). cbn [run_explicit]. unfold isS in *. rewrite Hp, Hp'.
      destruct (decide _); [|by apply IH]. unfold rseq. setoid_rewrite (IH l2 HF). done.
  Qed.
  Lemma run_explicit_T_content cx dt (h h' : heap) l os : Forall2 (isT h) l os -> forall l' , Forall2 (isT h') l' os -> forall s r,
    run_explicit_T cx h dt l s r <-> run_explicit_T cx h' dt l' s r.
  Proof using Type.
    induction 1 as [|p o l os Hp _ IH]; intros l' HF s r.
    - apply Forall2_nil_inv_r in HF as ->. done.
    - apply Forall2_cons_inv_r in HF as (p' & l2 & Hp' & HF & ->). cbn [run_explicit_T]. unfold isT in *. rewrite Hp, Hp'.
      destruct (decide _); [|by apply IH]. unfold rseq. setoid_rewrite (IH l2 HF). done.
  Qed.
  Lemma run_implicit_content cx ro (h h' : heap) l os : Forall2 (isS h) l os -> forall l' , Forall2 (isS h') l' os -> forall s r,
    run_implicit cx h ro l s r <-> run_implicit cx h' ro l' s r.
  Proof using Type.
    induction 1 as [|p o l os Hp _ IH]; intros l' HF s r.
    - apply Forall2_nil_inv_r in HF as ->. done.
    - apply Forall2_cons_inv_r in HF as (p' & l2 & Hp' & HF & ->). cbn [run_implicit]. unfold isS in *. rewrite Hp, Hp'.
      destruct (decide _); [|by apply IH]. unfold rseq. setoid_rewrite (IH l2 HF). done.
  Qed.
  Lemma run_implicit_T_content cx ro dt (h h' : heap) l os : Forall2 (isT h) l os -> forall l' , Forall2 (isT h') l' os -> forall s r,
    run_implicit_T cx h ro dt l s r <-> run_implicit_T cx h' ro dt l' s r.
  Proof using Type.
    induction 1 as [|p o l os Hp _ IH]; intros l' HF s r.
    - apply Forall2_nil_inv_r in HF as ->. done.
    - apply Forall2_cons_inv_r in HF as (p' & l2 & Hp' & HF & ->). cbn [run_implicit_T]. unfold isT in *. rewrite Hp, Hp'.
      destruct (decide _); [|by apply IH]. unfold rseq. setoid_rewrite (IH l2 HF). done.
  Qed.
  Lemma assemble_content cx dt (h h' : heap) e e' v ls ls' r : isE h e v -> isE h' e' v -> map length ls = map length ls' ->
    assemble cx h e dt ls r <-> assemble cx h' e' dt ls' r.
  Proof using Type.
    intros [H1 H2] [H3 H4] El. unfold assemble, explicitOperation_n, explicitOperation, explicitOperation_dt, implicitOperation, implicitOperation_dt.
    assert (map (fun l : list V => replicate (length l) (vzero : V)) ls = map (fun l : list V => replicate (length l) (vzero : V)) ls') as ->.
    { clear -El. revert ls' El. induction ls as [|l ls IH]; intros [|l' ls'] El; try done. cbn [map] in *. injection El as E1 E2. by rewrite E1, (IH ls'). }
    unfold rseq. setoid_rewrite (run_explicit_content cx h h' _ _ H2 _ H4). setoid_rewrite (run_explicit_T_content cx dt h h' _ _ H1 _ H3).
    setoid_rewrite (run_implicit_content cx (sp_rowPtrs (cx_pattern cx)) h h' _ _ H2 _ H4).
    setoid_rewrite (run_implicit_T_content cx (sp_rowPtrs (cx_pattern cx)) dt h h' _ _ H1 _ H3). done.
  Qed.

  Lemma construct_holds (w w' : world) cx d t sel n : Inv w -> wstep (NewEqn cx d t) w (Ok w') ->
    equation_wf (w_heap w) n t -> selects cx d sel (w_heap w) t ->
    exists o, w_eqns w' = w_eqns w ++ [Some o] /\
      eo_ls o = [replicate (sp_nnz (cx_pattern cx)) vzero; replicate (length (sp_diagOffset (cx_pattern cx))) vzero] /\
      holds n (w_heap w) t sel w' (length (w_eqns w)).
  Proof.
    intros HI [Hn Hst] Hwf Hsel.
    destruct (eval_equation_spec n (w_heap w) t (w_heap w) (ext_refl _) Hwf) as [[_ Hok]|[_ Hx]]; [|by rewrite (bind_exit _ _ _ Hx) in Hst].
    destruct Hok as (e & h1 & E & X & [ts ss] & V0 & HM). rewrite (bind_eq _ _ _ _ _ E) in Hst.
    unfold eqn_construct in Hst. destruct (copyE_frame _ _ _ V0) as (e1 & h2 & E1 & X1 & V1 & O1). rewrite (bind_eq _ _ _ _ _ E1) in Hst.
    destruct (copyE_frame _ _ _ V1) as (e2 & h3 & E2 & X2 & V2 & O2). rewrite (bind_eq _ _ _ _ _ E2) in Hst.
    destruct V2 as [V2T V2S]. cbn [fst snd] in *.
    destruct (build_values cx d (ex_spatial e2) h3 ss (map (with_scheme sel) ss) V2S) as (h4 & E3 & Et & F3 & _).
    { change (map (with_scheme sel) ss) with (with_scheme sel <$> ss). apply Forall2_fmap_r, Forall_Forall2_diag, Forall_forall. intros o Ho. pose proof HM as [[_ HdS] _]. cbn [snd] in HdS.
      apply elem_of_list_lookup in Ho as [i Hi]. destruct (Forall2_lookup_r _ _ _ _ _ HdS Hi) as (q & Hq & o0 & E0 & Ek & _).
      apply (build_kind cx d sel o o0 Ek). apply (Hsel q); [|done]. by eapply elem_of_list_lookup_2. }
    unfold expr_build in Hst. rewrite (bind_eq _ _ _ _ _ E3) in Hst. cbn in Hst. injection Hst as ->.
    eexists. split; [reflexivity|]. split; [reflexivity|]. eexists _, ts, ss. cbn [push_eqn w_eqns w_heap].
    split; [apply list_lookup_middle; done|]. split; [|done]. split; [|exact F3].
    cbn [eo_expr fst]. eapply Forall2_impl; [exact V2T|]. intros p o. unfold isT. by rewrite Et.
  Qed.
End proofs.
