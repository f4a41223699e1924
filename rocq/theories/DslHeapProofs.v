(** Building expressions: what the heap operations compute. *)
From Verif Require Import Base Dict Registry Par Exec Value Kernel KernelProofs Mesh MeshSpec Coeff FV FVSpec FVProofs Sparsity SparsitySpec Assembly AssemblySpec AssemblyProofs Dsl DslSpec.

Section heap.
  Context {V : Type} `{HT : ValueType V} {HL : ValueLaws V} {HU : ValueUnit V} {HUL : UnitLaws V} {HG : ValueTag V}.
  Notation spatialOp := (spatialOp V).
  Notation heap := (heap V).

  Lemma clone_id (o : spatialOp) : clone_spatial o = o.
  Proof. destruct o as [[f p [s|]|g p [|]|f|c p|u] t co]; reflexivity. Qed.

  Definition with_coeff (o : spatialOp) (c : Coeff) : spatialOp := SpatialOp (so_kind o) (so_type o) c.
  Definition with_coeffT (o : temporalOp) (c : Coeff) : temporalOp := TemporalOp (to_phi o) (to_type o) c.

  Definition ext (h h' : heap) : Prop :=
    (exists a, h_spatial h' = h_spatial h ++ a) /\ (exists b, h_temporal h' = h_temporal h ++ b).
  Lemma ext_refl h : ext h h.
  Proof. split; exists []; by rewrite app_nil_r. Qed.
  Lemma ext_trans h1 h2 h3 : ext h1 h2 -> ext h2 h3 -> ext h1 h3.
  Proof.
    intros [[a Ha] [b Hb]] [[a' Ha'] [b' Hb']]. split.
    - exists (a ++ a'). by rewrite Ha', Ha, app_assoc.
    - exists (b ++ b'). by rewrite Hb', Hb, app_assoc.
  Qed.
  Lemma ext_S h h' p o : ext h h' -> h_spatial h !! p = Some o -> h_spatial h' !! p = Some o.
  Proof. intros [[a ->] _] E. by apply lookup_app_l_Some. Qed.
  Lemma ext_T h h' p o : ext h h' -> h_temporal h !! p = Some o -> h_temporal h' !! p = Some o.
  Proof. intros [_ [a ->]] E. by apply lookup_app_l_Some. Qed.
  Lemma ext_preserved h h' : ext h h' -> preserved h h'.
  Proof. intros E. split; intros; [eapply ext_S|eapply ext_T]; eauto. Qed.

  (** Reading operators. *)
  Definition isS (h : heap) (p : nat) (o : spatialOp) : Prop := h_spatial h !! p = Some o.
  Definition isT (h : heap) (p : nat) (o : temporalOp) : Prop := h_temporal h !! p = Some o.
  Definition isE (h : heap) (e : expression) (v : list temporalOp * list spatialOp) : Prop :=
    Forall2 (isT h) (ex_temporal e) v.1 /\ Forall2 (isS h) (ex_spatial e) v.2.
  Lemma isE_ext h h' e v : ext h h' -> isE h e v -> isE h' e v.
  Proof.
    intros E [H1 H2]. split; (eapply Forall2_impl; [eassumption|]); intros; [eapply ext_T|eapply ext_S]; eauto.
  Qed.

  (** [ok m h P]: running m from h succeeds, extending the heap, with P. *)
  Definition ok {A} (m : M A) (h : heap) (P : A -> heap -> Prop) : Prop :=
    exists a h', m h = Ok (a, h') /\ ext h h' /\ P a h'.

  Lemma ok_ret {A} (a : A) h (P : A -> heap -> Prop) : P a h -> ok (ret a) h P.
  Proof. intros HP. exists a, h. split; [done|]. split; [apply ext_refl|done]. Qed.
  Lemma ok_bind {A B} (m : M A) (k : A -> M B) h (P : A -> heap -> Prop) (Q : B -> heap -> Prop) :
    ok m h P -> (forall a h', ext h h' -> P a h' -> ok (k a) h' Q) -> ok (bind m k) h Q.
  Proof.
    intros (a & h' & E & Hx & HP) Hk. destruct (Hk a h' Hx HP) as (b & h'' & E' & Hx' & HQ).
    exists b, h''. unfold bind. rewrite E. split; [done|]. split; [by eapply ext_trans|done].
  Qed.
  Lemma ok_impl {A} (m : M A) h (P Q : A -> heap -> Prop) : ok m h P -> (forall a h', ext h h' -> P a h' -> Q a h') -> ok m h Q.
  Proof. intros (a & h' & E & Hx & HP) HI. exists a, h'. eauto. Qed.

  Definition pushS (h : heap) (o : spatialOp) : heap := Heap (h_spatial h ++ [o]) (h_temporal h).
  Definition pushT (h : heap) (o : temporalOp) : heap := Heap (h_spatial h) (h_temporal h ++ [o]).
  Lemma ext_pushS h o : ext h (pushS h o).
  Proof. split; [by eexists|]. exists []. by rewrite app_nil_r. Qed.
  Lemma ext_pushT h o : ext h (pushT h o).
  Proof. split; [|by eexists]. exists []. by rewrite app_nil_r. Qed.
  Lemma isS_push h o : isS (pushS h o) (length (h_spatial h)) o.
  Proof. unfold isS, pushS. cbn [h_spatial]. by rewrite list_lookup_middle. Qed.
  Lemma isT_push h o : isT (pushT h o) (length (h_temporal h)) o.
  Proof. unfold isT, pushT. cbn [h_temporal]. by rewrite list_lookup_middle. Qed.

  Lemma copyS_eq h p o : isS h p o -> copyS p h = Ok (length (h_spatial h), pushS h o).
  Proof. unfold isS. intros E. unfold copyS, bind, readS. rewrite E. unfold allocS. by rewrite clone_id. Qed.
  Lemma copyT_eq h p o : isT h p o -> copyT p h = Ok (length (h_temporal h), pushT h o).
  Proof. unfold isT. intros E. unfold copyT, bind, readT. rewrite E. unfold allocT. by destruct o. Qed.
  Lemma bind_eq {A B} (m : M A) (k : A -> M B) (h h' : heap) a : m h = Ok (a, h') -> bind m k h = k a h'.
  Proof. intros E. unfold bind. by rewrite E. Qed.
  Lemma bind_exit {A B} (m : M A) (k : A -> M B) (h : heap) : m h = Exit -> bind m k h = Exit.
  Proof. intros E. unfold bind. by rewrite E. Qed.

  Lemma copyS_ok h p o : isS h p o -> ok (copyS p) h (fun q h' => isS h' q o).
  Proof.
    intros E. exists (length (h_spatial h)), (pushS h o). split; [by apply copyS_eq|].
    split; [apply ext_pushS|apply isS_push].
  Qed.
  Lemma copyT_ok h p o : isT h p o -> ok (copyT p) h (fun q h' => isT h' q o).
  Proof.
    intros E. exists (length (h_temporal h)), (pushT h o). split; [by apply copyT_eq|].
    split; [apply ext_pushT|apply isT_push].
  Qed.

  Lemma insert_last {A} (l : list A) x y : <[length l := y]> (l ++ [x]) = l ++ [y].
  Proof. replace (length l) with (length l + 0) by lia. rewrite insert_app_r. done. Qed.
  Lemma mulScalarS_eq h o k :
    mulScalarS (length (h_spatial h)) k (pushS h o) = Ok (tt, pushS h (with_coeff o (coeff_mul_scalar (so_coeff o) k))).
  Proof.
    unfold mulScalarS. erewrite bind_eq. 2:{ unfold readS. by rewrite (isS_push h o). }
    unfold writeS, pushS. cbn [h_spatial h_temporal]. by rewrite insert_last.
  Qed.
  Lemma mulScalarT_eq h o k :
    mulScalarT (length (h_temporal h)) k (pushT h o) = Ok (tt, pushT h (with_coeffT o (coeff_mul_scalar (to_coeff o) k))).
  Proof.
    unfold mulScalarT. erewrite bind_eq. 2:{ unfold readT. by rewrite (isT_push h o). }
    unfold writeT, pushT. cbn [h_spatial h_temporal]. by rewrite insert_last.
  Qed.
  Lemma mulCoeffS_eq h o c c' : coeff_mul_assign (so_coeff o) c = Ok c' ->
    mulCoeffS (length (h_spatial h)) c (pushS h o) = Ok (tt, pushS h (with_coeff o c')).
  Proof.
    intros Hc. unfold mulCoeffS. erewrite bind_eq. 2:{ unfold readS. by rewrite (isS_push h o). }
    rewrite Hc. unfold writeS, pushS. cbn [h_spatial h_temporal]. by rewrite insert_last.
  Qed.
  Lemma mulCoeffT_eq h o c c' : coeff_mul_assign (to_coeff o) c = Ok c' ->
    mulCoeffT (length (h_temporal h)) c (pushT h o) = Ok (tt, pushT h (with_coeffT o c')).
  Proof.
    intros Hc. unfold mulCoeffT. erewrite bind_eq. 2:{ unfold readT. by rewrite (isT_push h o). }
    rewrite Hc. unfold writeT, pushT. cbn [h_spatial h_temporal]. by rewrite insert_last.
  Qed.
  Lemma mulCoeffS_exit h o c : coeff_mul_assign (so_coeff o) c = Exit ->
    mulCoeffS (length (h_spatial h)) c (pushS h o) = Exit.
  Proof.
    intros Hc. unfold mulCoeffS. erewrite bind_eq. 2:{ unfold readS. by rewrite (isS_push h o). }
    by rewrite Hc.
  Qed.
  Lemma mulCoeffT_exit h o c : coeff_mul_assign (to_coeff o) c = Exit ->
    mulCoeffT (length (h_temporal h)) c (pushT h o) = Exit.
  Proof.
    intros Hc. unfold mulCoeffT. erewrite bind_eq. 2:{ unfold readT. by rewrite (isT_push h o). }
    by rewrite Hc.
  Qed.

  (** The three products: two clones are allocated, the second is changed. *)
  Lemma scalar_times_S_ok h k p o : isS h p o ->
    ok (scalar_times_S k p) h (fun q h' => isS h' q (with_coeff o (coeff_mul_scalar (so_coeff o) k))).
  Proof.
    intros E. unfold scalar_times_S.
    eapply ok_bind; [by apply copyS_ok|]. intros q h1 _ E1.
    eexists _, _. split; [|split].
    - rewrite (bind_eq _ _ _ _ _ (copyS_eq _ _ _ E1)). by rewrite (bind_eq _ _ _ _ _ (mulScalarS_eq _ _ _)).
    - apply ext_pushS.
    - apply isS_push.
  Qed.
  Lemma scalar_times_T_ok h k p o : isT h p o ->
    ok (scalar_times_T k p) h (fun q h' => isT h' q (with_coeffT o (coeff_mul_scalar (to_coeff o) k))).
  Proof.
    intros E. unfold scalar_times_T.
    eapply ok_bind; [by apply copyT_ok|]. intros q h1 _ E1.
    eexists _, _. split; [|split].
    - rewrite (bind_eq _ _ _ _ _ (copyT_eq _ _ _ E1)). by rewrite (bind_eq _ _ _ _ _ (mulScalarT_eq _ _ _)).
    - apply ext_pushT.
    - apply isT_push.
  Qed.
  Lemma coeff_times_S_ok h c p o c' : isS h p o -> coeff_mul_assign (so_coeff o) c = Ok c' ->
    ok (coeff_times_S c p) h (fun q h' => isS h' q (with_coeff o c')).
  Proof.
    intros E Hc. unfold coeff_times_S.
    eapply ok_bind; [by apply copyS_ok|]. intros q h1 _ E1.
    eexists _, _. split; [|split].
    - rewrite (bind_eq _ _ _ _ _ (copyS_eq _ _ _ E1)). by rewrite (bind_eq _ _ _ _ _ (mulCoeffS_eq _ _ _ _ Hc)).
    - apply ext_pushS.
    - apply isS_push.
  Qed.
  Lemma coeff_times_T_ok h c p o c' : isT h p o -> coeff_mul_assign (to_coeff o) c = Ok c' ->
    ok (coeff_times_T c p) h (fun q h' => isT h' q (with_coeffT o c')).
  Proof.
    intros E Hc. unfold coeff_times_T.
    eapply ok_bind; [by apply copyT_ok|]. intros q h1 _ E1.
    eexists _, _. split; [|split].
    - rewrite (bind_eq _ _ _ _ _ (copyT_eq _ _ _ E1)). by rewrite (bind_eq _ _ _ _ _ (mulCoeffT_eq _ _ _ _ Hc)).
    - apply ext_pushT.
    - apply isT_push.
  Qed.
  Lemma coeff_times_S_exit h c p o : isS h p o -> coeff_mul_assign (so_coeff o) c = Exit ->
    coeff_times_S c p h = Exit.
  Proof.
    intros E Hc. unfold coeff_times_S. rewrite (bind_eq _ _ _ _ _ (copyS_eq _ _ _ E)).
    rewrite (bind_eq _ _ _ _ _ (copyS_eq _ _ _ (isS_push _ _))). by apply bind_exit, mulCoeffS_exit.
  Qed.
  Lemma coeff_times_T_exit h c p o : isT h p o -> coeff_mul_assign (to_coeff o) c = Exit ->
    coeff_times_T c p h = Exit.
  Proof.
    intros E Hc. unfold coeff_times_T. rewrite (bind_eq _ _ _ _ _ (copyT_eq _ _ _ E)).
    rewrite (bind_eq _ _ _ _ _ (copyT_eq _ _ _ (isT_push _ _))). by apply bind_exit, mulCoeffT_exit.
  Qed.
  Lemma field_times_S_eq f p : @field_times_S V f p = coeff_times_S (coeff_field f) p.
  Proof. reflexivity. Qed.
  Lemma field_times_T_eq f p : @field_times_T V f p = coeff_times_T (coeff_field f) p.
  Proof. reflexivity. Qed.

  Lemma mapM_copyS_ok l : forall h os, Forall2 (isS h) l os ->
    ok (mapM_ copyS l) h (fun qs h' => Forall2 (isS h') qs os).
  Proof.
    induction l as [|p l IH]; intros h os HF.
    - apply Forall2_nil_inv_l in HF as ->. apply ok_ret. constructor.
    - apply Forall2_cons_inv_l in HF as (o & os' & Ho & HF & ->). simpl.
      eapply ok_bind; [by apply copyS_ok|]. intros q h1 Hx Hq.
      eapply ok_bind; [apply IH|].
      { eapply Forall2_impl; [exact HF|]. intros; by eapply ext_S. }
      intros qs h2 Hx2 Hqs. apply ok_ret. constructor; [by eapply ext_S|done].
  Qed.
  Lemma mapM_copyT_ok l : forall h os, Forall2 (isT h) l os ->
    ok (mapM_ copyT l) h (fun qs h' => Forall2 (isT h') qs os).
  Proof.
    induction l as [|p l IH]; intros h os HF.
    - apply Forall2_nil_inv_l in HF as ->. apply ok_ret. constructor.
    - apply Forall2_cons_inv_l in HF as (o & os' & Ho & HF & ->). simpl.
      eapply ok_bind; [by apply copyT_ok|]. intros q h1 Hx Hq.
      eapply ok_bind; [apply IH|].
      { eapply Forall2_impl; [exact HF|]. intros; by eapply ext_T. }
      intros qs h2 Hx2 Hqs. apply ok_ret. constructor; [by eapply ext_T|done].
  Qed.

  Lemma F2_S h h' l os : ext h h' -> Forall2 (isS h) l os -> Forall2 (isS h') l os.
  Proof. intros Hx HF. eapply Forall2_impl; [exact HF|]. intros; by eapply ext_S. Qed.
  Lemma F2_T h h' l os : ext h h' -> Forall2 (isT h) l os -> Forall2 (isT h') l os.
  Proof. intros Hx HF. eapply Forall2_impl; [exact HF|]. intros; by eapply ext_T. Qed.

  Lemma copyE_ok h e v : isE h e v -> ok (copyE e) h (fun e' h' => isE h' e' v).
  Proof.
    intros [HT' HS']. unfold copyE.
    eapply ok_bind; [by apply mapM_copyT_ok|]. intros ts h1 Hx1 Hts.
    eapply ok_bind; [apply mapM_copyS_ok, (F2_S h); done|]. intros ss h2 Hx2 Hss.
    apply ok_ret. split; [|done]. by apply (F2_T h1).
  Qed.
  Lemma addOperatorS_ok h e v p o : isE h e v -> isS h p o ->
    ok (addOperatorS e p) h (fun e' h' => isE h' e' (v.1, v.2 ++ [o])).
  Proof.
    intros [HT' HS'] Ho. unfold addOperatorS. eapply ok_bind; [by apply copyS_ok|]. intros q h1 Hx Hq.
    apply ok_ret. split; simpl; [by apply (F2_T h)|]. apply Forall2_app; [by apply (F2_S h)|by constructor].
  Qed.
  Lemma addOperatorT_ok h e v p o : isE h e v -> isT h p o ->
    ok (addOperatorT e p) h (fun e' h' => isE h' e' (v.1 ++ [o], v.2)).
  Proof.
    intros [HT' HS'] Ho. unfold addOperatorT. eapply ok_bind; [by apply copyT_ok|]. intros q h1 Hx Hq.
    apply ok_ret. split; simpl; [|by apply (F2_S h)]. apply Forall2_app; [by apply (F2_T h)|by constructor].
  Qed.
  Lemma addExpression_ok h e v e2 v2 : isE h e v -> isE h e2 v2 ->
    ok (addExpression e e2) h (fun e' h' => isE h' e' (v.1 ++ v2.1, v.2 ++ v2.2)).
  Proof.
    intros [HT1 HS1] [HT2 HS2]. unfold addExpression.
    eapply ok_bind; [by apply mapM_copyT_ok|]. intros ts h1 Hx1 Hts.
    eapply ok_bind; [apply mapM_copyS_ok, (F2_S h); done|]. intros ss h2 Hx2 Hss.
    apply ok_ret. split; simpl; apply Forall2_app.
    - apply (F2_T h1); [done|]. by apply (F2_T h).
    - by apply (F2_T h1).
    - apply (F2_S h1); [done|]. by apply (F2_S h).
    - done.
  Qed.
  Lemma expr_plus_ok h a va b vb : isE h a va -> isE h b vb ->
    ok (expr_plus a b) h (fun e h' => isE h' e (va.1 ++ vb.1, va.2 ++ vb.2)).
  Proof.
    intros Ha Hb. unfold expr_plus. eapply ok_bind; [by apply copyE_ok|]. intros l h1 Hx Hl.
    apply addExpression_ok; [done|]. by eapply isE_ext.
  Qed.
  Lemma expr_plus_op_ok h a va p o : isE h a va -> isS h p o ->
    ok (expr_plus_op a p) h (fun e h' => isE h' e (va.1, va.2 ++ [o])).
  Proof.
    intros Ha Hb. unfold expr_plus_op. eapply ok_bind; [by apply copyE_ok|]. intros l h1 Hx Hl.
    apply addOperatorS_ok; [done|]. by eapply ext_S.
  Qed.
  Definition scaleS (k : Qc) (o : spatialOp) := with_coeff o (coeff_mul_scalar (so_coeff o) k).
  Definition scaleT (k : Qc) (o : temporalOp) := with_coeffT o (coeff_mul_scalar (to_coeff o) k).
  Lemma scaled_T_ok k l : forall h os e v, isE h e v -> Forall2 (isT h) l os ->
    ok (scaled_T k l e) h (fun e' h' => isE h' e' (v.1 ++ map (scaleT k) os, v.2)).
  Proof.
    induction l as [|p l IH]; intros h os e v He HF.
    - apply Forall2_nil_inv_l in HF as ->. apply ok_ret. simpl. rewrite app_nil_r. by destruct v.
    - apply Forall2_cons_inv_l in HF as (o & os' & Ho & HF & ->). simpl.
      eapply ok_bind; [by apply scalar_times_T_ok|]. intros q h1 Hx Hq.
      eapply ok_bind; [apply (addOperatorT_ok _ _ v); [by eapply isE_ext|exact Hq]|]. intros e1 h2 Hx2 He1.
      eapply ok_impl; [apply IH; [exact He1|]|].
      { apply (F2_T h1); [done|]. by apply (F2_T h). }
      intros e2 h3 _. simpl. by rewrite <- app_assoc.
  Qed.
  Lemma scaled_S_ok k l : forall h os e v, isE h e v -> Forall2 (isS h) l os ->
    ok (scaled_S k l e) h (fun e' h' => isE h' e' (v.1, v.2 ++ map (scaleS k) os)).
  Proof.
    induction l as [|p l IH]; intros h os e v He HF.
    - apply Forall2_nil_inv_l in HF as ->. apply ok_ret. simpl. rewrite app_nil_r. by destruct v.
    - apply Forall2_cons_inv_l in HF as (o & os' & Ho & HF & ->). simpl.
      eapply ok_bind; [by apply scalar_times_S_ok|]. intros q h1 Hx Hq.
      eapply ok_bind; [apply (addOperatorS_ok _ _ v); [by eapply isE_ext|exact Hq]|]. intros e1 h2 Hx2 He1.
      eapply ok_impl; [apply IH; [exact He1|]|].
      { apply (F2_S h1); [done|]. by apply (F2_S h). }
      intros e2 h3 _. simpl. by rewrite <- app_assoc.
  Qed.
  Lemma isE_empty h : isE h empty_expression ([], []).
  Proof. split; constructor. Qed.
  Lemma scalar_times_expr_ok h k a va : isE h a va ->
    ok (scalar_times_expr k a) h (fun e h' => isE h' e (map (scaleT k) va.1, map (scaleS k) va.2)).
  Proof.
    intros [HT1 HS1]. unfold scalar_times_expr.
    eapply ok_bind; [apply (scaled_T_ok k _ h va.1 _ ([], [])); [apply isE_empty|done]|]. intros e1 h1 Hx He1.
    simpl in He1. eapply ok_impl; [apply (scaled_S_ok k _ h1 va.2 _ _ He1)|].
    { by apply (F2_S h). }
    intros e2 h2 _. simpl. done.
  Qed.
  Lemma expr_minus_ok h a va b vb : isE h a va -> isE h b vb ->
    ok (expr_minus a b) h (fun e h' =>
      isE h' e (va.1 ++ map (scaleT (- (1))%Qc) vb.1, va.2 ++ map (scaleS (- (1))%Qc) vb.2)).
  Proof.
    intros Ha Hb. unfold expr_minus. eapply ok_bind; [by apply copyE_ok|]. intros l h1 Hx Hl.
    eapply ok_bind; [apply scalar_times_expr_ok; exact (isE_ext _ _ _ _ Hx Hb)|]. intros r h2 Hx2 Hr.
    eapply ok_impl; [apply (addExpression_ok _ _ _ _ _ (isE_ext _ _ _ _ Hx2 Hl) Hr)|]. done.
  Qed.
  Lemma expr_minus_op_ok h a va p o : isE h a va -> isS h p o ->
    ok (expr_minus_op a p) h (fun e h' => isE h' e (va.1, va.2 ++ [scaleS (- (1))%Qc o])).
  Proof.
    intros Ha Hb. unfold expr_minus_op. eapply ok_bind; [by apply copyE_ok|]. intros l h1 Hx Hl.
    eapply ok_bind; [apply scalar_times_S_ok; exact (ext_S _ _ _ _ Hx Hb)|]. intros r h2 Hx2 Hr.
    exact (addOperatorS_ok _ _ _ _ _ (isE_ext _ _ _ _ Hx2 Hl) Hr).
  Qed.

  (** Operands. *)
  Inductive opval := VS (o : spatialOp) | VT (o : temporalOp).
  Definition isO (h : heap) (x : operand) (v : opval) : Prop :=
    match x, v with OpS p, VS o => isS h p o | OpT p, VT o => isT h p o | _, _ => False end.
  Definition as_pair (v : opval) : list temporalOp * list spatialOp :=
    match v with VS o => ([], [o]) | VT o => ([o], []) end.
  Lemma isO_ext h h' x v : ext h h' -> isO h x v -> isO h' x v.
  Proof. intros Hx. destruct x, v; simpl; intros E; try contradiction; [exact (ext_S _ _ _ _ Hx E)|exact (ext_T _ _ _ _ Hx E)]. Qed.
  Lemma copyO_ok h x v : isO h x v -> ok (copyO x) h (fun y h' => isO h' y v).
  Proof.
    destruct x, v; simpl; try done; intros Ho.
    - eapply ok_bind; [by apply copyS_ok|]. intros q h1 _ Hq. by apply ok_ret.
    - eapply ok_bind; [by apply copyT_ok|]. intros q h1 _ Hq. by apply ok_ret.
  Qed.
  Lemma addOperator_ok h e ve x v : isE h e ve -> isO h x v ->
    ok (addOperator e x) h (fun e' h' => isE h' e' (ve.1 ++ (as_pair v).1, ve.2 ++ (as_pair v).2)).
  Proof.
    intros He. destruct x, v; simpl; try done; intros Ho.
    - eapply ok_impl; [by apply addOperatorS_ok|]. intros e' h' _. by rewrite app_nil_r.
    - eapply ok_impl; [by apply addOperatorT_ok|]. intros e' h' _. by rewrite app_nil_r.
  Qed.
  Lemma op_plus_op_ok h x v y w : isO h x v -> isO h y w ->
    ok (op_plus_op x y) h (fun e h' => isE h' e ((as_pair v).1 ++ (as_pair w).1, (as_pair v).2 ++ (as_pair w).2)).
  Proof.
    intros Hv Hw. unfold op_plus_op. eapply ok_bind; [by apply copyO_ok|]. intros l h1 Hx1 Hl.
    eapply ok_bind; [apply copyO_ok; exact (isO_ext _ _ _ _ Hx1 Hw)|]. intros r h2 Hx2 Hr.
    eapply ok_bind; [apply (addOperator_ok _ _ ([], [])); [apply isE_empty|eapply isO_ext; [exact Hx2|exact Hl]]|].
    intros e h3 Hx3 He. simpl in He. eapply ok_impl; [apply (addOperator_ok _ _ _ _ _ He (isO_ext _ _ _ _ Hx3 Hr))|]. done.
  Qed.
  Definition negO (v : opval) : opval :=
    match v with VS o => VS (scaleS (- (1))%Qc o) | VT o => VT (scaleT (- (1))%Qc o) end.
  Lemma coeff_mul_minus1 (c : Coeff) : coeff_mul_assign c (coeff_scalar (- (1))%Qc) = Ok (coeff_mul_scalar c (- (1))%Qc).
  Proof. destruct c as [k [l|]]; reflexivity. Qed.
  Lemma coeff_times_neg_ok h x v : isO h x v ->
    ok (coeff_times (coeff_scalar (- (1))%Qc) x) h (fun y h' => isO h' y (negO v)).
  Proof.
    destruct x, v; simpl; try done; intros Ho.
    - eapply ok_bind; [apply (coeff_times_S_ok h); [exact Ho|apply coeff_mul_minus1]|]. intros q h1 _ Hq. by apply ok_ret.
    - eapply ok_bind; [apply (coeff_times_T_ok h); [exact Ho|apply coeff_mul_minus1]|]. intros q h1 _ Hq. by apply ok_ret.
  Qed.
  Lemma op_minus_op_ok h x v y w : isO h x v -> isO h y w ->
    ok (op_minus_op x y) h (fun e h' =>
      isE h' e ((as_pair v).1 ++ (as_pair (negO w)).1, (as_pair v).2 ++ (as_pair (negO w)).2)).
  Proof.
    intros Hv Hw. unfold op_minus_op. eapply ok_bind; [by apply copyO_ok|]. intros l h1 Hx1 Hl.
    eapply ok_bind; [apply copyO_ok; exact (isO_ext _ _ _ _ Hx1 Hw)|]. intros r h2 Hx2 Hr.
    eapply ok_bind; [apply (addOperator_ok _ _ ([], [])); [apply isE_empty|eapply isO_ext; [exact Hx2|exact Hl]]|].
    intros e h3 Hx3 He. simpl in He.
    eapply ok_bind; [apply coeff_times_neg_ok; exact (isO_ext _ _ _ _ Hx3 Hr)|]. intros r' h4 Hx4 Hr'.
    eapply ok_impl; [apply addOperator_ok; [eapply isE_ext; [exact Hx4|exact He]|exact Hr']|]. done.
  Qed.

    Lemma coeff_assign_ok a b r m : coeff_mul_assign a b = Ok r -> coeff_ok a m -> coeff_ok b m -> coeff_ok r m.
    Proof.
      destruct a as [ka [la|]], b as [kb [lb|]]; simpl; intros E; try discriminate; injection E as <-; done.
    Qed.
    Lemma coeff_assign_cases a b : (exists r, coeff_mul_assign a b = Ok r /\ has_field r = has_field b + has_field a /\ has_field r <= 1)
      \/ (coeff_mul_assign a b = Exit /\ 1 < has_field b + has_field a).
    Proof.
      destruct a as [ka [la|]], b as [kb [lb|]]; unfold has_field; simpl; eauto 6 with lia.
    Qed.

  (** ** Values: [GS k c] (resp. [GT phi c]) is what a spatial operator of kind k
      (a time derivative of field phi) means at c with coefficient 1. *)
  Section values.
    Context (c : nat).
    Context (GS : spatialKind V -> opType -> V) (GT : nat -> opType -> V).
    Definition valueS (o : spatialOp) : V := vscale (coeff_val (so_coeff o) c) (GS (so_kind o) (so_type o)).
    Definition valueT (o : temporalOp) : V := vscale (coeff_val (to_coeff o) c) (GT (to_phi o) (to_type o)).
    Definition valueE (v : list temporalOp * list spatialOp) : V :=
      vadd (vsum (map valueT v.1)) (vsum (map valueS v.2)).
    Definition objvalS (h : heap) (p : nat) : V := match h_spatial h !! p with Some o => valueS o | None => vzero end.
    Definition objvalT (h : heap) (p : nat) : V := match h_temporal h !! p with Some o => valueT o | None => vzero end.

    Lemma coeff_scalar_val co k : coeff_val (coeff_mul_scalar co k) c = (k * coeff_val co c)%Qc.
    Proof. unfold coeff_val, coeff_mul_scalar; simpl. destruct (view_ co); ring. Qed.
    Lemma coeff_scalar_ok co k m : coeff_ok co m -> coeff_ok (coeff_mul_scalar co k) m.
    Proof. done. Qed.
    Lemma coeff_assign_val a b r : coeff_mul_assign a b = Ok r -> coeff_val r c = (coeff_val b c * coeff_val a c)%Qc.
    Proof.
      destruct a as [ka [la|]], b as [kb [lb|]]; simpl; intros E; try discriminate; injection E as <-;
        unfold coeff_val, coeff_mul_scalar; simpl; ring.
    Qed.
    Lemma scaleS_value k o : valueS (scaleS k o) = vscale k (valueS o).
    Proof. unfold valueS, scaleS. simpl. rewrite coeff_scalar_val. apply vscale_mul. Qed.
    Lemma scaleT_value k o : valueT (scaleT k o) = vscale k (valueT o).
    Proof. unfold valueT, scaleT. simpl. rewrite coeff_scalar_val. apply vscale_mul. Qed.
    Lemma with_coeff_value o r b : coeff_mul_assign (so_coeff o) b = Ok r ->
      valueS (with_coeff o r) = vscale (coeff_val b c) (valueS o).
    Proof. intros E. unfold valueS. simpl. rewrite (coeff_assign_val _ _ _ E). apply vscale_mul. Qed.
    Lemma with_coeffT_value o r b : coeff_mul_assign (to_coeff o) b = Ok r ->
      valueT (with_coeffT o r) = vscale (coeff_val b c) (valueT o).
    Proof. intros E. unfold valueT. simpl. rewrite (coeff_assign_val _ _ _ E). apply vscale_mul. Qed.

    Lemma vneg_scale (a : V) : vscale (- (1))%Qc a = vneg a.
    Proof. by rewrite vscale_opp, vscale_1. Qed.
  End values.

  (** ** Evaluating the text of an equation *)
  Section text.
    Context (n : nat) (h0 : heap).
    (** Operator o of the result represents the term with object p and value g
        (for every cell and every meaning of the kinds). *)
    Definition derivedS (p : nat) (o : spatialOp) : Prop :=
      exists o0, h_spatial h0 !! p = Some o0 /\ so_kind o = so_kind o0 /\ so_type o = so_type o0 /\ coeff_ok (so_coeff o) n.
    Definition derivedT (p : nat) (o : temporalOp) : Prop :=
      exists o0, h_temporal h0 !! p = Some o0 /\ to_phi o = to_phi o0 /\ to_type o = to_type o0 /\ coeff_ok (to_coeff o) n.
    Definition meansS (s : sterm) (o : spatialOp) : Prop :=
      derivedS (sterm_object s) o /\
      forall c GS, valueS c GS o = sterm_value (objvalS c GS h0) c s.
    Definition meansT (s : tterm) (o : temporalOp) : Prop :=
      derivedT (tterm_object s) o /\
      forall c GT, valueT c GT o = tterm_value (objvalT c GT h0) c s.

    Lemma coeff_field_val f c : coeff_val (coeff_field f) c = at0 f c.
    Proof. unfold coeff_val, coeff_field; simpl. apply Qcmult_1_r. Qed.

    Lemma eval_sterm_spec s : forall h, ext h0 h -> sterm_wf h0 n s ->
      (sterm_fields h0 s <= 1 /\
       ok (eval_sterm s) h (fun q h' => exists o, isS h' q o /\ meansS s o /\ has_field (so_coeff o) = sterm_fields h0 s))
      \/ (1 < sterm_fields h0 s /\ eval_sterm s h = Exit).
    Proof.
      assert (Hmul : forall s k h, ext h0 h -> sterm_wf h0 n s -> coeff_ok k n ->
        ((sterm_fields h0 s <= 1 /\
       ok (eval_sterm s) h (fun q h' => exists o, isS h' q o /\ meansS s o /\ has_field (so_coeff o) = sterm_fields h0 s))
      \/ (1 < sterm_fields h0 s /\ eval_sterm s h = Exit)) ->
        (has_field k + sterm_fields h0 s <= 1 /\
       ok (bind (eval_sterm s) (coeff_times_S k)) h (fun q h' => exists o, isS h' q o /\ meansS (SCoeff k s) o /\ has_field (so_coeff o) = has_field k + sterm_fields h0 s))
      \/ (1 < has_field k + sterm_fields h0 s /\ bind (eval_sterm s) (coeff_times_S k) h = Exit)).
      { intros s' k h Hx Hwf Hk [[Hf Hok]|[Hf Hex]].
        2:{ right. split; [lia|]. by apply bind_exit. }
        destruct Hok as (q & h1 & E & Hx1 & o & Ho & [(o0 & E0 & Ek & Et & Hco) Hv] & Hhf).
        destruct (coeff_assign_cases (so_coeff o) k) as [(r & Er & Hr & Hle)|[Er Hgt]].
        - left. split; [lia|]. rewrite Hhf in Hr. rewrite <- Hr.
          destruct (coeff_times_S_ok h1 k q o r Ho Er) as (q' & h2 & E2 & Hx2 & Ho2).
          exists q', h2. rewrite (bind_eq _ _ _ _ _ E). split; [done|]. split; [by eapply ext_trans|].
          exists (with_coeff o r). split; [done|]. split; [|done]. split.
          + exists o0. cbn [sterm_object]. split; [done|]. split; [done|]. split; [done|]. by apply (coeff_assign_ok _ _ _ _ Er).
          + intros c GS. cbn [sterm_value]. rewrite <- Hv. by apply with_coeff_value.
        - right. split; [lia|]. rewrite (bind_eq _ _ _ _ _ E). by eapply coeff_times_S_exit. }
      induction s as [p|k s IH|f s IH|k s IH]; intros h Hx Hwf.
      - cbn [sterm_wf] in Hwf. destruct Hwf as (o & Eo & Hco). cbn [sterm_fields]. rewrite Eo. left.
        split; [unfold has_field; destruct (view_ _); lia|].
        apply ok_ret. exists o. split; [by eapply ext_S|]. split; [|done]. split; [by exists o|].
        intros c GS. cbn [sterm_value]. unfold objvalS. by rewrite Eo.
      - cbn [sterm_wf sterm_fields] in *. destruct (IH h Hx Hwf) as [[Hf Hok]|[Hf Hex]].
        2:{ right. split; [done|]. by apply bind_exit. }
        left. split; [done|]. cbn [eval_sterm]. eapply ok_bind; [exact Hok|].
        intros q h1 Hx1 (o & Ho & [(o0 & E0 & Ek & Et & Hco) Hv] & Hhf).
        eapply ok_impl; [by apply scalar_times_S_ok|]. intros q' h2 Hx2 Ho2.
        exists (scaleS k o). split; [done|]. split; [|done]. split.
        + exists o0. cbn [sterm_object]. done.
        + intros c GS. cbn [sterm_value]. rewrite <- Hv. apply scaleS_value.
      - cbn [sterm_wf sterm_fields eval_sterm] in *. destruct Hwf as [Hl Hwf].
        destruct (Hmul s (coeff_field f) h Hx Hwf Hl (IH h Hx Hwf)) as [[Hf Hok]|[Hf Hex]]; [left|right; done].
        split; [done|]. eapply ok_impl; [exact Hok|]. intros q h' _ (o & Ho & [Hd Hv] & Hhf).
        exists o. split; [done|]. split; [|done]. split; [done|]. intros c GS. rewrite Hv. cbn [sterm_value]. by rewrite coeff_field_val.
      - cbn [sterm_wf sterm_fields eval_sterm] in *. destruct Hwf as [Hl Hwf]. by apply Hmul; auto.
    Qed.

    Lemma eval_tterm_spec s : forall h, ext h0 h -> tterm_wf h0 n s ->
      (tterm_fields h0 s <= 1 /\
       ok (eval_tterm s) h (fun q h' => exists o, isT h' q o /\ meansT s o /\ has_field (to_coeff o) = tterm_fields h0 s))
      \/ (1 < tterm_fields h0 s /\ eval_tterm s h = Exit).
    Proof.
      assert (Hmul : forall s k h, ext h0 h -> tterm_wf h0 n s -> coeff_ok k n ->
        ((tterm_fields h0 s <= 1 /\
       ok (eval_tterm s) h (fun q h' => exists o, isT h' q o /\ meansT s o /\ has_field (to_coeff o) = tterm_fields h0 s))
      \/ (1 < tterm_fields h0 s /\ eval_tterm s h = Exit)) ->
        (has_field k + tterm_fields h0 s <= 1 /\
       ok (bind (eval_tterm s) (coeff_times_T k)) h (fun q h' => exists o, isT h' q o /\ meansT (TCoeff k s) o /\ has_field (to_coeff o) = has_field k + tterm_fields h0 s))
      \/ (1 < has_field k + tterm_fields h0 s /\ bind (eval_tterm s) (coeff_times_T k) h = Exit)).
      { intros s' k h Hx Hwf Hk [[Hf Hok]|[Hf Hex]].
        2:{ right. split; [lia|]. by apply bind_exit. }
        destruct Hok as (q & h1 & E & Hx1 & o & Ho & [(o0 & E0 & Ek & Et & Hco) Hv] & Hhf).
        destruct (coeff_assign_cases (to_coeff o) k) as [(r & Er & Hr & Hle)|[Er Hgt]].
        - left. split; [lia|]. rewrite Hhf in Hr. rewrite <- Hr.
          destruct (coeff_times_T_ok h1 k q o r Ho Er) as (q' & h2 & E2 & Hx2 & Ho2).
          exists q', h2. rewrite (bind_eq _ _ _ _ _ E). split; [done|]. split; [by eapply ext_trans|].
          exists (with_coeffT o r). split; [done|]. split; [|done]. split.
          + exists o0. cbn [tterm_object]. split; [done|]. split; [done|]. split; [done|]. by apply (coeff_assign_ok _ _ _ _ Er).
          + intros c GS. cbn [tterm_value]. rewrite <- Hv. by apply with_coeffT_value.
        - right. split; [lia|]. rewrite (bind_eq _ _ _ _ _ E). by eapply coeff_times_T_exit. }
      induction s as [p|k s IH|f s IH|k s IH]; intros h Hx Hwf.
      - cbn [tterm_wf] in Hwf. destruct Hwf as (o & Eo & Hco). cbn [tterm_fields]. rewrite Eo. left.
        split; [unfold has_field; destruct (view_ _); lia|].
        apply ok_ret. exists o. split; [by eapply ext_T|]. split; [|done]. split; [by exists o|].
        intros c GS. cbn [tterm_value]. unfold objvalT. by rewrite Eo.
      - cbn [tterm_wf tterm_fields] in *. destruct (IH h Hx Hwf) as [[Hf Hok]|[Hf Hex]].
        2:{ right. split; [done|]. by apply bind_exit. }
        left. split; [done|]. cbn [eval_tterm]. eapply ok_bind; [exact Hok|].
        intros q h1 Hx1 (o & Ho & [(o0 & E0 & Ek & Et & Hco) Hv] & Hhf).
        eapply ok_impl; [by apply scalar_times_T_ok|]. intros q' h2 Hx2 Ho2.
        exists (scaleT k o). split; [done|]. split; [|done]. split.
        + exists o0. cbn [tterm_object]. done.
        + intros c GS. cbn [tterm_value]. rewrite <- Hv. apply scaleT_value.
      - cbn [tterm_wf tterm_fields eval_tterm] in *. destruct Hwf as [Hl Hwf].
        destruct (Hmul s (coeff_field f) h Hx Hwf Hl (IH h Hx Hwf)) as [[Hf Hok]|[Hf Hex]]; [left|right; done].
        split; [done|]. eapply ok_impl; [exact Hok|]. intros q h' _ (o & Ho & [Hd Hv] & Hhf).
        exists o. split; [done|]. split; [|done]. split; [done|]. intros c GS. rewrite Hv. cbn [tterm_value]. by rewrite coeff_field_val.
      - cbn [tterm_wf tterm_fields eval_tterm] in *. destruct Hwf as [Hl Hwf]. by apply Hmul; auto.
    Qed.

    (** The value of a term / expression value pair. *)
    Definition derived (e_spatial e_temporal : list nat) (v : list temporalOp * list spatialOp) : Prop :=
      Forall2 derivedT e_temporal v.1 /\ Forall2 derivedS e_spatial v.2.
    Lemma derivedS_scale p k o : derivedS p o -> derivedS p (scaleS k o).
    Proof. intros (o0 & E & ? & ? & ?). by exists o0. Qed.
    Lemma derivedT_scale p k o : derivedT p o -> derivedT p (scaleT k o).
    Proof. intros (o0 & E & ? & ? & ?). by exists o0. Qed.

    Definition means_term (t : term) (v : opval) : Prop :=
      match t, v with TermS s, VS o => meansS s o | TermT s, VT o => meansT s o | _, _ => False end.
    Lemma eval_term_spec t : forall h, ext h0 h -> term_wf h0 n t ->
      (term_fields h0 t <= 1 /\
       ok (eval_term t) h (fun x h' => exists v, isO h' x v /\ means_term t v))
      \/ (1 < term_fields h0 t /\ eval_term t h = Exit).
    Proof.
      intros h Hx Hwf. destruct t as [s|s]; cbn [term_fields eval_term term_wf] in *.
      - destruct (eval_sterm_spec s h Hx Hwf) as [[Hf Hok]|[Hf Hex]].
        + left. split; [done|]. eapply ok_bind; [exact Hok|]. intros q h1 _ (o & Ho & Hm & _).
          apply ok_ret. by exists (VS o).
        + right. split; [done|]. by apply bind_exit.
      - destruct (eval_tterm_spec s h Hx Hwf) as [[Hf Hok]|[Hf Hex]].
        + left. split; [done|]. eapply ok_bind; [exact Hok|]. intros q h1 _ (o & Ho & Hm & _).
          apply ok_ret. by exists (VT o).
        + right. split; [done|]. by apply bind_exit.
    Qed.

    Lemma valueE_app c GS GT (a b : list temporalOp * list spatialOp) :
      valueE c GS GT (a.1 ++ b.1, a.2 ++ b.2) = vadd (valueE c GS GT a) (valueE c GS GT b).
    Proof.
      unfold valueE; simpl. rewrite !map_app, !vsum_app. pose proof (V_ring (V := V)) as R.
      rewrite <- !(Radd_assoc R). f_equal. rewrite !(Radd_assoc R). f_equal. apply (Radd_comm R).
    Qed.
    Lemma valueE_scale c GS GT k (v : list temporalOp * list spatialOp) :
      valueE c GS GT (map (scaleT k) v.1, map (scaleS k) v.2) = vscale k (valueE c GS GT v).
    Proof.
      unfold valueE; simpl. rewrite !map_map.
      rewrite (map_ext _ (fun o => vscale k (valueT c GT o))) by (intros; apply scaleT_value).
      rewrite (map_ext _ (fun o => vscale k (valueS c GS o)) ) by (intros; apply scaleS_value).
      rewrite !vsum_map_scale. by rewrite vscale_add.
    Qed.
    Lemma valueE_op c GS GT t v : means_term t v ->
      valueE c GS GT (as_pair v) = term_value (objvalS c GS h0) (objvalT c GT h0) c t.
    Proof.
      pose proof (V_ring (V := V)) as R.
      destruct t, v; simpl; try contradiction; intros [_ Hm]; unfold valueE; simpl; rewrite <- Hm.
      - rewrite (Radd_0_l R), (Radd_comm R), (Radd_0_l R). done.
      - rewrite !(Radd_comm R _ vzero), !(Radd_0_l R). done.
    Qed.
    Lemma as_pair_neg v : as_pair (negO v) = (map (scaleT (- (1))%Qc) (as_pair v).1, map (scaleS (- (1))%Qc) (as_pair v).2).
    Proof. by destruct v. Qed.
    Lemma derived_app a b c d v w : derived a b v -> derived c d w -> derived (a ++ c) (b ++ d) (v.1 ++ w.1, v.2 ++ w.2).
    Proof. intros [H1 H2] [H3 H4]. split; simpl; by apply Forall2_app. Qed.
    Lemma derived_scale a b k v : derived a b v -> derived a b (map (scaleT k) v.1, map (scaleS k) v.2).
    Proof.
      intros [H1 H2]. split; simpl; apply Forall2_fmap_r; (eapply Forall2_impl; [eassumption|]); intros;
        [by apply derivedT_scale|by apply derivedS_scale].
    Qed.
    Lemma derived_op t v : means_term t v -> derived (term_spatial t) (term_temporal t) (as_pair v).
    Proof.
      destruct t, v; simpl; try contradiction; intros [Hd _]; split; simpl; repeat constructor; done.
    Qed.
    Lemma derived_sterm s o : meansS s o -> derived [sterm_object s] [] ([], [o]).
    Proof. intros [Hd _]. split; simpl; repeat constructor; done. Qed.
    Lemma valueE_sterm c GS GT s o : meansS s o -> valueE c GS GT ([], [o]) = sterm_value (objvalS c GS h0) c s.
    Proof. intros Hm. exact (valueE_op c GS GT (TermS s) (VS o) Hm). Qed.

    Definition meansE (e : equation) (v : list temporalOp * list spatialOp) : Prop :=
      derived (spatial_objects e) (temporal_objects e) v /\
      forall c GS GT, valueE c GS GT v = equation_value (objvalS c GS h0) (objvalT c GT h0) c e.

    Lemma eval_equation_spec e : forall h, ext h0 h -> equation_wf h0 n e ->
      (single_fields h0 e /\ ok (eval_equation e) h (fun x h' => exists v, isE h' x v /\ meansE e v))
      \/ (~ single_fields h0 e /\ eval_equation e h = Exit).
    Proof.
      induction e as [x|a b|a b|a IHa b IHb|a IHa b IHb|a IHa s|a IHa s|k a IHa]; intros h Hx Hwf.
      - (* EVar *) left. split; [done|]. apply ok_ret. destruct Hwf as [HT1 HS1].
        assert (exists ts, Forall2 (isT h0) (ex_temporal x) ts /\ Forall2 derivedT (ex_temporal x) ts /\
          forall c GT, map (valueT c GT) ts = map (objvalT c GT h0) (ex_temporal x)) as (ts & Ht1 & Ht2 & Ht3).
        { revert HT1. generalize (ex_temporal x). induction l as [|p l IH]; intros HF.
          - exists []. split; [constructor|]. split; [constructor|done].
          - inversion HF as [|? ? (o & Eo & Hco) HF']; subst. destruct (IH HF') as (ts & H1 & H2 & H3).
            exists (o :: ts). split; [by constructor|]. split; [constructor; [by exists o|done]|].
            intros c GT. simpl. rewrite H3. f_equal. unfold objvalT. by rewrite Eo. }
        assert (exists ts, Forall2 (isS h0) (ex_spatial x) ts /\ Forall2 derivedS (ex_spatial x) ts /\
          forall c GT, map (valueS c GT) ts = map (objvalS c GT h0) (ex_spatial x)) as (ss & Hs1 & Hs2 & Hs3).
        { revert HS1. generalize (ex_spatial x). induction l as [|p l IH]; intros HF.
          - exists []. split; [constructor|]. split; [constructor|done].
          - inversion HF as [|? ? (o & Eo & Hco) HF']; subst. destruct (IH HF') as (ts' & H1 & H2 & H3).
            exists (o :: ts'). split; [by constructor|]. split; [constructor; [by exists o|done]|].
            intros c GT. simpl. rewrite H3. f_equal. unfold objvalS. by rewrite Eo. }
        exists (ts, ss). split; [|split].
        + apply (isE_ext h0 h); [done|]. by split.
        + by split.
        + intros c GS GT. unfold valueE. simpl. by rewrite Ht3, Hs3.
      - (* EOpPlus *) destruct Hwf as [Wa Wb]. cbn [single_fields eval_equation].
        destruct (eval_term_spec a h Hx Wa) as [[Ha Hok]|[Ha Hex]].
        2:{ right. split; [lia|]. by apply bind_exit. }
        destruct Hok as (x & h1 & E1 & Hx1 & v & Hv & Hm).
        destruct (eval_term_spec b h1 (ext_trans _ _ _ Hx Hx1) Wb) as [[Hb Hok]|[Hb Hex]].
        2:{ right. split; [lia|]. rewrite (bind_eq _ _ _ _ _ E1). by apply bind_exit. }
        left. split; [done|]. destruct Hok as (y & h2 & E2 & Hx2 & w & Hw & Hmw).
        destruct (op_plus_op_ok h2 x v y w (isO_ext _ _ _ _ Hx2 Hv) Hw) as (r & h3 & E3 & Hx3 & Hr).
        exists r, h3. rewrite (bind_eq _ _ _ _ _ E1), (bind_eq _ _ _ _ _ E2). split; [done|].
        split; [eapply ext_trans; [exact Hx1|]; by eapply ext_trans|].
        eexists. split; [exact Hr|]. split.
        + apply derived_app; by apply derived_op.
        + intros c GS GT. rewrite valueE_app. by rewrite (valueE_op _ _ _ a v Hm), (valueE_op _ _ _ b w Hmw).
      - (* EOpMinus *) destruct Hwf as [Wa Wb]. cbn [single_fields eval_equation].
        destruct (eval_term_spec a h Hx Wa) as [[Ha Hok]|[Ha Hex]].
        2:{ right. split; [lia|]. by apply bind_exit. }
        destruct Hok as (x & h1 & E1 & Hx1 & v & Hv & Hm).
        destruct (eval_term_spec b h1 (ext_trans _ _ _ Hx Hx1) Wb) as [[Hb Hok]|[Hb Hex]].
        2:{ right. split; [lia|]. rewrite (bind_eq _ _ _ _ _ E1). by apply bind_exit. }
        left. split; [done|]. destruct Hok as (y & h2 & E2 & Hx2 & w & Hw & Hmw).
        destruct (op_minus_op_ok h2 x v y w (isO_ext _ _ _ _ Hx2 Hv) Hw) as (r & h3 & E3 & Hx3 & Hr).
        exists r, h3. rewrite (bind_eq _ _ _ _ _ E1), (bind_eq _ _ _ _ _ E2). split; [done|].
        split; [eapply ext_trans; [exact Hx1|]; by eapply ext_trans|].
        eexists. split; [exact Hr|]. rewrite as_pair_neg. split.
        + apply derived_app; [by apply derived_op|]. by apply derived_scale, derived_op.
        + intros c GS GT. rewrite valueE_app, valueE_scale, vneg_scale.
          by rewrite (valueE_op _ _ _ a v Hm), (valueE_op _ _ _ b w Hmw).
      - (* EPlus *) destruct Hwf as [Wa Wb]. cbn [single_fields eval_equation].
        destruct (IHa h Hx Wa) as [[Ha Hok]|[Ha Hex]].
        2:{ right. split; [tauto|]. by apply bind_exit. }
        destruct Hok as (x & h1 & E1 & Hx1 & v & Hv & Hdv & Hm).
        destruct (IHb h1 (ext_trans _ _ _ Hx Hx1) Wb) as [[Hb Hok]|[Hb Hex]].
        2:{ right. split; [tauto|]. rewrite (bind_eq _ _ _ _ _ E1). by apply bind_exit. }
        left. split; [done|]. destruct Hok as (y & h2 & E2 & Hx2 & w & Hw & Hdw & Hmw).
        destruct (expr_plus_ok h2 x v y w (isE_ext _ _ _ _ Hx2 Hv) Hw) as (r & h3 & E3 & Hx3 & Hr).
        exists r, h3. rewrite (bind_eq _ _ _ _ _ E1), (bind_eq _ _ _ _ _ E2). split; [done|].
        split; [eapply ext_trans; [exact Hx1|]; by eapply ext_trans|].
        eexists. split; [exact Hr|]. split.
        + by apply derived_app.
        + intros c GS GT. rewrite valueE_app. by rewrite Hm, Hmw.
      - (* EMinus *) destruct Hwf as [Wa Wb]. cbn [single_fields eval_equation].
        destruct (IHa h Hx Wa) as [[Ha Hok]|[Ha Hex]].
        2:{ right. split; [tauto|]. by apply bind_exit. }
        destruct Hok as (x & h1 & E1 & Hx1 & v & Hv & Hdv & Hm).
        destruct (IHb h1 (ext_trans _ _ _ Hx Hx1) Wb) as [[Hb Hok]|[Hb Hex]].
        2:{ right. split; [tauto|]. rewrite (bind_eq _ _ _ _ _ E1). by apply bind_exit. }
        left. split; [done|]. destruct Hok as (y & h2 & E2 & Hx2 & w & Hw & Hdw & Hmw).
        destruct (expr_minus_ok h2 x v y w (isE_ext _ _ _ _ Hx2 Hv) Hw) as (r & h3 & E3 & Hx3 & Hr).
        exists r, h3. rewrite (bind_eq _ _ _ _ _ E1), (bind_eq _ _ _ _ _ E2). split; [done|].
        split; [eapply ext_trans; [exact Hx1|]; by eapply ext_trans|].
        eexists. split; [exact Hr|]. split.
        + apply (derived_app _ _ _ _ v (map (scaleT (- (1))%Qc) w.1, map (scaleS (- (1))%Qc) w.2)); [done|]. by apply derived_scale.
        + intros c GS GT. etransitivity; [apply (valueE_app c GS GT v (map (scaleT (- (1))%Qc) w.1, map (scaleS (- (1))%Qc) w.2))|]. rewrite valueE_scale, vneg_scale. by rewrite Hm, Hmw.
      - (* EPlusOp *) destruct Hwf as [Wa Wb]. cbn [single_fields eval_equation].
        destruct (IHa h Hx Wa) as [[Ha Hok]|[Ha Hex]].
        2:{ right. split; [tauto|]. by apply bind_exit. }
        destruct Hok as (x & h1 & E1 & Hx1 & v & Hv & Hdv & Hm).
        destruct (eval_sterm_spec s h1 (ext_trans _ _ _ Hx Hx1) Wb) as [[Hb Hok]|[Hb Hex]].
        2:{ right. split; [lia|]. rewrite (bind_eq _ _ _ _ _ E1). by apply bind_exit. }
        left. split; [done|]. destruct Hok as (y & h2 & E2 & Hx2 & w & Hw & Hmw & _).
        destruct (expr_plus_op_ok h2 x v y w (isE_ext _ _ _ _ Hx2 Hv) Hw) as (r & h3 & E3 & Hx3 & Hr).
        exists r, h3. rewrite (bind_eq _ _ _ _ _ E1), (bind_eq _ _ _ _ _ E2). split; [done|].
        split; [eapply ext_trans; [exact Hx1|]; by eapply ext_trans|].
        exists (v.1 ++ [], v.2 ++ [w]). rewrite app_nil_r at 1. split; [exact Hr|]. split.
        + replace (temporal_objects (EPlusOp a s)) with (temporal_objects a ++ []) by apply app_nil_r.
          by apply (derived_app _ _ _ _ v ([], [w])); [|apply derived_sterm].
        + intros c GS GT. etransitivity; [apply (valueE_app c GS GT v ([], [w]))|]. by rewrite Hm, (valueE_sterm _ _ _ s w Hmw).
      - (* EMinusOp *) destruct Hwf as [Wa Wb]. cbn [single_fields eval_equation].
        destruct (IHa h Hx Wa) as [[Ha Hok]|[Ha Hex]].
        2:{ right. split; [tauto|]. by apply bind_exit. }
        destruct Hok as (x & h1 & E1 & Hx1 & v & Hv & Hdv & Hm).
        destruct (eval_sterm_spec s h1 (ext_trans _ _ _ Hx Hx1) Wb) as [[Hb Hok]|[Hb Hex]].
        2:{ right. split; [lia|]. rewrite (bind_eq _ _ _ _ _ E1). by apply bind_exit. }
        left. split; [done|]. destruct Hok as (y & h2 & E2 & Hx2 & w & Hw & Hmw & _).
        destruct (expr_minus_op_ok h2 x v y w (isE_ext _ _ _ _ Hx2 Hv) Hw) as (r & h3 & E3 & Hx3 & Hr).
        exists r, h3. rewrite (bind_eq _ _ _ _ _ E1), (bind_eq _ _ _ _ _ E2). split; [done|].
        split; [eapply ext_trans; [exact Hx1|]; by eapply ext_trans|].
        exists (v.1 ++ [], v.2 ++ [scaleS (- (1))%Qc w]). rewrite app_nil_r at 1. split; [exact Hr|]. split.
        + replace (temporal_objects (EMinusOp a s)) with (temporal_objects a ++ []) by apply app_nil_r.
          apply (derived_app _ _ _ _ v ([], [scaleS (- (1))%Qc w])); [done|].
          apply (derived_scale _ _ (- (1))%Qc ([], [w])). by apply derived_sterm.
        + intros c GS GT. etransitivity; [apply (valueE_app c GS GT v ([], [scaleS (- (1))%Qc w]))|].
          etransitivity; [apply f_equal, (valueE_scale c GS GT (- (1))%Qc ([], [w]))|]. rewrite vneg_scale.
          by rewrite Hm, (valueE_sterm _ _ _ s w Hmw).
      - (* EScale *) cbn [single_fields eval_equation equation_wf] in *.
        destruct (IHa h Hx Hwf) as [[Ha Hok]|[Ha Hex]].
        2:{ right. split; [tauto|]. by apply bind_exit. }
        destruct Hok as (x & h1 & E1 & Hx1 & v & Hv & Hdv & Hm).
        left. split; [done|].
        destruct (scalar_times_expr_ok h1 k x v Hv) as (r & h3 & E3 & Hx3 & Hr).
        exists r, h3. rewrite (bind_eq _ _ _ _ _ E1). split; [done|].
        split; [by eapply ext_trans|].
        eexists. split; [exact Hr|]. split.
        + by apply derived_scale.
        + intros c GS GT. rewrite valueE_scale. by rewrite Hm.
    Qed.
  End text.
End heap.
