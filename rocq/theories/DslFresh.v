(** The operators of a built expression are objects of their own. *)
From Verif Require Import Base Dict Registry Par Exec Value Kernel Mesh MeshSpec Coeff FV FVSpec Sparsity SparsitySpec Assembly AssemblySpec Dsl DslSpec.

Section fresh.
  Context {V : Type} `{HT : ValueType V} {HU : ValueUnit V} {HG : ValueTag V}.
  Notation heap := (heap V).
  Definition bigger (h h' : heap) : Prop :=
    length (h_spatial h) <= length (h_spatial h') /\ length (h_temporal h) <= length (h_temporal h').
  Definition par {A} (m : M A) (h : heap) (P : A -> heap -> Prop) : Prop :=
    forall a h', m h = Ok (a, h') -> bigger h h' /\ P a h'.
  Lemma bigger_refl h : bigger h h.
  Proof. split; lia. Qed.
  Lemma bigger_trans h h' h'' : bigger h h' -> bigger h' h'' -> bigger h h''.
  Proof. unfold bigger. lia. Qed.
  Lemma par_ret {A} (a : A) h (P : A -> heap -> Prop) : P a h -> par (ret a) h P.
  Proof. intros HP a' h' E. injection E as <- <-. split; [apply bigger_refl|done]. Qed.
  Lemma par_bind {A B} (m : M A) (k : A -> M B) h (P : A -> heap -> Prop) (Q : B -> heap -> Prop) :
    par m h P -> (forall a h', bigger h h' -> P a h' -> par (k a) h' Q) -> par (bind m k) h Q.
  Proof.
    intros Hm Hk b h2 E. unfold bind in E. destruct (m h) as [[a h1]|?| |] eqn:E1; try discriminate.
    destruct (Hm a h1 E1) as [B1 HP]. destruct (Hk a h1 B1 HP b h2 E) as [B2 HQ].
    split; [by eapply bigger_trans|done].
  Qed.
  Lemma par_impl {A} (m : M A) h (P Q : A -> heap -> Prop) : par m h P -> (forall a h', bigger h h' -> P a h' -> Q a h') -> par m h Q.
  Proof. intros Hm HI a h' E. destruct (Hm a h' E). eauto. Qed.
  Lemma par_true {A} (m : M A) h P : par m h P -> par m h (fun _ _ => True).
  Proof. intros Hm. eapply par_impl; [exact Hm|done]. Qed.

  Lemma readS_par p h : par (readS p) h (fun _ h' => h' = h).
  Proof.
    intros a h' E. unfold readS in E. destruct (h_spatial h !! p); try discriminate. injection E as <- <-.
    split; [apply bigger_refl|done].
  Qed.
  Lemma readT_par p h : par (readT p) h (fun _ h' => h' = h).
  Proof.
    intros a h' E. unfold readT in E. destruct (h_temporal h !! p); try discriminate. injection E as <- <-.
    split; [apply bigger_refl|done].
  Qed.
  Lemma copyS_par p h : par (copyS p) h (fun q h' => length (h_spatial h) <= q).
  Proof.
    unfold copyS. eapply par_bind; [apply readS_par|]. intros o h1 _ ->.
    intros q h2 E. injection E as <- <-. split; [|lia]. split; simpl; [rewrite app_length; simpl; lia|lia].
  Qed.
  Lemma copyT_par p h : par (copyT p) h (fun q h' => length (h_temporal h) <= q).
  Proof.
    unfold copyT. eapply par_bind; [apply readT_par|]. intros o h1 _ ->.
    intros q h2 E. injection E as <- <-. split; [|lia]. split; simpl; [lia|rewrite app_length; simpl; lia].
  Qed.
  Lemma writeS_par p o h : par (writeS p o) h (fun _ _ => True).
  Proof. intros a h' E. injection E as <- <-. split; [|done]. split; simpl; rewrite ?insert_length; lia. Qed.
  Lemma writeT_par p o h : par (writeT p o) h (fun _ _ => True).
  Proof. intros a h' E. injection E as <- <-. split; [|done]. split; simpl; rewrite ?insert_length; lia. Qed.
  Lemma mulScalarS_par p k h : par (mulScalarS p k) h (fun _ _ => True).
  Proof. unfold mulScalarS. eapply par_bind; [apply readS_par|]. intros. apply writeS_par. Qed.
  Lemma mulScalarT_par p k h : par (mulScalarT p k) h (fun _ _ => True).
  Proof. unfold mulScalarT. eapply par_bind; [apply readT_par|]. intros. apply writeT_par. Qed.
  Lemma mulCoeffS_par p k h : par (mulCoeffS p k) h (fun _ _ => True).
  Proof.
    unfold mulCoeffS. eapply par_bind; [apply readS_par|]. intros o h1 _ _.
    destruct (coeff_mul_assign _ _); [apply writeS_par|by intros ? ? ?..].
  Qed.
  Lemma mulCoeffT_par p k h : par (mulCoeffT p k) h (fun _ _ => True).
  Proof.
    unfold mulCoeffT. eapply par_bind; [apply readT_par|]. intros o h1 _ _.
    destruct (coeff_mul_assign _ _); [apply writeT_par|by intros ? ? ?..].
  Qed.
  Lemma scalar_times_S_par k p h : par (scalar_times_S k p) h (fun _ _ => True).
  Proof.
    unfold scalar_times_S. eapply par_bind; [apply copyS_par|]. intros. eapply par_bind; [apply copyS_par|]. intros.
    eapply par_bind; [apply mulScalarS_par|]. intros. by apply par_ret.
  Qed.
  Lemma scalar_times_T_par k p h : par (scalar_times_T k p) h (fun _ _ => True).
  Proof.
    unfold scalar_times_T. eapply par_bind; [apply copyT_par|]. intros. eapply par_bind; [apply copyT_par|]. intros.
    eapply par_bind; [apply mulScalarT_par|]. intros. by apply par_ret.
  Qed.
  Lemma coeff_times_S_par k p h : par (coeff_times_S k p) h (fun _ _ => True).
  Proof.
    unfold coeff_times_S. eapply par_bind; [apply copyS_par|]. intros. eapply par_bind; [apply copyS_par|]. intros.
    eapply par_bind; [apply mulCoeffS_par|]. intros. by apply par_ret.
  Qed.
  Lemma coeff_times_T_par k p h : par (coeff_times_T k p) h (fun _ _ => True).
  Proof.
    unfold coeff_times_T. eapply par_bind; [apply copyT_par|]. intros. eapply par_bind; [apply copyT_par|]. intros.
    eapply par_bind; [apply mulCoeffT_par|]. intros. by apply par_ret.
  Qed.
  Lemma eval_sterm_par s : forall h, par (eval_sterm s) h (fun _ _ => True).
  Proof.
    induction s; intros h; simpl; [by apply par_ret|..]; (eapply par_bind; [apply IHs|]); intros.
    - apply scalar_times_S_par.
    - apply (coeff_times_S_par (coeff_field f)).
    - apply coeff_times_S_par.
  Qed.
  Lemma eval_tterm_par s : forall h, par (eval_tterm s) h (fun _ _ => True).
  Proof.
    induction s; intros h; simpl; [by apply par_ret|..]; (eapply par_bind; [apply IHs|]); intros.
    - apply scalar_times_T_par.
    - apply (coeff_times_T_par (coeff_field f)).
    - apply coeff_times_T_par.
  Qed.
  Lemma eval_term_par t h : par (eval_term t) h (fun _ _ => True).
  Proof.
    destruct t; simpl; (eapply par_bind; [apply eval_sterm_par || apply eval_tterm_par|]); intros; by apply par_ret.
  Qed.

  (** The operators of e are none of the objects of h0. *)
  Definition own (h0 : heap) (e : expression) : Prop :=
    (forall q, q ∈ ex_spatial e -> length (h_spatial h0) <= q) /\ (forall q, q ∈ ex_temporal e -> length (h_temporal h0) <= q).
  Lemma own_empty h0 : own h0 empty_expression.
  Proof. split; intros q Hq; inversion Hq. Qed.
  Lemma mapM_copyS_par h0 l : forall h, bigger h0 h -> par (mapM_ copyS l) h (fun qs _ => forall q, q ∈ qs -> length (h_spatial h0) <= q).
  Proof.
    induction l as [|p l IH]; intros h Hb; simpl; [apply par_ret; intros q Hq; inversion Hq|].
    eapply par_bind; [apply copyS_par|]. intros q h1 B1 Hq. eapply par_bind; [apply IH; by eapply bigger_trans|].
    intros qs h2 B2 Hqs. apply par_ret. intros q' Hq'. apply elem_of_cons in Hq' as [->|]; [cbn beta in *; destruct Hb; lia|auto].
  Qed.
  Lemma mapM_copyT_par h0 l : forall h, bigger h0 h -> par (mapM_ copyT l) h (fun qs _ => forall q, q ∈ qs -> length (h_temporal h0) <= q).
  Proof.
    induction l as [|p l IH]; intros h Hb; simpl; [apply par_ret; intros q Hq; inversion Hq|].
    eapply par_bind; [apply copyT_par|]. intros q h1 B1 Hq. eapply par_bind; [apply IH; by eapply bigger_trans|].
    intros qs h2 B2 Hqs. apply par_ret. intros q' Hq'. apply elem_of_cons in Hq' as [->|]; [cbn beta in *; destruct Hb; lia|auto].
  Qed.
  Lemma copyE_par h0 h e : bigger h0 h -> par (copyE e) h (fun e' _ => own h0 e').
  Proof.
    intros Hb. unfold copyE. eapply par_bind; [by apply (mapM_copyT_par h0)|]. intros ts h1 B1 Hts.
    eapply par_bind; [apply (mapM_copyS_par h0); by eapply bigger_trans|]. intros ss h2 B2 Hss.
    apply par_ret. by split.
  Qed.
  Lemma addOperatorS_par h0 h e p : bigger h0 h -> own h0 e -> par (addOperatorS e p) h (fun e' _ => own h0 e').
  Proof.
    intros Hb [H1 H2]. unfold addOperatorS. eapply par_bind; [apply copyS_par|]. intros q h1 B1 Hq. apply par_ret.
    split; simpl; [|done]. intros q' Hq'. apply elem_of_app in Hq' as [?|Hq']; [auto|].
    apply elem_of_list_singleton in Hq' as ->. cbn beta in *. destruct Hb. lia.
  Qed.
  Lemma addOperatorT_par h0 h e p : bigger h0 h -> own h0 e -> par (addOperatorT e p) h (fun e' _ => own h0 e').
  Proof.
    intros Hb [H1 H2]. unfold addOperatorT. eapply par_bind; [apply copyT_par|]. intros q h1 B1 Hq. apply par_ret.
    split; simpl; [done|]. intros q' Hq'. apply elem_of_app in Hq' as [?|Hq']; [auto|].
    apply elem_of_list_singleton in Hq' as ->. cbn beta in *. destruct Hb. lia.
  Qed.
  Lemma addOperator_par h0 h e p : bigger h0 h -> own h0 e -> par (addOperator e p) h (fun e' _ => own h0 e').
  Proof. destruct p; simpl; [apply addOperatorS_par|apply addOperatorT_par]. Qed.
  Lemma addExpression_par h0 h e e2 : bigger h0 h -> own h0 e -> par (addExpression e e2) h (fun e' _ => own h0 e').
  Proof.
    intros Hb [H1 H2]. unfold addExpression. eapply par_bind; [by apply (mapM_copyT_par h0)|]. intros ts h1 B1 Hts.
    eapply par_bind; [apply (mapM_copyS_par h0); by eapply bigger_trans|]. intros ss h2 B2 Hss.
    apply par_ret. split; simpl; intros q Hq; apply elem_of_app in Hq as [?|?]; auto.
  Qed.
  Lemma copyO_par h x : par (copyO x) h (fun _ _ => True).
  Proof. destruct x; simpl; (eapply par_bind; [apply copyS_par || apply copyT_par|]); intros; by apply par_ret. Qed.
  Lemma coeff_times_par h k x : par (coeff_times k x) h (fun _ _ => True).
  Proof. destruct x; simpl; (eapply par_bind; [apply coeff_times_S_par || apply coeff_times_T_par|]); intros; by apply par_ret. Qed.
  Lemma scaled_T_par h0 k l : forall h e, bigger h0 h -> own h0 e -> par (scaled_T k l e) h (fun e' _ => own h0 e').
  Proof.
    induction l as [|p l IH]; intros h e Hb He; simpl; [by apply par_ret|].
    eapply par_bind; [apply scalar_times_T_par|]. intros q h1 B1 _.
    assert (B01 : bigger h0 h1) by (by eapply bigger_trans).
    eapply par_bind; [by apply (addOperatorT_par h0)|]. intros e' h2 B2 He'. apply IH; [by eapply bigger_trans|done].
  Qed.
  Lemma scaled_S_par h0 k l : forall h e, bigger h0 h -> own h0 e -> par (scaled_S k l e) h (fun e' _ => own h0 e').
  Proof.
    induction l as [|p l IH]; intros h e Hb He; simpl; [by apply par_ret|].
    eapply par_bind; [apply scalar_times_S_par|]. intros q h1 B1 _.
    assert (B01 : bigger h0 h1) by (by eapply bigger_trans).
    eapply par_bind; [by apply (addOperatorS_par h0)|]. intros e' h2 B2 He'. apply IH; [by eapply bigger_trans|done].
  Qed.
  Lemma scalar_times_expr_par h0 h k e : bigger h0 h -> par (scalar_times_expr k e) h (fun e' _ => own h0 e').
  Proof.
    intros Hb. unfold scalar_times_expr. eapply par_bind; [apply (scaled_T_par h0); [done|apply own_empty]|].
    intros e1 h1 B1 He1. apply scaled_S_par; [by eapply bigger_trans|done].
  Qed.

  Lemma eval_equation_own h0 eqn : forall h, bigger h0 h ->
    par (eval_equation eqn) h (fun e _ => match eqn with EVar x => e = x | _ => own h0 e end).
  Proof.
    assert (Hany : forall eqn h, par (eval_equation eqn) h (fun e _ => match eqn with EVar x => e = x | _ => own h0 e end) ->
      par (eval_equation eqn) h (fun _ _ => True)) by (intros; by eapply par_true).
    induction eqn as [x|a b|a b|a IHa b IHb|a IHa b IHb|a IHa s|a IHa s|k a IHa]; intros h Hb; simpl.
    - by apply par_ret.
    - eapply par_bind; [apply eval_term_par|]. intros x h1 B1 _. eapply par_bind; [apply eval_term_par|]. intros y h2 B2 _.
      unfold op_plus_op. eapply par_bind; [apply copyO_par|]. intros l h3 B3 _. eapply par_bind; [apply copyO_par|]. intros r h4 B4 _.
      assert (bigger h0 h4) by (repeat (eapply bigger_trans; [eassumption|]); apply bigger_refl).
      eapply par_bind; [apply (addOperator_par h0); [done|apply own_empty]|]. intros e h5 B5 He.
      apply addOperator_par; [by eapply bigger_trans|done].
    - eapply par_bind; [apply eval_term_par|]. intros x h1 B1 _. eapply par_bind; [apply eval_term_par|]. intros y h2 B2 _.
      unfold op_minus_op. eapply par_bind; [apply copyO_par|]. intros l h3 B3 _. eapply par_bind; [apply copyO_par|]. intros r h4 B4 _.
      assert (bigger h0 h4) by (repeat (eapply bigger_trans; [eassumption|]); apply bigger_refl).
      eapply par_bind; [apply (addOperator_par h0); [done|apply own_empty]|]. intros e h5 B5 He.
      eapply par_bind; [apply coeff_times_par|]. intros r' h6 B6 _.
      apply addOperator_par; [by repeat (eapply bigger_trans; [eassumption|])|done].
    - eapply par_bind; [eapply Hany, IHa; done|]. intros x h1 B1 _.
      eapply par_bind; [eapply Hany, IHb; by eapply bigger_trans|]. intros y h2 B2 _.
      assert (bigger h0 h2) by (repeat (eapply bigger_trans; [eassumption|]); apply bigger_refl).
      unfold expr_plus. eapply par_bind; [by apply (copyE_par h0)|]. intros l h3 B3 Hl.
      apply addExpression_par; [by eapply bigger_trans|done].
    - eapply par_bind; [eapply Hany, IHa; done|]. intros x h1 B1 _.
      eapply par_bind; [eapply Hany, IHb; by eapply bigger_trans|]. intros y h2 B2 _.
      assert (bigger h0 h2) by (repeat (eapply bigger_trans; [eassumption|]); apply bigger_refl).
      unfold expr_minus. eapply par_bind; [by apply (copyE_par h0)|]. intros l h3 B3 Hl.
      assert (bigger h0 h3) by (by eapply bigger_trans).
      eapply par_bind; [by apply (scalar_times_expr_par h0)|]. intros r h4 B4 _.
      apply addExpression_par; [by eapply bigger_trans|done].
    - eapply par_bind; [eapply Hany, IHa; done|]. intros x h1 B1 _.
      eapply par_bind; [apply eval_sterm_par|]. intros y h2 B2 _.
      assert (bigger h0 h2) by (repeat (eapply bigger_trans; [eassumption|]); apply bigger_refl).
      unfold expr_plus_op. eapply par_bind; [by apply (copyE_par h0)|]. intros l h3 B3 Hl.
      apply addOperatorS_par; [by eapply bigger_trans|done].
    - eapply par_bind; [eapply Hany, IHa; done|]. intros x h1 B1 _.
      eapply par_bind; [apply eval_sterm_par|]. intros y h2 B2 _.
      assert (bigger h0 h2) by (repeat (eapply bigger_trans; [eassumption|]); apply bigger_refl).
      unfold expr_minus_op. eapply par_bind; [by apply (copyE_par h0)|]. intros l h3 B3 Hl.
      eapply par_bind; [apply scalar_times_S_par|]. intros r h4 B4 _.
      apply addOperatorS_par; [by repeat (eapply bigger_trans; [eassumption|])|done].
    - eapply par_bind; [eapply Hany, IHa; done|]. intros x h1 B1 _.
      apply scalar_times_expr_par. by eapply bigger_trans.
  Qed.
End fresh.
