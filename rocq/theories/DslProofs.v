(** Evaluating and assembling expressions. *)
From Verif Require Import Base Dict Registry Par Exec Value Kernel KernelProofs Mesh MeshSpec Coeff FV FVSpec FVProofs Sparsity SparsitySpec Assembly AssemblySpec AssemblyProofs Dsl DslSpec DslHeapProofs.

Lemma surely_rseq {A B} (p : outcome A -> Prop) (k : A -> outcome B -> Prop) a b :
  surely p a -> surely (k a) b -> surely (rseq p k) b.
Proof.
  intros Hp Hk r. unfold rseq. split.
  - intros [(a' & Ha & Hr)|[(x & Hx & _)|[[Hx _]|[Hx _]]]]; apply Hp in Ha || apply Hp in Hx; try discriminate.
    injection Ha as ->. by apply Hk.
  - intros ->. left. exists a. split; [by apply Hp|by apply Hk].
Qed.
Lemma surely_lift {A} (p : option A -> Prop) a : always p a -> surely (lift p) a.
Proof.
  intros Hp r. unfold lift. split.
  - intros (o & Ho & ->). apply Hp in Ho as ->. done.
  - intros ->. exists (Some a). split; [by apply Hp|done].
Qed.
Lemma surely_ret {A} (a : A) : surely (fun r => r = Ok a) a.
Proof. done. Qed.
Lemma surely_iff {A} (p q : outcome A -> Prop) a : (forall r, p r <-> q r) -> surely p a -> surely q a.
Proof. intros E Hp r. rewrite <- E. apply Hp. Qed.

Section run.
  Context {V : Type} `{HT : ValueType V} {HL : ValueLaws V} {HU : ValueUnit V} {HUL : UnitLaws V} {HG : ValueTag V}.
  Notation spatialOp := (spatialOp V).
  Notation heap := (heap V).

  (** ** adds *)
  Lemma adds_ext n (op op' : list V -> outcome (list V) -> Prop) (g g' : nat -> V) :
    (forall s r, op s r <-> op' s r) -> (forall c, c < n -> g c = g' c) -> adds n op g -> adds n op' g'.
  Proof.
    intros E Eg Ha s Hs. apply (surely_iff (op s)); [apply E|].
    rewrite (map_ext_in _ (fun c => vadd (atV s c) (g c))); [by apply Ha|].
    intros c Hc. apply in_seq in Hc. by rewrite Eg by lia.
  Qed.
  Lemma adds_nothing n : adds n (fun s r => r = Ok s) (fun _ => vzero : V).
  Proof.
    intros s Hs. assert (map (fun c => vadd (atV s c) vzero) (seq 0 n) = s) as ->; [|done].
    rewrite (map_ext _ (atV s)) by (intros; apply vadd_0_r).
    apply list_eq. intros i. destruct (decide (i < n)) as [Hi|Hi].
    - rewrite (list_lookup_fmap _ (seq 0 n) i), lookup_seq_lt by lia. simpl.
      unfold atV. destruct (lookup_lt_is_Some_2 s i) as [y Hy]; [lia|]. by rewrite Hy.
    - rewrite !lookup_ge_None_2; [done|lia|]. rewrite map_length, seq_length. lia.
  Qed.
  Lemma adds_seq n (op1 op2 : list V -> outcome (list V) -> Prop) g1 g2 :
    adds n op1 g1 -> adds n op2 g2 -> adds n (fun s => rseq (op1 s) op2) (fun c => vadd (g1 c) (g2 c)).
  Proof.
    intros H1 H2 s Hs. eapply surely_rseq; [by apply H1|].
    assert (Hl : length (map (fun c => vadd (atV s c) (g1 c)) (seq 0 n)) = n) by (by rewrite map_length, seq_length).
    specialize (H2 _ Hl).
    set (s1 := map (fun c => vadd (atV s c) (g1 c)) (seq 0 n)) in *.
    assert (map (fun c => vadd (atV s c) (vadd (g1 c) (g2 c))) (seq 0 n) = map (fun c => vadd (atV s1 c) (g2 c)) (seq 0 n)) as ->; [|done].
    apply map_ext_in. intros c Hc. apply in_seq in Hc. unfold atV at 2, s1.
    rewrite (list_lookup_fmap _ (seq 0 n) c), lookup_seq_lt by lia. simpl. by rewrite vadd_assoc.
  Qed.

  (** ** The explicit operators of an expression *)
  Lemma run_explicit_adds (cx : ctx V) h (G : spatialKind V -> nat -> V) l : forall os,
    Forall2 (isS h) l os ->
    (forall o, o ∈ os -> so_type o = Explicit -> explicit_meaning cx (so_kind o) (G (so_kind o)) /\ coeff_ok (so_coeff o) (nCells (cx_mesh cx))) ->
    adds (nCells (cx_mesh cx)) (run_explicit cx h l)
      (fun c => vsum (map (fun o => valueS c (fun k t => match t with Explicit => G k c | Implicit => vzero end) o) os)).
  Proof.
    induction l as [|p l IH]; intros os HF Hm.
    - apply Forall2_nil_inv_l in HF as ->. simpl. apply adds_nothing.
    - apply Forall2_cons_inv_l in HF as (o & os' & Ho & HF & ->).
      assert (IH' : adds (nCells (cx_mesh cx)) (run_explicit cx h l)
        (fun c => vsum (map (fun o => valueS c (fun k t => match t with Explicit => G k c | Implicit => vzero end) o) os'))).
      { apply IH; [done|]. intros o' Ho'. apply Hm. by right. }
      unfold isS in Ho. destruct (so_type o) eqn:Et.
      + eapply adds_ext; [| |exact IH'].
        * intros s r. simpl. rewrite Ho. rewrite decide_False by congruence. done.
        * intros c Hc. simpl. unfold valueS at 2. rewrite Et, vscale_0_r, vadd_0_l. done.
      + destruct (Hm o ltac:(by left) Et) as [Hmean Hco].
        eapply adds_ext; [| |exact (adds_seq _ _ _ _ _ (Hmean _ Hco) IH')].
        * intros s r. simpl. rewrite Ho. rewrite decide_True by congruence. done.
        * intros c Hc. simpl. f_equal. unfold valueS. by rewrite Et.
  Qed.

  (** ** contributes *)
  Lemma contributes_ext m p (op op' : list (list V) -> outcome (list (list V)) -> Prop) (g g' : list V -> nat -> V) :
    (forall s r, op s r <-> op' s r) -> (forall x c, c < nCells m -> g x c = g' x c) -> contributes m p op g -> contributes m p op' g'.
  Proof.
    intros E Eg Ha v r Hs. destruct (Ha v r Hs) as (v' & r' & H1 & H2 & H3). exists v', r'.
    split; [by apply (surely_iff (op [v; r]))|]. split; [done|]. intros x c Hc. by rewrite H3, Eg.
  Qed.
  Lemma contributes_nothing m p : contributes m p (fun s r => r = Ok s) (fun _ _ => vzero : V).
  Proof. intros v r Hs. exists v, r. split; [done|]. split; [done|]. intros. by rewrite vadd_0_r. Qed.
  Lemma contributes_seq m p (op1 op2 : list (list V) -> outcome (list (list V)) -> Prop) g1 g2 :
    contributes m p op1 g1 -> contributes m p op2 g2 ->
    contributes m p (fun s => rseq (op1 s) op2) (fun x c => vadd (g1 x c) (g2 x c)).
  Proof.
    intros H1 H2 v r Hs. destruct (H1 v r Hs) as (v1 & r1 & A1 & A2 & A3).
    destruct (H2 v1 r1 A2) as (v2 & r2 & B1 & B2 & B3). exists v2, r2.
    split; [by eapply surely_rseq|]. split; [done|]. intros x c Hc. rewrite B3, A3 by done. by rewrite vadd_assoc.
  Qed.
  Lemma run_implicit_contributes (cx : ctx V) h (G : spatialKind V -> list V -> nat -> V) l : forall os,
    Forall2 (isS h) l os ->
    (forall o, o ∈ os -> so_type o = Implicit -> implicit_meaning cx (so_kind o) (G (so_kind o)) /\ coeff_ok (so_coeff o) (nCells (cx_mesh cx))) ->
    contributes (cx_mesh cx) (cx_pattern cx) (run_implicit cx h (sp_rowPtrs (cx_pattern cx)) l)
      (fun x c => vsum (map (fun o => valueS c (fun k t => match t with Implicit => G k x c | Explicit => vzero end) o) os)).
  Proof.
    induction l as [|p l IH]; intros os HF Hm.
    - apply Forall2_nil_inv_l in HF as ->. simpl. apply contributes_nothing.
    - apply Forall2_cons_inv_l in HF as (o & os' & Ho & HF & ->).
      assert (IH' : contributes (cx_mesh cx) (cx_pattern cx) (run_implicit cx h (sp_rowPtrs (cx_pattern cx)) l)
        (fun x c => vsum (map (fun o => valueS c (fun k t => match t with Implicit => G k x c | Explicit => vzero end) o) os'))).
      { apply IH; [done|]. intros o' Ho'. apply Hm. by right. }
      unfold isS in Ho. destruct (so_type o) eqn:Et.
      + destruct (Hm o ltac:(by left) Et) as [Hmean Hco].
        eapply contributes_ext; [| |exact (contributes_seq _ _ _ _ _ _ (Hmean _ Hco) IH')].
        * intros s r. simpl. rewrite Ho. rewrite decide_True by congruence. done.
        * intros x c Hc. simpl. f_equal. unfold valueS. by rewrite Et.
      + eapply contributes_ext; [| |exact IH'].
        * intros s r. simpl. rewrite Ho. rewrite decide_False by congruence. done.
        * intros x c Hc. simpl. unfold valueS at 2. rewrite Et, vscale_0_r, vadd_0_l. done.
  Qed.
  Lemma run_implicit_T_contributes (cx : ctx V) dt h (G : nat -> list V -> nat -> V) l : forall os,
    Forall2 (isT h) l os ->
    (forall o, o ∈ os -> to_type o = Implicit -> implicit_meaning_T cx dt (to_phi o) (G (to_phi o)) /\ coeff_ok (to_coeff o) (nCells (cx_mesh cx))) ->
    contributes (cx_mesh cx) (cx_pattern cx) (run_implicit_T cx h (sp_rowPtrs (cx_pattern cx)) dt l)
      (fun x c => vsum (map (fun o => valueT c (fun k t => match t with Implicit => G k x c | Explicit => vzero end) o) os)).
  Proof.
    induction l as [|p l IH]; intros os HF Hm.
    - apply Forall2_nil_inv_l in HF as ->. simpl. apply contributes_nothing.
    - apply Forall2_cons_inv_l in HF as (o & os' & Ho & HF & ->).
      assert (IH' : contributes (cx_mesh cx) (cx_pattern cx) (run_implicit_T cx h (sp_rowPtrs (cx_pattern cx)) dt l)
        (fun x c => vsum (map (fun o => valueT c (fun k t => match t with Implicit => G k x c | Explicit => vzero end) o) os'))).
      { apply IH; [done|]. intros o' Ho'. apply Hm. by right. }
      unfold isT in Ho. destruct (to_type o) eqn:Et.
      + destruct (Hm o ltac:(by left) Et) as [Hmean Hco].
        eapply contributes_ext; [| |exact (contributes_seq _ _ _ _ _ _ (Hmean _ Hco) IH')].
        * intros s r. simpl. rewrite Ho. rewrite decide_True by congruence. done.
        * intros x c Hc. simpl. f_equal. unfold valueT. by rewrite Et.
      + eapply contributes_ext; [| |exact IH'].
        * intros s r. simpl. rewrite Ho. rewrite decide_False by congruence. done.
        * intros x c Hc. simpl. unfold valueT at 2. rewrite Et, vscale_0_r, vadd_0_l. done.
  Qed.

  (** ** Values of objects *)
  Lemma sterm_value_ext (v v' : nat -> V) c s : v (sterm_object s) = v' (sterm_object s) -> sterm_value v c s = sterm_value v' c s.
  Proof. induction s; simpl; intros E; [done|..]; by rewrite IHs. Qed.
  Lemma objval_object h GE GI c p :
    objvalS c (fun k t => match t with Explicit => GE k | Implicit => GI k end) h p = object_value h GE GI c p.
  Proof. unfold objvalS, object_value. destruct (h_spatial h !! p) as [o|]; [|done]. unfold valueS. by destruct (so_type o). Qed.
  Lemma objval_object_T h GE GI c p :
    objvalT c (fun k t => match t with Explicit => GE k | Implicit => GI k end) h p = object_value_T h GE GI c p.
  Proof. unfold objvalT, object_value_T. destruct (h_temporal h !! p) as [o|]; [|done]. unfold valueT. by destruct (to_type o). Qed.
  Lemma sterm_value_fext (v v' : nat -> V) c s : (forall p, v p = v' p) -> sterm_value v c s = sterm_value v' c s.
  Proof. intros E. induction s; simpl; [apply E|..]; by rewrite IHs. Qed.
  Lemma tterm_value_fext (v v' : nat -> V) c s : (forall p, v p = v' p) -> tterm_value v c s = tterm_value v' c s.
  Proof. intros E. induction s; simpl; [apply E|..]; by rewrite IHs. Qed.
  Lemma equation_value_fext (v v' w w' : nat -> V) c e : (forall p, v p = v' p) -> (forall p, w p = w' p) ->
    equation_value v w c e = equation_value v' w' c e.
  Proof.
    intros Ev Ew. assert (Et : forall t, term_value v w c t = term_value v' w' c t).
    { intros [s|s]; simpl; [by apply sterm_value_fext|by apply tterm_value_fext]. }
    induction e; simpl; rewrite ?Et, ?IHe, ?IHe1, ?IHe2, ?(sterm_value_fext v v' c s Ev); try done.
    by rewrite (map_ext _ _ Ev), (map_ext _ _ Ew).
  Qed.
  Lemma objvalT_zero c h p : objvalT c (fun _ _ => vzero : V) h p = vzero.
  Proof. unfold objvalT. destruct (h_temporal h !! p); [|done]. unfold valueT. apply vscale_0_r. Qed.
  Lemma objvalS_zero c h p : objvalS c (fun _ _ => vzero : V) h p = vzero.
  Proof. unfold objvalS. destruct (h_spatial h !! p); [|done]. unfold valueS. apply vscale_0_r. Qed.
  Lemma valueT_zero c (l : list temporalOp) : vsum (map (valueT c (fun _ _ => vzero : V)) l) = vzero.
  Proof. apply vsum_map_zero. intros o _. unfold valueT. apply vscale_0_r. Qed.
  Lemma valueS_zero c (l : list spatialOp) : vsum (map (valueS c (fun _ _ => vzero : V)) l) = vzero.
  Proof. apply vsum_map_zero. intros o _. unfold valueS. apply vscale_0_r. Qed.

  Lemma derivedS_leaves (h0 : heap) n l (os : list spatialOp) : Forall2 (derivedS n h0) l os -> forall o, o ∈ os ->
    exists p o0, p ∈ l /\ h_spatial h0 !! p = Some o0 /\ so_kind o = so_kind o0 /\ so_type o = so_type o0 /\ coeff_ok (so_coeff o) n.
  Proof.
    induction 1 as [|p o l os (o0 & E & H1 & H2 & H3) HF IH]; intros o' Ho'; [inversion Ho'|].
    apply elem_of_cons in Ho' as [->|Ho'].
    - exists p, o0. split; [by left|]. done.
    - destruct (IH o' Ho') as (p' & o0' & Hp & Hr). exists p', o0'. split; [by right|done].
  Qed.
  Lemma derivedT_leaves (h0 : heap) n l (os : list temporalOp) : Forall2 (derivedT n h0) l os -> forall o, o ∈ os ->
    exists p o0, p ∈ l /\ h_temporal h0 !! p = Some o0 /\ to_phi o = to_phi o0 /\ to_type o = to_type o0 /\ coeff_ok (to_coeff o) n.
  Proof.
    induction 1 as [|p o l os (o0 & E & H1 & H2 & H3) HF IH]; intros o' Ho'; [inversion Ho'|].
    apply elem_of_cons in Ho' as [->|Ho'].
    - exists p, o0. split; [by left|]. done.
    - destruct (IH o' Ho') as (p' & o0' & Hp & Hr). exists p', o0'. split; [by right|done].
  Qed.

  (** ** From the text of the equation to its evaluation *)
  Context (cx : ctx V) (h0 : heap) (eqn : equation).
  Notation m := (cx_mesh cx).
  Context (Hwf : equation_wf h0 (nCells m) eqn) (Hsf : single_fields h0 eqn).

  Lemma built : exists e h1, eval_equation eqn h0 = Ok (e, h1) /\ preserved h0 h1 /\
    (forall G, explicit_leaves cx h0 G eqn ->
      adds (nCells m) (explicitOperation cx h1 e)
        (fun c => equation_value (object_value h0 (fun k => G k c) (fun _ => vzero) c) (fun _ => vzero) c eqn)) /\
    (forall G, implicit_leaves cx h0 G eqn ->
      contributes m (cx_pattern cx) (implicitOperation cx h1 (sp_rowPtrs (cx_pattern cx)) e)
        (fun x c => equation_value (object_value h0 (fun _ => vzero) (fun k => G k x c) c) (fun _ => vzero) c eqn)) /\
    (forall dt G, implicit_leaves_T cx dt h0 G eqn ->
      contributes m (cx_pattern cx) (implicitOperation_dt cx h1 (sp_rowPtrs (cx_pattern cx)) e dt)
        (fun x c => equation_value (fun _ => vzero) (object_value_T h0 (fun _ => vzero) (fun k => G k x c) c) c eqn)) /\
    ((forall p o, p ∈ temporal_objects eqn -> h_temporal h0 !! p = Some o -> to_type o = Implicit) ->
      forall dt, adds (nCells m) (explicitOperation_dt cx h1 e dt) (fun _ => vzero)).
  Proof.
    destruct (eval_equation_spec (nCells m) h0 eqn h0 (ext_refl h0) Hwf) as [[_ Hok]|[Hn _]]; [|done].
    destruct Hok as (e & h1 & E & Hx & [ts ss] & [Ht Hs] & [Hdt Hds] & Hval). simpl in *.
    exists e, h1. split; [done|]. split; [by apply ext_preserved|]. split; [|split; [|split]].
    - intros G HGl. eapply adds_ext; [by intros| |apply (run_explicit_adds cx h1 G _ ss Hs)].
      + intros c Hc. specialize (Hval c (fun k t => match t with Explicit => G k c | Implicit => vzero end) (fun _ _ => vzero)).
        unfold valueE in Hval. simpl in Hval. rewrite valueT_zero, vadd_0_l in Hval. etransitivity; [exact Hval|].
        apply equation_value_fext; intros p; [apply (objval_object h0 (fun k => G k c) (fun _ => vzero))|apply objvalT_zero].
      + intros o Ho Et. destruct (derivedS_leaves _ _ _ _ Hds o Ho) as (p & o0 & Hp & E0 & Ek & Ety & Hco).
        split; [|done]. rewrite Ek. apply (HGl p o0); [done|done|congruence].
    - intros G HGl. eapply contributes_ext; [by intros| |apply (run_implicit_contributes cx h1 G _ ss Hs)].
      + intros x c Hc. specialize (Hval c (fun k t => match t with Explicit => vzero | Implicit => G k x c end) (fun _ _ => vzero)).
        unfold valueE in Hval. simpl in Hval. rewrite valueT_zero, vadd_0_l in Hval. etransitivity; [exact Hval|].
        apply equation_value_fext; intros p; [apply (objval_object h0 (fun _ => vzero) (fun k => G k x c))|apply objvalT_zero].
      + intros o Ho Et. destruct (derivedS_leaves _ _ _ _ Hds o Ho) as (p & o0 & Hp & E0 & Ek & Ety & Hco).
        split; [|done]. rewrite Ek. apply (HGl p o0); [done|done|congruence].
    - intros dt G HGl. eapply contributes_ext; [by intros| |apply (run_implicit_T_contributes cx dt h1 G _ ts Ht)].
      + intros x c Hc. specialize (Hval c (fun _ _ => vzero) (fun k t => match t with Explicit => vzero | Implicit => G k x c end)).
        unfold valueE in Hval. simpl in Hval. rewrite valueS_zero, vadd_0_r in Hval. etransitivity; [exact Hval|].
        apply equation_value_fext; intros p; [apply objvalS_zero|apply (objval_object_T h0 (fun _ => vzero) (fun k => G k x c))].
      + intros o Ho Et. destruct (derivedT_leaves _ _ _ _ Hdt o Ho) as (p & o0 & Hp & E0 & Ek & Ety & Hco).
        split; [|done]. rewrite Ek. apply (HGl p o0); [done|done|congruence].
    - intros Himp dt.
      assert (Hall : forall o, o ∈ ts -> to_type o = Implicit).
      { intros o Ho. destruct (derivedT_leaves _ _ _ _ Hdt o Ho) as (p & o0 & Hp & E0 & Ek & Ety & Hco).
        rewrite Ety. by apply (Himp p). }
      unfold explicitOperation_dt. clear -Ht Hall HL. revert ts Ht Hall. generalize (ex_temporal e).
      induction l as [|p l IH]; intros ts Ht Hall.
      + apply adds_nothing.
      + apply Forall2_cons_inv_l in Ht as (o & os' & Ho & HF & ->).
        eapply adds_ext; [|by intros|apply (IH os' HF); intros o' Ho'; apply Hall; by right].
        intros s r. simpl. unfold isT in Ho. rewrite Ho.
        rewrite decide_False; [done|]. rewrite (Hall o) by (by left). done.
  Qed.
End run.
