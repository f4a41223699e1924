From Verif Require Import Base Par ParProofs Exec ExecProofs Fields.

Lemma exec_eqb_eq a b : exec_eqb a b = true <-> a = b.
Proof. destruct a, b; simpl; split; intros H; done. Qed.
Lemma exec_eqb_refl a : exec_eqb a a = true.
Proof. by destruct a. Qed.
Lemma same_space_refl a : same_space a a = true.
Proof. by destruct a. Qed.

(** The kernel of an element-wise binary operation. *)
Lemma binop_kernel {V} (a b : field V) op a' o :
  fsize a = fsize b -> same_space (fexec a) (fexec b) = true ->
  fieldBinaryOp a b op a' o ->
  o = Ok tt /\ fexec a' = fexec a /\ fsize a' = fsize a /\
  forall i x y, fdata a !! i = Some x -> fdata b !! i = Some y -> fdata a' !! i = Some (op x y).
Proof.
  intros Hs Hm H. unfold fieldBinaryOp in H. rewrite Hs, Nat.eqb_refl, Hm in H.
  destruct H as (r & Hr & Ho).
  apply rmw_exec in Hr as (s' & -> & Hl & Hp); [|lia|unfold fsize in *; lia|].
  - destruct Ho as [-> ->]. simpl. repeat split; auto.
    intros i x y Hx Hy. rewrite Hp.
    rewrite decide_True by (apply lookup_lt_Some in Hy; unfold fsize; lia).
    rewrite Hx. simpl. by rewrite Hy.
  - intros i v _ Hi.
    destruct (lookup_lt_is_Some_2 (fdata b) i) as [w ->]; [unfold fsize in *; lia|]. eauto.
Qed.

Lemma binop_exists {V} dbg (op : V -> V -> V) (a b : field V) :
  fsize a = fsize b -> fexec a = fexec b -> exists a', checked_binop dbg op a b a' (Ok tt).
Proof.
  intros Hs He. unfold checked_binop.
  assert (validateOtherField dbg a b = true) as ->.
  { unfold validateOtherField. rewrite Hs, Nat.eqb_refl, He, exec_eqb_refl.
    by destruct dbg. }
  unfold fieldBinaryOp. rewrite Hs, Nat.eqb_refl, He, same_space_refl.
  unfold kernel_on. rewrite He.
  match goal with |- context [iterations _ _ (rmw_kernel ?f)] =>
    destruct (rmw_exec_exists f (fexec b) 0 (fsize b) (fdata a)) as [s' H] end.
  - lia.
  - unfold fsize in *; lia.
  - intros i v _ Hi.
    destruct (lookup_lt_is_Some_2 (fdata b) i) as [w ->]; [unfold fsize in *; lia|]. eauto.
  - exists (mkField (fexec b) s'). exists (Some s'). eauto.
Qed.

Lemma checked_binop_ok {V} dbg (op : V -> V -> V) (a b a' : field V) o :
  fsize a = fsize b -> fexec a = fexec b -> checked_binop dbg op a b a' o ->
  o = Ok tt /\ fexec a' = fexec a /\ fsize a' = fsize a /\
  forall i x y, fdata a !! i = Some x -> fdata b !! i = Some y -> fdata a' !! i = Some (op x y).
Proof.
  intros Hs He H. unfold checked_binop in H.
  assert (validateOtherField dbg a b = true) as Hv.
  { unfold validateOtherField. rewrite Hs, Nat.eqb_refl, He, exec_eqb_refl. by destruct dbg. }
  rewrite Hv in H. apply binop_kernel; auto. by rewrite He, same_space_refl.
Qed.

Lemma checked_binop_mismatch {V} dbg (op : V -> V -> V) (a b a' : field V) o :
  fsize a <> fsize b -> checked_binop dbg op a b a' o ->
  a' = a /\ o = if dbg then Exit else Throw DimensionMismatch.
Proof.
  intros Hs H. unfold checked_binop, validateOtherField, fieldBinaryOp in H.
  apply Nat.eqb_neq in Hs. rewrite Hs in H. by destruct dbg.
Qed.

Lemma binop_self_ok {V} (op : V -> V -> V) (a a' : field V) o :
  fieldBinaryOp_self a op a' o ->
  o = Ok tt /\ fexec a' = fexec a /\ fsize a' = fsize a /\
  forall i x, fdata a !! i = Some x -> fdata a' !! i = Some (op x x).
Proof.
  intros (r & Hr & Ho).
  apply rmw_exec in Hr as (s' & -> & Hl & Hp); [|lia|unfold fsize; lia|eauto].
  destruct Ho as [-> ->]. simpl. repeat split; auto.
  intros i x Hx. rewrite Hp.
  rewrite decide_True by (apply lookup_lt_Some in Hx; unfold fsize; lia).
  by rewrite Hx.
Qed.

Lemma scalarMul_ok (a a' : field Qc) s o :
  scalarMul a s a' o ->
  o = Ok tt /\ fexec a' = fexec a /\ fsize a' = fsize a /\
  forall i x, fdata a !! i = Some x -> fdata a' !! i = Some (x * s)%Qc.
Proof.
  intros (r & Hr & Ho).
  apply rmw_exec in Hr as (s' & -> & Hl & Hp); [|lia|unfold fsize; lia|eauto].
  destruct Ho as [-> ->]. simpl. repeat split; auto.
  intros i x Hx. rewrite Hp.
  rewrite decide_True by (apply lookup_lt_Some in Hx; unfold fsize; lia).
  by rewrite Hx.
Qed.

(** Range-restricted writes. *)
Lemma set_range {V} (a : field V) f start stop a' o :
  start <= stop -> stop <= fsize a ->
  (forall i, start <= i -> i < stop -> is_Some (f i)) ->
  kernel_on a (iterations start stop (set_kernel f)) a' o ->
  o = Ok tt /\ fexec a' = fexec a /\ fsize a' = fsize a /\
  forall i, fdata a' !! i = if decide (start <= i < stop) then f i else fdata a !! i.
Proof.
  intros H1 H2 Hf (r & Hr & Ho).
  apply set_exec in Hr as (s' & -> & Hl & Hp); [|lia|unfold fsize in *; lia|auto].
  destruct Ho as [-> ->]. simpl. repeat split; auto.
Qed.

Lemma eff_end_pos e n : 0 < e -> eff_end e n = e.
Proof. unfold eff_end. destruct (Nat.eqb_spec e 0); lia. Qed.

Lemma fill_default {V} (a : field V) v a' o :
  fill a v default_range a' o ->
  o = Ok tt /\ a' = mkField (fexec a) (replicate (fsize a) v).
Proof.
  intros H. change (kernel_on a (iterations 0 (fsize a) (set_kernel (fun _ => Some v))) a' o) in H.
  apply set_range in H as (-> & He & Hs & Hp); [|lia|lia|eauto].
  split; [done|]. destruct a' as [e' d']. simpl in *. subst e'. f_equal.
  apply list_eq. intros i. rewrite Hp.
  destruct (decide (0 <= i < fsize a)).
  - by rewrite lookup_replicate_2 by lia.
  - rewrite (lookup_ge_None_2 (replicate _ _)) by (rewrite replicate_length; lia).
    apply lookup_ge_None_2. unfold fsize in *. lia.
Qed.

Lemma setField_default {V} (a : field V) b a' o :
  fsize a = length b ->
  setField a b default_range a' o -> o = Ok tt /\ a' = mkField (fexec a) b.
Proof.
  intros Hl H.
  change (kernel_on a (iterations 0 (fsize a) (set_kernel (fun i => b !! i))) a' o) in H.
  apply set_range in H as (-> & He & Hs & Hp); [|lia|lia|].
  - split; [done|]. destruct a' as [e' d']. simpl in *. subst e'. f_equal.
    apply list_eq. intros i. rewrite Hp.
    destruct (decide (0 <= i < fsize a)); [done|].
    rewrite !lookup_ge_None_2; [done| |]; unfold fsize in *; lia.
  - intros i _ Hi. apply lookup_lt_is_Some_2. lia.
Qed.

Lemma assign_field_ok {V} (a rhs a' : field V) o :
  fexec a = fexec rhs -> assign_field a rhs a' o -> o = Ok tt /\ a' = rhs.
Proof.
  intros He H. unfold assign_field in H. rewrite He, exec_eqb_refl in H.
  destruct (Nat.eqb_spec (fsize a) (fsize rhs)).
  - apply setField_default in H as [-> ->]; [|done]. rewrite He. by destruct rhs.
  - destruct H as (a1 & (He1 & Hs1 & _) & H).
    apply setField_default in H as [-> ->]; [|done]. rewrite He1, He. by destruct rhs.
Qed.

Lemma assign_field_exec {V} (a rhs a' : field V) o :
  fexec a <> fexec rhs -> assign_field a rhs a' o -> o = Exit /\ a' = a.
Proof.
  intros He H. unfold assign_field in H.
  destruct (exec_eqb (fexec a) (fexec rhs)) eqn:E; [by apply exec_eqb_eq in E|].
  by destruct H.
Qed.

Lemma set_kernel_exists {V} (a : field V) f start stop :
  start <= stop -> stop <= fsize a ->
  (forall i, start <= i -> i < stop -> is_Some (f i)) ->
  exists a', kernel_on a (iterations start stop (set_kernel f)) a' (Ok tt).
Proof.
  intros H1 H2 Hf. destruct (set_exec_exists f (fexec a) start stop (fdata a)) as [s' H]; auto.
  exists (mkField (fexec a) s'). exists (Some s'). auto.
Qed.

Lemma mult_ok dbg (a b c : field Qc) o :
  fsize a = fsize b -> fexec a = fexec b -> mult dbg a b c o ->
  o = Ok tt /\ fexec c = fexec a /\ fsize c = fsize a /\
  forall i x y, fdata a !! i = Some x -> fdata b !! i = Some y -> fdata c !! i = Some (x * y)%Qc.
Proof.
  intros Hs He H. unfold mult in H.
  assert (validateOtherField dbg a b = true) as Hv.
  { unfold validateOtherField. rewrite Hs, Nat.eqb_refl, He, exec_eqb_refl. by destruct dbg. }
  rewrite Hv in H. destruct H as (r0 & r1 & o1 & [He0 Hs0] & Ha & H).
  apply assign_field_ok in Ha as [-> ->]; [|done].
  apply binop_kernel in H; auto. by rewrite He, same_space_refl.
Qed.

Lemma scale_ok (a c : field Qc) s o :
  scale a s c o ->
  o = Ok tt /\ fexec c = fexec a /\ fsize c = fsize a /\
  forall i x, fdata a !! i = Some x -> fdata c !! i = Some (x * s)%Qc.
Proof.
  intros (r0 & r1 & o1 & [He0 Hs0] & Ha & H).
  apply assign_field_ok in Ha as [-> ->]; [|done].
  by apply scalarMul_ok.
Qed.

Lemma resize_prefix {V} (a a' : field V) n :
  resize a n a' -> fsize a' = n /\ fexec a' = fexec a /\
  forall i, i < n -> i < fsize a -> fdata a' !! i = fdata a !! i.
Proof.
  intros (He & Hs & Hp). repeat split; auto. intros i H1 H2.
  destruct Hp as [Hp|Hp]; [unfold fsize in H2; rewrite Hp in H2; simpl in H2; lia|].
  rewrite <- (lookup_take (fdata a') (Nat.min n (fsize a)) i) by lia.
  rewrite Hp. by rewrite lookup_take by lia.
Qed.

Lemma all_equal_spec l v : all_equal l v = true <-> forall i x, l !! i = Some x -> x = v.
Proof.
  induction l as [|x l IH]; simpl.
  - split; intros; done.
  - destruct (Qc_eq_dec x v) as [->|Hne].
    + rewrite IH. split.
      * intros H [|i] y Hy; simpl in Hy; [congruence|eauto].
      * intros H i y Hy. apply (H (S i) y Hy).
    + split; [done|]. intros H. destruct Hne. by apply (H 0).
Qed.

Lemma equal_loop_spec l1 l2 n : forall i,
  i + n <= length l1 -> i + n <= length l2 ->
  equal_loop l1 l2 n i = true <-> forall j, i <= j -> j < i + n -> l1 !! j = l2 !! j.
Proof.
  induction n as [|n IH]; intros i H1 H2; simpl.
  - split; [intros _ j; lia|done].
  - destruct (lookup_lt_is_Some_2 l1 i) as [x Hx]; [lia|].
    destruct (lookup_lt_is_Some_2 l2 i) as [y Hy]; [lia|].
    rewrite Hx, Hy. destruct (Qc_eq_dec x y) as [->|Hne].
    + rewrite IH by lia. split.
      * intros H j Hj1 Hj2. destruct (decide (j = i)) as [->|]; [congruence|].
        apply H; lia.
      * intros H j Hj1 Hj2. apply H; lia.
    + split; [done|]. intros H. destruct Hne. specialize (H i ltac:(lia) ltac:(lia)). congruence.
Qed.

Lemma copyToExecutor_data {V} (a : field V) e :
  fdata (copyToExecutor a e) = fdata a /\ fexec (copyToExecutor a e) = e.
Proof.
  unfold copyToExecutor. destruct (exec_eqb e (fexec a)) eqn:E; [|done].
  apply exec_eqb_eq in E. by subst.
Qed.

Lemma equal_field_spec (a b : field Qc) : equal_field a b = true <-> fdata a = fdata b.
Proof.
  unfold equal_field, copyToHost. rewrite !(proj1 (copyToExecutor_data _ _)).
  destruct (Nat.eqb_spec (length (fdata a)) (length (fdata b))) as [Hl|Hl].
  - rewrite equal_loop_spec by lia. split.
    + intros H. apply list_eq. intros i. destruct (decide (i < length (fdata a))).
      * apply H; lia.
      * rewrite !lookup_ge_None_2; [done|lia|lia].
    + intros -> j _ _. done.
  - split; [done|]. intros H. by rewrite H in Hl.
Qed.

Lemma fill_range : forall (a a' : field Qc) v s e o,
  s <= e -> e <= fsize a -> 0 < e -> fill a v (s, e) a' o ->
  o = Ok tt /\ fexec a' = fexec a /\ fsize a' = fsize a /\
  forall i, fdata a' !! i = if decide (s <= i < e) then Some v else fdata a !! i.
Proof.
  intros a a' v s e o H1 H2 H3 H. unfold fill in H. simpl in H. rewrite eff_end_pos in H by done.
  eapply set_range in H; eauto.
Qed.

Lemma map_range : forall (a a' : field Qc) (f : nat -> Qc) s e o,
  s <= e -> e <= fsize a -> 0 < e -> map_field a f (s, e) a' o ->
  o = Ok tt /\ fexec a' = fexec a /\ fsize a' = fsize a /\
  forall i, fdata a' !! i = if decide (s <= i < e) then Some (f i) else fdata a !! i.
Proof.
  intros a a' f s e o H1 H2 H3 H. unfold map_field in H. simpl in H. rewrite eff_end_pos in H by done.
  eapply set_range in H; eauto.
Qed.

Lemma setField_range : forall (a a' : field Qc) (b : list Qc) s e o,
  s <= e -> e <= fsize a -> e <= length b -> 0 < e -> setField a b (s, e) a' o ->
  o = Ok tt /\ fexec a' = fexec a /\ fsize a' = fsize a /\
  forall i, fdata a' !! i = if decide (s <= i < e) then b !! i else fdata a !! i.
Proof.
  intros a a' b s e o H1 H2 H2' H3 H. unfold setField in H. simpl in H. rewrite eff_end_pos in H by done.
  eapply set_range in H; eauto. intros i Hi Hi'. apply lookup_lt_is_Some_2. lia.
Qed.

Lemma copy_round_trip : forall (a : field Qc) e,
  copyToExecutor (copyToExecutor a e) (fexec a) = a.
Proof.
  intros a e. destruct (copyToExecutor_data (copyToExecutor a e) (fexec a)) as [H1 H2].
  destruct (copyToExecutor_data a e) as [H3 _]. destruct (copyToExecutor _ _), a.
  simpl in *. congruence.
Qed.
