(** Square systems of linear equations over the exact numbers: if solutions are
    unique, there is one.  Pure mathematics; models no code. *)
From Verif Require Import Base Value QcLra.
Local Open Scope Qc_scope.

Notation sum_to := (@vsum_over Qc Qc_value).

Lemma sum_to_S n (f : nat -> Qc) : sum_to (S n) f = sum_to n f + f n.
Proof. exact (vsum_over_S n f). Qed.
Lemma sum_to_ext n (f g : nat -> Qc) : (forall i, (i < n)%nat -> f i = g i) -> sum_to n f = sum_to n g.
Proof. exact (vsum_over_ext n f g). Qed.
Lemma sum_to_add n (f g : nat -> Qc) : sum_to n (fun i => f i + g i) = sum_to n f + sum_to n g.
Proof. exact (vsum_over_add n f g). Qed.
Lemma sum_to_scale n k (f : nat -> Qc) : sum_to n (fun i => k * f i) = k * sum_to n f.
Proof. exact (vsum_over_scale n k f). Qed.
Lemma sum_to_zero n (f : nat -> Qc) : (forall i, (i < n)%nat -> f i = 0) -> sum_to n f = 0.
Proof. exact (vsum_over_zero n f). Qed.
Lemma sum_to_0 (f : nat -> Qc) : sum_to 0 f = 0.
Proof. exact (vsum_over_0 f). Qed.

(** The sum with one index taken out. *)
Definition skip (k i : nat) : nat := if decide (i < k)%nat then i else S i.
Lemma sum_to_skip n k (f : nat -> Qc) : (k <= n)%nat -> sum_to (S n) f = sum_to n (fun i => f (skip k i)) + f k.
Proof.
  induction n as [|n IH]; intros Hk.
  - assert (k = 0)%nat as -> by lia. rewrite sum_to_S, !sum_to_0. done.
  - destruct (decide (k = S n)) as [->|Hne].
    + rewrite sum_to_S. f_equal. apply sum_to_ext. intros i Hi. unfold skip. by rewrite decide_True by lia.
    + rewrite sum_to_S, (IH ltac:(lia)), (sum_to_S n). unfold skip at 3. rewrite decide_False by lia. ring.
Qed.

(** More vectors than coordinates: a non-trivial combination vanishes. *)
Lemma dependent n : forall v : nat -> nat -> Qc, exists a : nat -> Qc,
  (exists k, (k <= n)%nat /\ a k <> 0) /\ forall c, (c < n)%nat -> sum_to (S n) (fun j => a j * v j c) = 0.
Proof.
  induction n as [|n IH]; intros v.
  - exists (fun _ => 1). split; [|lia]. exists 0%nat. split; [lia|done].
  - assert (Hdec : (exists k, (k <= S n)%nat /\ v k n <> 0) \/ forall k, (k <= S n)%nat -> v k n = 0).
    { generalize (S n). intros N. induction N as [|N [(k & Hk & H)|H]].
      - destruct (Qc_eq_dec (v 0%nat n) 0) as [E|E].
        + right. intros k Hk. by assert (k = 0)%nat as -> by lia.
        + left. exists 0%nat. done.
      - left. exists k. split; [lia|done].
      - destruct (Qc_eq_dec (v (S N) n) 0) as [E|E].
        + right. intros k Hk. destruct (decide (k = S N)) as [->|]; [done|]. apply H. lia.
        + left. exists (S N). done. }
    destruct Hdec as [(k & Hk & Hvk)|Hz].
    + set (r i := v (skip k i) n / v k n).
      destruct (IH (fun i c => v (skip k i) c - r i * v k c)) as (a & (i & Hi & Hai) & Ha).
      set (A j := if decide (j = k) then - sum_to (S n) (fun i => a i * r i) else if decide (j < k)%nat then a j else a (j - 1)%nat).
      assert (Hskip : forall i, A (skip k i) = a i).
      { intros j. unfold A, skip. destruct (decide (j < k)%nat).
        - rewrite (decide_False (P := j = k)) by lia. by rewrite decide_True by lia.
        - rewrite (decide_False (P := S j = k)) by lia. rewrite decide_False by lia. f_equal. lia. }
      assert (Hkk : A k = - sum_to (S n) (fun i => a i * r i)) by (unfold A; by rewrite decide_True by done).
      exists A. split.
      { exists (skip k i). split; [unfold skip; destruct (decide _); lia|]. by rewrite Hskip. }
      intros c Hc. rewrite (sum_to_skip (S n) k) by done. rewrite Hkk.
      rewrite (sum_to_ext (S n) _ (fun i => a i * v (skip k i) c)) by (intros j _; by rewrite Hskip).
      assert (E : sum_to (S n) (fun j => a j * (v (skip k j) c - r j * v k c)) =
        sum_to (S n) (fun j => a j * v (skip k j) c) - sum_to (S n) (fun j => a j * r j) * v k c).
      { rewrite (sum_to_ext (S n) _ (fun j => a j * v (skip k j) c + - v k c * (a j * r j))) by (intros j _; ring).
        rewrite sum_to_add, sum_to_scale. ring. }
      destruct (decide (c < n)%nat) as [Hcn|Hcn].
      * rewrite (Ha c Hcn) in E. revert E. generalize (sum_to (S n) (fun j => a j * v (skip k j) c)) (sum_to (S n) (fun j => a j * r j)) (v k c).
        intros x y z E. replace (x + - y * z) with (x - y * z) by ring. by rewrite <- E.
      * assert (c = n) as -> by lia.
        assert (E0 : sum_to (S n) (fun j => a j * (v (skip k j) n - r j * v k n)) = 0).
        { apply sum_to_zero. intros j _. unfold r. field. done. }
        rewrite E0 in E. revert E. generalize (sum_to (S n) (fun j => a j * v (skip k j) n)) (sum_to (S n) (fun j => a j * r j)) (v k n).
        intros x y z E. replace (x + - y * z) with (x - y * z) by ring. by rewrite <- E.
    + destruct (IH v) as (a & (i & Hi & Hai) & Ha).
      exists (fun j => if decide (j <= n)%nat then a j else 0). split.
      { exists i. split; [lia|]. by rewrite decide_True by lia. }
      intros c Hc. rewrite sum_to_S. rewrite (decide_False (P := (S n <= n)%nat)) by lia. rewrite Qcmult_0_l, Qcplus_0_r.
      rewrite (sum_to_ext (S n) _ (fun j => a j * v j c)) by (intros j Hj; by rewrite decide_True by lia).
      destruct (decide (c < n)%nat) as [Hcn|Hcn]; [by apply Ha|]. assert (c = n) as -> by lia.
      apply sum_to_zero. intros j Hj. rewrite Hz by lia. ring.
Qed.

(** [n] affine equations in [n] unknowns. *)
Theorem unique_solvable n (L : (nat -> Qc) -> nat -> Qc) :
  (forall x y z a c, L (fun i => x i + a * (y i - z i)) c = L x c + a * (L y c - L z c)) ->
  (forall x y c, (forall i, (i < n)%nat -> x i = y i) -> L x c = L y c) ->
  (forall x y, (forall c, (c < n)%nat -> L x c = L y c) -> forall i, (i < n)%nat -> x i = y i) ->
  forall s, exists x, forall c, (c < n)%nat -> L x c = s c.
Proof.
  intros Haff Hloc Hinj s. set (O := fun _ : nat => 0). set (e (j i : nat) := if decide (i = j) then 1 else 0).
  assert (Hrep : forall a c k, (L (fun i => if decide (i < k)%nat then a i else 0%Qc) c - L O c = sum_to k (fun j => a j * (L (e j) c - L O c)))%Qc).
  { intros a c. induction k as [|k IH].
    - rewrite sum_to_0. rewrite (Hloc _ O) by (intros i _; unfold O; by rewrite decide_False by lia). ring.
    - rewrite sum_to_S, <- IH. rewrite (Hloc _ (fun i => (fun i => if decide (i < k)%nat then a i else 0) i + a k * (e k i - O i))).
      + rewrite Haff. ring.
      + intros i _. unfold e, O. destruct (decide (i = k)) as [->|].
        * rewrite decide_True by lia. rewrite decide_False by lia. ring.
        * destruct (decide (i < k)%nat); [rewrite decide_True by lia|rewrite decide_False by lia]; ring. }
  destruct (dependent n (fun j c => if decide (j < n)%nat then L (e j) c - L O c else s c - L O c)) as (a & (k & Hk & Hak) & Ha).
  assert (Hsum : forall c, (c < n)%nat -> L a c - L O c + a n * (s c - L O c) = 0).
  { intros c Hc. rewrite <- (Ha c Hc), sum_to_S, (decide_False (P := (n < n)%nat)) by lia. f_equal.
    rewrite (Hloc a (fun i => if decide (i < n)%nat then a i else 0)) by (intros i Hi; by rewrite decide_True by done).
    rewrite Hrep. apply sum_to_ext. intros j Hj. by rewrite decide_True by done. }
  destruct (Qc_eq_dec (a n) 0) as [E|E].
  - assert (H0 : forall i, (i < n)%nat -> a i = O i).
    { apply Hinj. intros c Hc. pose proof (Hsum c Hc) as H. rewrite E in H. revert H. generalize (L a c) (L O c) (s c). intros x y z H.
      replace x with (x - y + 0 * (z - y) + y) by ring. rewrite H. ring. }
    exfalso. apply Hak. destruct (decide (k = n)) as [->|]; [done|]. apply H0. lia.
  - exists (fun i => O i + - (/ a n) * (a i - O i)). intros c Hc. rewrite Haff. pose proof (Hsum c Hc) as H. revert H E.
    generalize (L a c) (L O c) (s c) (a n). intros x y z w H E.
    replace (x - y) with (- (w * (z - y))) by (replace (x - y) with (x - y + w * (z - y) - w * (z - y)) by ring; rewrite H; ring). field. done.
Qed.
Print Assumptions unique_solvable.
