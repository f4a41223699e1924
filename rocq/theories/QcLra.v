(** Linear arithmetic for Qc, by way of Q. *)
From Coq Require Import QArith Qcanon Lqa.
Lemma this_add a b : (this (a + b)%Qc == this a + this b)%Q. Proof. apply Qred_correct. Qed.
Lemma this_mul a b : (this (a * b)%Qc == this a * this b)%Q. Proof. apply Qred_correct. Qed.
Lemma this_opp a : (this (- a)%Qc == - this a)%Q. Proof. apply Qred_correct. Qed.
Lemma this_sub a b : (this (a - b)%Qc == this a - this b)%Q. Proof. unfold Qcminus. rewrite this_add, this_opp. reflexivity. Qed.
Lemma this_0 : (this 0%Qc == 0)%Q. Proof. reflexivity. Qed.
Lemma this_1 : (this 1%Qc == 1)%Q. Proof. reflexivity. Qed.
Lemma this_lit q : (this (Q2Qc q) == q)%Q. Proof. apply Qred_correct. Qed.
Lemma this_eq a b : a = b <-> (this a == this b)%Q.
Proof. split; [intros ->; reflexivity|apply Qc_is_canon]. Qed.
Ltac qc_to_q :=
  repeat match goal with
  | H : @eq Qc _ _ |- _ => rewrite this_eq in H
  | H : ~ Qcle _ _ |- _ => apply Qcnot_le_lt in H
  | H : ~ Qclt _ _ |- _ => apply Qcnot_lt_le in H
  end;
  try match goal with |- @eq Qc _ _ => rewrite this_eq end;
  unfold Qcle, Qclt in *;
  repeat first
  [ rewrite this_sub in * | rewrite this_add in * | rewrite this_mul in * | rewrite this_opp in * | rewrite this_0 in * | rewrite this_1 in * | rewrite this_lit in * ].
Ltac qc_lra := intros; qc_to_q; lra.
Ltac qc_nra := intros; qc_to_q; nra.
Local Open Scope Qc_scope.
Lemma qc_mul_nonneg a b : 0 <= a -> 0 <= b -> 0 <= a * b. Proof. qc_nra. Qed.
Lemma qc_mul_pos a b : 0 < a -> 0 < b -> 0 < a * b. Proof. qc_nra. Qed.
Lemma qc_mul_np a b : a <= 0 -> b <= 0 -> 0 <= a * b. Proof. qc_nra. Qed.
Lemma qc_mul_pn a b : 0 <= a -> b <= 0 -> a * b <= 0. Proof. qc_nra. Qed.
Lemma qc_div_pos a b : 0 < a -> 0 < b -> 0 < a / b.
Proof.
  intros Ha Hb. unfold Qcdiv. apply qc_mul_pos; [assumption|].
  unfold Qclt. unfold Qcinv. simpl. rewrite Qred_correct. apply Qinv_lt_0_compat. exact Hb.
Qed.
