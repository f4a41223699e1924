(** Element types of fields: scalar and Vector.

    The templates of the code are instantiated for [scalar] and [Vector]
    (e.g. gaussGreenDiv.cpp:141-142, surfaceIntegrate.cpp:64-65).  The model keeps
    them generic over the operations they use. *)
From Verif Require Import Base.

(** Operations used by the templates: zero<T>(), +, unary -, scalar*T. *)
Class ValueType (V : Type) := {
  vzero : V;
  vadd : V -> V -> V;
  vneg : V -> V;
  vscale : Qc -> V -> V;
}.

(** The laws a ValueType satisfies; proved below for scalar and Vector. *)
Class ValueLaws (V : Type) `{ValueType V} := {
  vadd_comm : forall a b : V, vadd a b = vadd b a;
  vadd_assoc : forall a b c : V, vadd a (vadd b c) = vadd (vadd a b) c;
  vadd_0_l : forall a : V, vadd vzero a = a;
  vadd_neg : forall a : V, vadd a (vneg a) = vzero;
  vscale_add : forall k (a b : V), vscale k (vadd a b) = vadd (vscale k a) (vscale k b);
  vscale_add_l : forall k l (a : V), vscale (k + l)%Qc a = vadd (vscale k a) (vscale l a);
  vscale_mul : forall k l (a : V), vscale (k * l)%Qc a = vscale k (vscale l a);
  vscale_1 : forall a : V, vscale 1%Qc a = a;
}.

Definition vsub {V} `{ValueType V} (a b : V) : V := vadd a (vneg b).

(** [vsum l]: sum of the elements of [l]. *)
Fixpoint vsum {V} `{ValueType V} (l : list V) : V :=
  match l with
  | [] => vzero
  | x :: l' => vadd x (vsum l')
  end.

(** [vsum_over n f] = f 0 + ... + f (n-1). *)
Definition vsum_over {V} `{ValueType V} (n : nat) (f : nat -> V) : V :=
  vsum (map f (seq 0 n)).

(** scalar: include/NeoFOAM/core/primitives/scalar.hpp; exact rationals instead
    of floating point. *)
Global Instance Qc_value : ValueType Qc :=
  {| vzero := 0%Qc; vadd := Qcplus; vneg := Qcopp; vscale := Qcmult |}.

Global Instance Qc_laws : ValueLaws Qc.
Proof. split; intros; simpl; ring. Qed.

(** Vector: include/NeoFOAM/core/primitives/vector.hpp:22-145. *)
Record vec := Vec { vx : Qc; vy : Qc; vz : Qc }.

Global Instance vec_eq_dec : EqDecision vec.
Proof. intros [a b c] [a' b' c']. 
  destruct (decide (a = a')), (decide (b = b')), (decide (c = c')); 
  [left; congruence|right; congruence..]. Defined.

(** vector.hpp:90-93 *)
Definition vec_add (a b : vec) : vec := Vec (vx a + vx b) (vy a + vy b) (vz a + vz b).
(** vector.hpp:105-108 *)
Definition vec_sub (a b : vec) : vec := Vec (vx a - vx b) (vy a - vy b) (vz a - vz b).
(** vector.hpp:120-123 *)
Definition vec_scale (k : Qc) (a : vec) : vec := Vec (vx a * k) (vy a * k) (vz a * k).
(** negation, spelled [-1 * v] or [0 - v] in the code; atomic_sub(&x, v) adds it *)
Definition vec_neg (a : vec) : vec := Vec (- vx a) (- vy a) (- vz a).
(** vector.hpp:155-159 *)
Definition vec_dot (a b : vec) : Qc := (vx a * vx b + vy a * vy b + vz a * vz b)%Qc.
(** vector.hpp:167-177 *)
Definition vec_one : vec := Vec 1 1 1.
Definition vec_zero : vec := Vec 0 0 0.
(** vector.hpp:83-87 *)
Definition vec_eqb (a b : vec) : bool :=
  bool_decide (vx a = vx b) && bool_decide (vy a = vy b) && bool_decide (vz a = vz b).

Global Instance vec_value : ValueType vec :=
  {| vzero := vec_zero; vadd := vec_add; vneg := vec_neg; vscale := vec_scale |}.

Global Instance vec_laws : ValueLaws vec.
Proof.
  split; intros; repeat match goal with a : vec |- _ => destruct a end;
  simpl; unfold vec_add, vec_neg, vec_scale, vec_zero; simpl; f_equal; ring.
Qed.

Section laws.
  Context {V : Type} `{HL : ValueLaws V}.
  Implicit Types (a b c : V) (l : list V).

  Lemma vadd_0_r a : vadd a vzero = a.
  Proof. rewrite vadd_comm. apply vadd_0_l. Qed.

  Lemma vadd_cancel_l a b c : vadd a b = vadd a c -> b = c.
  Proof.
    intros Heq. assert (vadd (vneg a) (vadd a b) = vadd (vneg a) (vadd a c)) as Hx by congruence.
    rewrite !vadd_assoc, !(vadd_comm (vneg a) a), vadd_neg, !vadd_0_l in Hx. done.
  Qed.

  Lemma vneg_unique a b : vadd a b = vzero -> b = vneg a.
  Proof. intros Heq. apply (vadd_cancel_l a). by rewrite Heq, vadd_neg. Qed.

  Lemma vneg_zero : vneg (vzero : V) = vzero.
  Proof. symmetry. apply vneg_unique, vadd_0_l. Qed.

  Lemma vneg_add a b : vneg (vadd a b) = vadd (vneg a) (vneg b).
  Proof.
    symmetry. apply vneg_unique.
    rewrite (vadd_comm (vneg a)), vadd_assoc, <- (vadd_assoc a b), vadd_neg, vadd_0_r.
    apply vadd_neg.
  Qed.

  Lemma vneg_neg a : vneg (vneg a) = a.
  Proof. symmetry. apply vneg_unique. rewrite vadd_comm. apply vadd_neg. Qed.

  Lemma vscale_0_l a : vscale 0%Qc a = vzero.
  Proof.
    apply (vadd_cancel_l (vscale 0%Qc a)). rewrite <- vscale_add_l, vadd_0_r.
    f_equal; ring.
  Qed.

  Lemma vscale_0_r k : vscale k (vzero : V) = vzero.
  Proof.
    apply (vadd_cancel_l (vscale k vzero)). rewrite <- vscale_add, !vadd_0_r. done.
  Qed.

  Lemma vscale_neg k a : vscale k (vneg a) = vneg (vscale k a).
  Proof. apply vneg_unique. rewrite <- vscale_add, vadd_neg. apply vscale_0_r. Qed.

  Lemma vscale_opp k a : vscale (- k)%Qc a = vneg (vscale k a).
  Proof.
    apply vneg_unique. rewrite <- vscale_add_l, Qcplus_opp_r. apply vscale_0_l.
  Qed.

  Lemma vadd_swap a b c d : vadd (vadd a b) (vadd c d) = vadd (vadd a c) (vadd b d).
  Proof. rewrite !vadd_assoc. f_equal. rewrite <- !vadd_assoc. f_equal. apply vadd_comm. Qed.

  Lemma vsum_app l1 l2 : vsum (l1 ++ l2) = vadd (vsum l1) (vsum l2).
  Proof.
    induction l1 as [|x l1 IH]; simpl; [by rewrite vadd_0_l|].
    by rewrite IH, vadd_assoc.
  Qed.

  Lemma vsum_perm l1 l2 : l1 ≡ₚ l2 -> vsum l1 = vsum l2.
  Proof.
    induction 1; simpl; try congruence.
    by rewrite !vadd_assoc, (vadd_comm y x).
  Qed.

  Lemma vsum_map_add {A} (f g : A -> V) (xs : list A) :
    vsum (map (fun x => vadd (f x) (g x)) xs) = vadd (vsum (map f xs)) (vsum (map g xs)).
  Proof.
    induction xs as [|x xs IH]; simpl; [by rewrite vadd_0_l|]. rewrite IH. apply vadd_swap.
  Qed.

  Lemma vsum_map_neg {A} (f : A -> V) (xs : list A) :
    vsum (map (fun x => vneg (f x)) xs) = vneg (vsum (map f xs)).
  Proof.
    induction xs as [|x xs IH]; simpl; [by rewrite vneg_zero|]. by rewrite IH, vneg_add.
  Qed.

  Lemma vsum_map_scale {A} k (f : A -> V) (xs : list A) :
    vsum (map (fun x => vscale k (f x)) xs) = vscale k (vsum (map f xs)).
  Proof.
    induction xs as [|x xs IH]; simpl; [by rewrite vscale_0_r|]. by rewrite IH, vscale_add.
  Qed.

  Lemma vsum_map_zero {A} (f : A -> V) (xs : list A) :
    (forall x, x ∈ xs -> f x = vzero) -> vsum (map f xs) = vzero.
  Proof.
    induction xs as [|x xs IH]; simpl; intros Hz; [done|].
    rewrite Hz, IH, vadd_0_l; [done| |left]. intros y Hy. apply Hz. by right.
  Qed.

  Lemma vsum_map_ext {A} (f g : A -> V) (xs : list A) :
    (forall x, x ∈ xs -> f x = g x) -> vsum (map f xs) = vsum (map g xs).
  Proof.
    induction xs as [|x xs IH]; simpl; intros Hz; [done|].
    rewrite Hz, IH; [done| |left]. intros y Hy. apply Hz. by right.
  Qed.

  Lemma vsum_over_ext n (f g : nat -> V) :
    (forall i, i < n -> f i = g i) -> vsum_over n f = vsum_over n g.
  Proof. intros Hz. apply vsum_map_ext. intros x Hx%elem_of_seq. apply Hz. lia. Qed.

  Lemma vsum_over_zero n (f : nat -> V) :
    (forall i, i < n -> f i = vzero) -> vsum_over n f = vzero.
  Proof. intros Hz. apply vsum_map_zero. intros x Hx%elem_of_seq. apply Hz. lia. Qed.

  Lemma vsum_over_add n (f g : nat -> V) :
    vsum_over n (fun i => vadd (f i) (g i)) = vadd (vsum_over n f) (vsum_over n g).
  Proof. apply vsum_map_add. Qed.

  Lemma vsum_over_neg n (f : nat -> V) :
    vsum_over n (fun i => vneg (f i)) = vneg (vsum_over n f).
  Proof. apply vsum_map_neg. Qed.

  Lemma vsum_over_scale n k (f : nat -> V) :
    vsum_over n (fun i => vscale k (f i)) = vscale k (vsum_over n f).
  Proof. apply vsum_map_scale. Qed.

  Lemma vsum_over_S n (f : nat -> V) : vsum_over (S n) f = vadd (vsum_over n f) (f n).
  Proof.
    unfold vsum_over. rewrite seq_S, map_app, vsum_app. simpl. by rewrite vadd_0_r.
  Qed.

  Lemma vsum_over_0 (f : nat -> V) : vsum_over 0 f = vzero.
  Proof. done. Qed.

  Lemma vsum_over_S_l n (f : nat -> V) :
    vsum_over (S n) f = vadd (f 0%nat) (vsum_over n (fun i => f (S i))).
  Proof. unfold vsum_over. simpl. rewrite <- seq_shift, map_map. done. Qed.

  (** Exchange of two finite sums. *)
  Lemma vsum_over_exchange m n (f : nat -> nat -> V) :
    vsum_over m (fun i => vsum_over n (f i)) = vsum_over n (fun j => vsum_over m (fun i => f i j)).
  Proof.
    induction m as [|m IH].
    - symmetry. by apply vsum_over_zero.
    - rewrite vsum_over_S, IH, <- vsum_over_add. apply vsum_over_ext. intros j _.
      by rewrite vsum_over_S.
  Qed.

  (** A sum with a single non-zero term. *)
  Lemma vsum_over_single n k (v : V) :
    k < n -> vsum_over n (fun i => if decide (i = k) then v else vzero) = v.
  Proof.
    induction n as [|n IH]; intros Hk; [lia|]. rewrite vsum_over_S.
    destruct (decide (n = k)) as [->|Hne].
    - rewrite vsum_over_zero; [by rewrite vadd_0_l|].
      intros i Hi. rewrite decide_False by lia. done.
    - rewrite IH by lia. by rewrite vadd_0_r.
  Qed.
End laws.
