(** Base vocabulary shared by the whole model.

    - [outcome]: how a C++ call can end (normal, exception, process
      termination, undefined behaviour).
    - list sums over the canonical rationals, the scalar type of the model.

    Source of the error classification:
    include/NeoFOAM/core/error.hpp:
      NF_ERROR_EXIT / NF_ASSERT terminate the process (std::exit / std::abort),
      NF_THROW / NeoFOAM_ASSERT_EQUAL_LENGTH throw. *)
From Coq Require Export QArith Qcanon.
From stdpp Require Export list list_numbers numbers strings.

(** Exceptions the modelled code can raise. *)
Inductive exn :=
| DimensionMismatch    (* include/NeoFOAM/helpers/exceptions.hpp *)
| OutOfRange           (* std::out_of_range / map::at *)
| BadAnyCast           (* std::any_cast *)
| BadCast              (* std::bad_cast *)
| RuntimeError.        (* NeoFOAMException thrown by NF_THROW and std::runtime_error *)

Inductive outcome (A : Type) :=
| Ok (a : A)
| Throw (e : exn)
| Exit                  (* NF_ERROR_EXIT, failed NF_ASSERT, abort *)
| UB.                   (* undefined behaviour *)
Arguments Ok {A} a.
Arguments Throw {A} e.
Arguments Exit {A}.
Arguments UB {A}.

Definition obind {A B} (m : outcome A) (f : A -> outcome B) : outcome B :=
  match m with
  | Ok a => f a
  | Throw e => Throw e
  | Exit => Exit
  | UB => UB
  end.
Notation "'let!' x ':=' m 'in' k" := (obind m (fun x => k))
  (at level 200, x pattern, right associativity).

(** Memory read that is undefined behaviour out of bounds. *)
Definition oget {A} (o : option A) : outcome A :=
  match o with Some a => Ok a | None => UB end.

(** [sumQ l]: sum of a list of scalars. *)
Fixpoint sumQ (l : list Qc) : Qc :=
  match l with
  | [] => 0%Qc
  | x :: l' => (x + sumQ l')%Qc
  end.

(** [sum_over n f] = f 0 + f 1 + ... + f (n-1). *)
Definition sum_over (n : nat) (f : nat -> Qc) : Qc := sumQ (map f (seq 0 n)).

(** Embedding of C++ integer literals / sizes into scalars. *)
Definition Qc_of_nat (n : nat) : Qc := Q2Qc (inject_Z (Z.of_nat n)).
