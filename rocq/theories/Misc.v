(** Small stateful pieces: View bounds checking, the time loop. *)
From Verif Require Import Base.

(** include/NeoFOAM/core/view.hpp:42-67 with NF_DEBUG defined: one element access.
    [fi] is failureIndex (0 = success, view.hpp:30-34).  Result: the new
    failureIndex, or [Exit] when [abort] is set (Kokkos::abort).  The access
    itself (l.62, 66) follows the check and is undefined when out of range; it is
    not part of this state machine. *)
Definition view_access (abort : bool) (size : nat) (fi idx : nat) : outcome nat :=
  if Nat.leb size idx then
    if abort then Exit
    else if Nat.eqb fi 0 then Ok idx else Ok fi
  else Ok fi.

Fixpoint view_accesses (abort : bool) (size : nat) (fi : nat) (idxs : list nat) : outcome nat :=
  match idxs with
  | [] => Ok fi
  | i :: is => let! fi' := view_access abort size fi i in view_accesses abort size fi' is
  end.

(** First index outside [0,size) in an access sequence (specification). *)
Fixpoint first_bad (size : nat) (idxs : list nat) : option nat :=
  match idxs with
  | [] => None
  | i :: is => if Nat.ltb i size then first_bad size is else Some i
  end.

(** include/NeoFOAM/core/time.hpp:33-43, 49: Time() sets time_ = 0; loop() adds
    one and compares with 10.  [time_] is a scalar holding small integers, hence
    exact. *)
Definition time_init : Z := 0.
Definition time_loop (t : Z) : Z * bool := let t' := (t + 1)%Z in (t', Z.leb t' 10).

Fixpoint time_loops (n : nat) (t : Z) : list bool :=
  match n with
  | 0 => []
  | S n' => let '(t', b) := time_loop t in b :: time_loops n' t'
  end.
