(** A small language for the bodies of parallelFor kernels that write to several
    arrays, run on the interleaving machine of [Par.v].

    Everything a kernel only reads (mesh connectivity, fluxes, ...) is not
    written while it runs and is therefore evaluated when the kernel body is
    built; the body itself lists the accesses to the arrays that are written. *)
From Verif Require Import Base Par Exec Value.

Section lang.
  Context {V : Type} `{ValueType V}.

  (** The arrays written by the kernels, by number. *)
  Notation mem := (list (list V)).
  (** (array, index) *)
  Notation addr := (nat * nat)%type.

  Definition mget (m : mem) (a : addr) : option V := m !! a.1 ≫= (fun arr => arr !! a.2).
  Definition mset (m : mem) (a : addr) (v : V) : mem := alter (fun arr => <[a.2 := v]> arr) a.1 m.

  Inductive instr :=
  | AtomicAdd (a : addr) (v : V)        (* Kokkos::atomic_add, atomic_sub = adding -v *)
  | Load (a : addr)                     (* first half of a plain x += v / x *= v *)
  | Store (a : addr) (f : V -> V)       (* second half: write f(value loaded)    *)
  | Write (a : addr) (v : V)            (* x = v                                 *)
  | Crash.                              (* out-of-bounds read of an input array  *)

  (** One instruction as an atomic action; out of bounds is undefined
      behaviour. *)
  Definition step (i : instr) : action mem (option V) := fun m l =>
    match i with
    | AtomicAdd a v => match mget m a with
                       | Some x => Some (mset m a (vadd x v), l)
                       | None => None
                       end
    | Load a => match mget m a with Some x => Some (m, Some x) | None => None end
    | Store a f => match mget m a, l with
                   | Some _, Some x => Some (mset m a (f x), l)
                   | Some _, None => Some (m, l)   (* not generated: Load comes first *)
                   | None, _ => None
                   end
    | Write a v => match mget m a with Some _ => Some (mset m a v, l) | None => None end
    | Crash => None
    end.

  Definition kthread (body : list instr) : thread mem (option V) := (None, map step body).

  (** Statements of kernel bodies. *)
  Inductive stmt :=
  | SAtomicAdd (a : addr) (v : V)       (* Kokkos::atomic_add(&x, v)  *)
  | SAtomicSub (a : addr) (v : V)       (* Kokkos::atomic_sub(&x, v)  *)
  | SAdd (a : addr) (v : V)             (* x += v, not atomic         *)
  | SSub (a : addr) (v : V)             (* x -= v, not atomic         *)
  | SScale (a : addr) (k : Qc)          (* x *= k, not atomic         *)
  | SSet (a : addr) (v : V).            (* x = v                      *)

  Definition compile1 (s : stmt) : list instr :=
    match s with
    | SAtomicAdd a v => [AtomicAdd a v]
    | SAtomicSub a v => [AtomicAdd a (vneg v)]
    | SAdd a v => [Load a; Store a (fun x => vadd x v)]
    | SSub a v => [Load a; Store a (fun x => vsub x v)]
    | SScale a k => [Load a; Store a (vscale k)]
    | SSet a v => [Write a v]
    end.

  (** A kernel maps the iteration number to its statements; [None]: the body
      reads an input array out of bounds. *)
  Definition kernel := nat -> option (list stmt).

  Definition body_of (k : kernel) (i : nat) : list instr :=
    match k i with
    | Some b => concat (map compile1 b)
    | None => [Crash]
    end.

  (** parallelAlgorithms.hpp:26-63. *)
  Definition pfor (e : executor) (start stop : nat) (k : kernel) (m : mem)
    (r : option mem) : Prop :=
    exec_result e (iterations start stop (fun i => kthread (body_of k i))) m r.

  (** Kernels launched one after the other (same execution space, hence in
      order); undefined behaviour of the first ends the run. *)
  Definition pseq (p q : mem -> option mem -> Prop) (m : mem) (r : option mem) : Prop :=
    (p m None /\ r = None) \/ (exists m1, p m (Some m1) /\ q m1 r).
End lang.
Arguments kernel : clear implicits.
Arguments instr : clear implicits.
Arguments stmt : clear implicits.
