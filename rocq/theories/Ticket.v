(** Kernels that allocate slots with Kokkos::atomic_fetch_add, on the
    interleaving machine of [Par.v].  The arrays hold unsigned integers
    (localIdx or uint8_t), addressed by (array, index) as in [Kernel.v].

    Used by src/finiteVolume/cellCentred/linearAlgebra/sparsityPattern.cpp and
    src/finiteVolume/cellCentred/stencil/cellToFaceStencil.cpp.  Overflow of
    localIdx is not modelled. *)
From Verif Require Import Base Par Exec Kernel.

Notation imem := (list (list nat)).
Notation iaddr := (nat * nat)%type.

Inductive tinstr :=
| TFetch (a : iaddr)                 (* t = Kokkos::atomic_fetch_add(&x, 1); also
                                        atomic_increment, whose result is unused *)
| TLoad (a : iaddr)                  (* t = x, plain read *)
| TPut (j : nat) (f : nat -> iaddr * nat)
                                     (* x = v, where address and value may depend
                                        on the j-th value t read before *)
| TCrash.                            (* out-of-bounds read of an input array *)

(** The private register of a thread: the values read so far, in order. *)
Definition tstep (i : tinstr) : action imem (list nat) := fun m l =>
  match i with
  | TFetch a => match mget m a with
                | Some x => Some (mset m a (x + 1), l ++ [x])
                | None => None
                end
  | TLoad a => match mget m a with
               | Some x => Some (m, l ++ [x])
               | None => None
               end
  | TPut j f => match l !! j with
                | Some t => match mget m (f t).1 with
                            | Some _ => Some (mset m (f t).1 (f t).2, l)
                            | None => None
                            end
                | None => None
                end
  | TCrash => None
  end.

Definition tthread (body : list tinstr) : thread imem (list nat) := ([], map tstep body).

(** A kernel body; [None]: it reads an input array out of bounds. *)
Definition tbody (b : option (list tinstr)) : list tinstr := default [TCrash] b.

(** parallelAlgorithms.hpp:26-63. *)
Definition tfor (e : executor) (start stop : nat) (k : nat -> option (list tinstr)) (m : imem)
  (r : option imem) : Prop :=
  exec_result e (iterations start stop (fun i => tthread (tbody (k i)))) m r.
