(** Interleaving model of Kokkos parallel_for.

    Models include/NeoFOAM/core/parallelAlgorithms.hpp:26-63 (index range form)
    and 73-105 (field form).

    One kernel iteration is a thread: a private register plus a finite list of
    actions.  An action is executed atomically on the shared memory; it returns
    [None] when it performs undefined behaviour (out-of-bounds access).  A
    schedule is an arbitrary list of thread numbers; scheduling a finished or
    non-existing thread does nothing.  Memory is sequentially consistent.
    A non-atomic [x += v] is two actions (read into the register, write),
    a Kokkos::atomic_* call is one action. *)
From Verif Require Import Base.

Section machine.
  Context {S L : Type}.

  Definition action : Type := S -> L -> option (S * L).
  Definition thread : Type := L * list action.

  (** Shared state after running the schedule, with what is left of each
      thread; [None] if some action performed undefined behaviour. *)
  Fixpoint run (sched : list nat) (ts : list thread) (s : S)
    : option (list thread * S) :=
    match sched with
    | [] => Some (ts, s)
    | t :: sched' =>
        match ts !! t with
        | Some (l, a :: rest) =>
            match a s l with
            | Some (s', l') => run sched' (<[t := (l', rest)]> ts) s'
            | None => None
            end
        | _ => run sched' ts s
        end
    end.

  Definition finished (ts : list thread) : Prop :=
    Forall (fun th => th.2 = []) ts.

  (** [par_result ts s s']: some complete execution ends in [s']. *)
  Definition par_result (ts : list thread) (s s' : S) : Prop :=
    exists sched ts', run sched ts s = Some (ts', s') /\ finished ts'.

  (** No execution, complete or not, performs undefined behaviour. *)
  Definition par_safe (ts : list thread) (s : S) : Prop :=
    forall sched, run sched ts s <> None.

  (** The serial executor: the iterations one after another. *)
  Fixpoint run_thread (l : L) (acts : list action) (s : S) : option S :=
    match acts with
    | [] => Some s
    | a :: rest => match a s l with
                   | Some (s', l') => run_thread l' rest s'
                   | None => None
                   end
    end.

  Fixpoint run_serial (ts : list thread) (s : S) : option S :=
    match ts with
    | [] => Some s
    | (l, acts) :: ts' => match run_thread l acts s with
                          | Some s' => run_serial ts' s'
                          | None => None
                          end
    end.
End machine.
Arguments action : clear implicits.
Arguments thread : clear implicits.

(** The iterations of [parallelFor(exec, {start,end}, kernel)]:
    parallelAlgorithms.hpp:34-49; [kernel i] gives the initial register and the
    actions of iteration i. *)
Definition iterations {S L} (start stop : nat) (kernel : nat -> thread S L)
  : list (thread S L) :=
  map kernel (seq start (stop - start)).
