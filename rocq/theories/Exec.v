(** Executors and the way a kernel runs on each of them. *)
From Verif Require Import Base Par.

(** include/NeoFOAM/core/executor/executor.hpp:16
    [using Executor = std::variant<SerialExecutor, CPUExecutor, GPUExecutor>]. *)
Inductive executor := SerialExecutor | CPUExecutor | GPUExecutor.

Global Instance executor_eq_dec : EqDecision executor.
Proof. solve_decision. Defined.

(** executor.hpp:24-42: true iff both hold the same alternative (the Kokkos
    execution space instances compared in line 32 are default constructed, hence
    equal). *)
Definition exec_eqb (a b : executor) : bool :=
  match a, b with
  | SerialExecutor, SerialExecutor => true
  | CPUExecutor, CPUExecutor => true
  | GPUExecutor, GPUExecutor => true
  | _, _ => false
  end.

(** parallelAlgorithms.hpp:26-63, 73-105.  [exec_result e ts s r]: running the
    iterations [ts] on executor [e] from memory [s] may end with [r]; [None] is
    undefined behaviour.  Serial is the plain loop (l.37-40, 85-88), the Kokkos
    back-ends (l.44-49, 92-97) run the iterations in any interleaving. *)
Definition exec_result {S L} (e : executor) (ts : list (thread S L)) (s : S)
  (r : option S) : Prop :=
  match e with
  | SerialExecutor => run_serial ts s = r
  | _ => match r with
         | Some s' => par_result ts s s'
         | None => exists sched, run sched ts s = None
         end
  end.

(** Kernel [view[i] = f(i, view[i])] reading and then writing its own slot
    (two separate memory actions): the field form of parallelFor,
    parallelAlgorithms.hpp:87 and 96 with kernels such as
    fieldFreeFunctions.hpp:98, 113. [f] returns [None] when computing the value
    is undefined behaviour (e.g. reading another array out of bounds). *)
Definition rmw_kernel {V} (f : nat -> V -> option V) (i : nat)
  : thread (list V) (option V) :=
  (None,
   [ (fun s _ => match s !! i with Some v => Some (s, Some v) | None => None end);
     (fun s l => match l with
                 | Some v => match s !! i, f i v with
                             | Some _, Some w => Some (<[i := w]> s, l)
                             | _, _ => None
                             end
                 | None => Some (s, l)  (* unreachable: the read comes first *)
                 end) ]).

(** Kernel [view[i] = f(i)]: fieldFreeFunctions.hpp:38, 63, 89. *)
Definition set_kernel {V} (f : nat -> option V) (i : nat)
  : thread (list V) (option V) :=
  (None,
   [ (fun s l => match s !! i, f i with
                 | Some _, Some w => Some (<[i := w]> s, l)
                 | _, _ => None
                 end) ]).
