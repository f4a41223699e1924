(** The PETSc linear solver as a whole: what solve() gets from it. *)
From Verif Require Import Base Dict Exec Value Mesh Sparsity CSR CSRSpec.
From Verif Require Fields.

(** The linear system assembled on pattern [p] (CSR.v; createEmptyLinearSystem,
    linearSystem.hpp, fills matrix and right-hand side with what the operators
    add). *)
Definition system_of (e : executor) (p : sparsity) (values rhs : list Qc) : linsys Qc nat :=
  LinSys (Csr (Fields.mkField e values) (Fields.mkField e (sp_colIdxs p)) (Fields.mkField e (sp_rowPtrs p))) (Fields.mkField e rhs).

(** include/NeoFOAM/linearAlgebra/petsc.hpp:78-114 solve: hand the system over
    (petscSolverContext.hpp:65-143, [petsc_system]), KSPSolve, copy the result to x.
    KSPSolve is external: here it returns a solution of the system PETSc was given
    (any, if there are several).  Not modelled: KSPSolve giving up, the iteration's
    error, the initial guess (PETSc starts from zero). *)
Definition petsc_solver (e : executor) (d : dict) (p : sparsity) (values rhs x0 : list Qc) (r : outcome (list Qc)) : Prop :=
  match petsc_system (system_of e p values rhs) with
  | Ok c => exists x, r = Ok x /\ length x = length rhs /\
      forall i, i < length rhs -> sum_over (length rhs) (fun j => (coo_entry c i j * default 0 (x !! j))%Qc) = coo_rhs c i
  | Throw y => r = Throw y | Exit => r = Exit | UB => r = UB
  end.

(** solve() picks the backend by name (TimeInt.v, [solver_create]); the backend
    "Petsc" is the above. *)
Definition petsc_backend (e : executor) (lin : string -> dict -> sparsity -> list Qc -> list Qc -> list Qc -> outcome (list Qc) -> Prop) : Prop :=
  forall d p values rhs x0 r, lin "Petsc"%string d p values rhs x0 r <-> petsc_solver e d p values rhs x0 r.

(** * Specification *)
(** A field that is 1 in cell [j] and 0 elsewhere; the zero field. *)
Definition unit_field (n j : nat) : list Qc := map (fun i => if decide (i = j) then 1%Qc else 0%Qc) (seq 0 n).
Definition zero_field (n : nat) : list Qc := replicate n 0%Qc.
(** [E x i]: the equation of cell [i] with the values [x], to be made zero.  How
    much the value in cell [j] counts in the equation of cell [i]. *)
Definition coefficient (E : list Qc -> nat -> Qc) (n i j : nat) : Qc := (E (unit_field n j) i - E (zero_field n) i)%Qc.
(** The values that solve the equations with the transposed coefficients. *)
Definition solves_transposed (E : list Qc -> nat -> Qc) (n : nat) (x : list Qc) : Prop :=
  forall i, i < n -> (sum_over n (fun j => coefficient E n j i * default 0 (x !! j)) + E (zero_field n) i = 0)%Qc.
Definition symmetric_equations (E : list Qc -> nat -> Qc) (n : nat) : Prop :=
  forall i j, i < n -> j < n -> coefficient E n i j = coefficient E n j i.
