(** What dsl::solve leaves behind when it throws.

    [dsl_solve] of TimeInt.v says which exceptions are possible; here the objects
    that survive are added: the operators of the expression (the heap) and the
    solution field with its registered old-time field.  C107 shows that both agree
    on which exceptions are possible.  A C++ exception leaves the objects as they
    are at the throw; the linear system, the sparsity pattern and the integrator are
    local to the call. *)
From Verif Require Import Base Dict Registry Par Exec Fields Value Kernel Mesh Coeff FV Sparsity Assembly AssemblyProps Boundary Dsl TimeInt.

Section failure.
  Context (dbg : bool) (cx : ctx Qc) (n : nat) (bcs : list (patch * volBC Qc)).
  Context (lin : string -> dict -> sparsity -> list Qc -> list Qc -> list Qc -> outcome (list Qc) -> Prop).
  Notation F := (Fields.mkField (cx_exec cx)).

  (** After the first call of oldTime(solution) the old-time field is registered. *)
  Definition registered (st : tstate) : tstate := TState (ts_phi st) (Some (old_of st)).
  (** An external solver that throws may have written to the solution vector it was given. *)
  Definition scribbled (st : tstate) (x : list Qc) : tstate := TState (with_int (ts_phi st) x) (ts_old st).

  (** dsl/expression.hpp:34-44 (build): the operators before the one that throws are built. *)
  Definition build_left (d : dict) (exp : expression) (h : heap Qc) (st : tstate) (x : exn) (h' : heap Qc) : Prop :=
    exists l1 p l2 o, ex_spatial exp = l1 ++ p :: l2 /\ buildS (at_state cx n st) d l1 h = Ok (tt, h') /\
      h_spatial h' !! p = Some o /\ op_build (at_state cx n st) d o = Throw x.

  (** forwardEuler.hpp:36-56: explicitOperation (l.43) comes before oldTime (l.44);
      the solution is assigned after the sum has been computed (l.47). *)
  Definition forwardEuler_left (h : heap Qc) (eqn : expression) (dt : Qc) (st : tstate) (x : exn) (st' : tstate) : Prop :=
    let source r := explicitOperation_n (at_state cx n st) h eqn (length (vf_int (ts_phi st))) r in
    (source (Throw x) /\ st' = st) \/
    (exists s sdt, source (Ok s) /\ fop (Fields.scale (F s) dt) (Ok sdt) /\
       fop (Fields.minus dbg (F (old_of st)) (F sdt)) (Throw x) /\ st' = registered st).

  (** backwardEuler.hpp:52-69: the system handed to the linear solver. *)
  Definition backwardEuler_system (h : heap Qc) (eqn : expression) (dt : Qc) (st : tstate) (r : outcome (sparsity * list (list Qc))) : Prop :=
    let cx' := at_state cx n st in
    rseq (sp_create (cx_exec cx) (cx_mesh cx)) (fun fresh =>
    let ls0 := [replicate (sp_nnz fresh) 0%Qc; replicate (length (sp_diagOffset fresh)) 0%Qc] in
    rseq (implicitOperation cx' h (sp_rowPtrs fresh) eqn ls0) (fun ls1 =>
    rseq (implicitOperation_dt cx' h (sp_rowPtrs fresh) eqn dt ls1) (fun ls2 r' => r' = Ok (fresh, ls2)))) r.
  (** solver_solve, and whether it had begun to write to the solution *)
  Definition solver_left (d : dict) (p : sparsity) (ls : list (list Qc)) (st : tstate) (x : exn) (st' : tstate) : Prop :=
    (solver_create d = Throw x /\ st' = st) \/
    (exists name values rhs x', solver_create d = Ok name /\ ls = [values; rhs] /\
       lin name d p values rhs (vf_int (ts_phi st)) (Throw x) /\ length x' = length (vf_int (ts_phi st)) /\ st' = scribbled st x').
  (** backwardEuler.hpp:44-80 *)
  Definition backwardEuler_left (solutionDict : dict) (h : heap Qc) (eqn : expression) (dt : Qc) (st : tstate) (x : exn) (st' : tstate) : Prop :=
    let source r := explicitOperation_n (at_state cx n st) h eqn (length (vf_int (ts_phi st))) r in
    (source (Throw x) /\ st' = st) \/
    (exists s, source (Ok s) /\
       ((backwardEuler_system h eqn dt st (Throw x) /\ st' = registered st) \/
        (exists fresh ls, backwardEuler_system h eqn dt st (Ok (fresh, ls)) /\ solver_left solutionDict fresh ls (registered st) x st'))).

  (** timeIntegration.hpp:74-83.  About Runge-Kutta nothing is said here. *)
  Definition timeIntegration_left (schemeDict solutionDict : dict) (h : heap Qc) (eqn : expression) (t dt : Qc) (st : tstate)
    (x : exn) (h' : heap Qc) (st' : tstate) : Prop :=
    match checked known_integrator (get_string schemeDict "type") with
    | Ok name =>
        if decide (name = "forwardEuler") then forwardEuler_left h eqn dt st x st' /\ h' = h
        else if decide (name = "backwardEuler") then backwardEuler_left solutionDict h eqn dt st x st' /\ h' = h
        else rungeKutta_solve cx n schemeDict None h eqn t dt st (Throw x)
    | Throw y => y = x /\ h' = h /\ st' = st
    | _ => False
    end.

  (** dsl/solver.hpp:38-87 *)
  Definition dsl_solve_left (fvSchemes fvSolution : dict) (h : heap Qc) (exp : expression) (t dt : Qc) (st : tstate)
    (x : exn) (h' : heap Qc) (st' : tstate) : Prop :=
    (build_left fvSchemes exp h st x h' /\ st' = st) \/
    (exists h1, expr_build (at_state cx n st) fvSchemes exp h = Ok (tt, h1) /\
      match ex_temporal exp, ex_spatial exp with
      | [], [] => False
      | _ :: _, _ =>
          (dict_subDict fvSchemes "ddtSchemes" = Throw x /\ h' = h1 /\ st' = st) \/
          (exists schemeDict, dict_subDict fvSchemes "ddtSchemes" = Ok schemeDict /\
             timeIntegration_left schemeDict fvSchemes h1 exp t dt st x h' st')
      | [], _ =>
          h' = h1 /\
          ((sp_create (cx_exec cx) (cx_mesh cx) (Throw x) /\ st' = st) \/
           (exists fresh, sp_create (cx_exec cx) (cx_mesh cx) (Ok fresh) /\
              ((solve_system (at_state cx n st) h1 exp fresh (Throw x) /\ st' = st) \/
               (exists ls, solve_system (at_state cx n st) h1 exp fresh (Ok ls) /\ solver_left fvSolution fresh ls st x st'))))
      end).
End failure.
