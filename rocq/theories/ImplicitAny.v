(** Implicit time stepping and steady solves in any arithmetic: the parts of
    TimeInt.v that runs with the backward Euler integrator and equations without
    time derivative use, for every ValueType.  Nothing is assumed about the
    arithmetic, so it may round.

    Properties_ImplicitRuns.v shows that with exact scalars these are the
    definitions of TimeInt.v. *)
From Verif Require Import Base Dict Registry Par Exec Fields Value Kernel Mesh Coeff FV Sparsity Assembly AssemblyProps Boundary Dsl TimeInt TimeAny.

Section any.
  Context {V : Type} {VT : ValueType V} {VU : ValueUnit V} {VG : ValueTag V}.
  Context (dbg : bool) (cx : ctx V) (n : nat) (bcs : list (patch * volBC V)).
  (** [lin name dict pattern values rhs x0]: what the (external) linear solver of
      this name may return. *)
  Context (lin : string -> dict -> sparsity -> list V -> list V -> list V -> outcome (list V) -> Prop).
  Notation F := (Fields.mkField (cx_exec cx)).

  (** include/NeoFOAM/linearAlgebra/solver.hpp:14-66 *)
  Definition solver_solve_any (d : dict) (p : sparsity) (ls : list (list V)) (x0 : list V) (r : outcome (list V)) : Prop :=
    match solver_create d, ls with
    | Ok name, [values; rhs] => lin name d p values rhs x0 r
    | Ok _, _ => r = UB                     (* not reachable: a system has two arrays *)
    | Throw x, _ => r = Throw x | Exit, _ => r = Exit | UB, _ => r = UB
    end.

  (** include/NeoFOAM/timeIntegration/backwardEuler.hpp:44-80.  [old]: what
      oldTime(solutionField) returns. *)
  Definition backwardEuler_any (solutionDict : dict) (h : heap V) (e : expression) (dt : Qc) (phi : volField V) (old : list V)
    (r : outcome (volField V * list V)) : Prop :=
    let cx' := seen cx n phi old in
    rseq (explicitOperation_n cx' h e (length (vf_int phi))) (fun _ =>                                (* l.51: unused *)
    rseq (sp_create (cx_exec cx) (cx_mesh cx)) (fun fresh =>                                          (* l.60 *)
    let ls0 := [replicate (sp_nnz fresh) vzero; replicate (length (sp_diagOffset fresh)) vzero] in    (* l.61-64 *)
    rseq (implicitOperation cx' h (sp_rowPtrs fresh) e ls0) (fun ls1 =>                               (* l.66 *)
    rseq (implicitOperation_dt cx' h (sp_rowPtrs fresh) e dt ls1) (fun ls2 =>                         (* l.69 *)
    rseq (solver_solve_any solutionDict fresh ls2 (vf_int phi)) (fun x =>                             (* l.71-72 *)
    rseq (fop_any (Fields.assign_field (F old) (F x))) (fun old' r' =>                                (* l.79 *)
      r' = Ok (with_int phi x, old'))))))) r.

  (** What a program keeps between calls: the operators, the solution field and its
      registered old-time field (None: oldTime() has not been called yet). *)
  Notation kept := (heap V * (volField V * option (list V)))%type.

  (** include/NeoFOAM/timeIntegration/timeIntegration.hpp:74-83, for the forward
      and backward Euler integrators.  Runge-Kutta is left out: with it this
      relation has no outcome, and the theorems exclude it. *)
  Definition integrate_any (schemeDict solutionDict : dict) (h : heap V) (e : expression) (dt : Qc) (phi : volField V) (old : list V)
    (r : outcome kept) : Prop :=
    match checked known_integrator (get_string schemeDict "type") with
    | Ok name =>
        if decide (name = "forwardEuler"%string) then
          rseq (forwardEuler_any dbg cx n bcs h e dt phi old) (fun s r' => r' = Ok (h, (s.1, Some s.2))) r
        else if decide (name = "backwardEuler"%string) then
          rseq (backwardEuler_any solutionDict h e dt phi old) (fun s r' => r' = Ok (h, (s.1, Some s.2))) r
        else False
    | Throw x => r = Throw x | Exit => r = Exit | UB => r = UB
    end.

  (** include/NeoFOAM/dsl/solver.hpp:38-87; core/database/oldTimeCollection.hpp
      for the old-time field. *)
  Definition solve_any (fvSchemes fvSolution : dict) (e : expression) (dt : Qc) (h : heap V) (phi : volField V) (oldField : option (list V))
    (r : outcome kept) : Prop :=
    let old := default (vf_int phi) oldField in
    match ex_temporal e, ex_spatial e with
    | [], [] => r = Exit                                                                   (* l.48-51 *)
    | _, _ =>
        rseq (fun r' => r' = expr_build (seen cx n phi old) fvSchemes e h) (fun '(_, h') => (* l.52 *)
        match ex_temporal e with
        | _ :: _ =>
            rseq (fun r' => r' = dict_subDict fvSchemes "ddtSchemes") (fun schemeDict =>   (* l.56-59 *)
            integrate_any schemeDict fvSchemes h' e dt phi old)
        | [] =>
            rseq (sp_create (cx_exec cx) (cx_mesh cx)) (fun fresh =>                       (* l.66 *)
            rseq (solve_system (seen cx n phi old) h' e fresh) (fun ls =>                  (* l.67-82 *)
            rseq (solver_solve_any fvSolution fresh ls (vf_int phi)) (fun x r' =>          (* l.84-85 *)
              r' = Ok (h', (with_int phi x, oldField)))))
        end) r
    end.

  (** A program's loop: one dsl::solve per step, with the step lengths [dts]. *)
  Fixpoint solve_loop_any (fvSchemes fvSolution : dict) (e : expression) (dts : list Qc) (h : heap V) (phi : volField V) (oldField : option (list V))
    (r : outcome kept) : Prop :=
    match dts with
    | [] => r = Ok (h, (phi, oldField))
    | dt :: dts' => rseq (solve_any fvSchemes fvSolution e dt h phi oldField)
                      (fun '(h', (phi', old')) => solve_loop_any fvSchemes fvSolution e dts' h' phi' old') r
    end.
End any.
