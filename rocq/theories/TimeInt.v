(** Time integration and dsl::solve, for VolumeField<scalar> (the only
    instantiation: src/timeIntegration/timeIntegration.cpp:14-16,
    rungeKutta.cpp:144).

    Not modelled: Kokkos::fence; the arithmetic of the linear solvers and of
    SUNDIALS, which are external (see [lin] and [erk_step]). *)
From Verif Require Import Base Dict Registry Par Exec Fields Value Kernel Mesh Coeff FV Sparsity Assembly AssemblyProps Boundary Dsl.

(** The solution field and its registered old-time field; None: oldTime() has
    not been called yet. *)
Record tstate := TState { ts_phi : volField Qc; ts_old : option (list Qc) }.
(** oldTime(field), core/database/oldTimeCollection.hpp: the registered field, at
    the first call a copy of the current one (see Database.v and C17). *)
Definition old_of (st : tstate) : list Qc := default (vf_int (ts_phi st)) (ts_old st).

(** Operators refer to the solution field (number [n]), so they see its current
    contents. *)
Definition at_state (cx : ctx Qc) (n : nat) (st : tstate) : ctx Qc :=
  Ctx (cx_exec cx) (cx_mesh cx) (cx_weights cx) (cx_dc cx) (cx_pattern cx) (cx_surf cx) (cx_surfV cx)
      (fun i => if decide (i = n) then ts_phi st else cx_vol cx i)
      (cx_coef cx)
      (fun i => if decide (i = n) then old_of st else cx_old cx i)
      (cx_surfName cx) (cx_volName cx).

(** Results of Field operations, by value. *)
Definition fop (p : Fields.field Qc -> outcome unit -> Prop) (r : outcome (list Qc)) : Prop :=
  exists c o, p c o /\
    r = match o with Ok _ => Ok (fdata c) | Throw x => Throw x | Exit => Exit | UB => UB end.

Section timeint.
  (** Debug build?  The context; the number of the solution field and its
      boundary conditions. *)
  Context (dbg : bool) (cx : ctx Qc) (n : nat) (bcs : list (patch * volBC Qc)).
  Notation F := (Fields.mkField (cx_exec cx)).

  (** ** include/NeoFOAM/timeIntegration/forwardEuler.hpp:36-56 *)
  Definition forwardEuler_solve (h : heap Qc) (eqn : expression) (dt : Qc) (st : tstate) (r : outcome tstate) : Prop :=
    rseq (explicitOperation_n (at_state cx n st) h eqn (length (vf_int (ts_phi st)))) (fun source =>  (* l.43 *)
    let old := old_of st in                                                                           (* l.44 *)
    rseq (fop (Fields.scale (F source) dt)) (fun sdt =>                                               (* l.47 *)
    rseq (fop (Fields.minus dbg (F old) (F sdt))) (fun new =>
    rseq (fop (Fields.assign_field (F (vf_int (ts_phi st))) (F new))) (fun int' =>
    rseq (lift (vol_correctBoundaryConditions (cx_exec cx) (cx_mesh cx) bcs (with_int (ts_phi st) int'))) (fun phi' =>   (* l.48 *)
    rseq (fop (Fields.assign_field (F old) (F (vf_int phi')))) (fun old' r' =>                        (* l.55 *)
      r' = Ok (TState phi' (Some old')))))))) r.

  (** ** Linear solvers: include/NeoFOAM/linearAlgebra/solver.hpp:14-66.
      [lin name dict pattern values rhs x0]: what the (external) solver of this
      name may return. *)
  Context (lin : string -> dict -> sparsity -> list Qc -> list Qc -> list Qc -> outcome (list Qc) -> Prop).
  (** linearAlgebra/ginkgo.hpp:38, petsc.hpp:65 *)
  Definition known_solver : list string := ["Ginkgo"; "Petsc"].
  Definition solver_create (d : dict) : outcome string := checked known_solver (get_string d "solver").   (* l.20-24 *)
  Definition solver_solve (d : dict) (p : sparsity) (ls : list (list Qc)) (x0 : list Qc) (r : outcome (list Qc)) : Prop :=
    match solver_create d, ls with
    | Ok name, [values; rhs] => lin name d p values rhs x0 r
    | Ok _, _ => r = UB                     (* not reachable: a system has two arrays *)
    | Throw x, _ => r = Throw x | Exit, _ => r = Exit | UB, _ => r = UB
    end.

  (** ** include/NeoFOAM/timeIntegration/backwardEuler.hpp:44-80; [solutionDict]:
      the dictionary the integrator was created with. *)
  Definition backwardEuler_solve (solutionDict : dict) (h : heap Qc) (eqn : expression) (dt : Qc) (st : tstate) (r : outcome tstate) : Prop :=
    rseq (explicitOperation_n (at_state cx n st) h eqn (length (vf_int (ts_phi st)))) (fun _ =>       (* l.51: unused *)
    let old := old_of st in                                                                           (* l.52 *)
    let cx' := at_state cx n st in
    rseq (sp_create (cx_exec cx) (cx_mesh cx)) (fun fresh =>                                          (* l.60 *)
    let ls0 := [replicate (sp_nnz fresh) 0%Qc; replicate (length (sp_diagOffset fresh)) 0%Qc] in      (* l.61-64 *)
    rseq (implicitOperation cx' h (sp_rowPtrs fresh) eqn ls0) (fun ls1 =>                             (* l.66 *)
    rseq (implicitOperation_dt cx' h (sp_rowPtrs fresh) eqn dt ls1) (fun ls2 =>                       (* l.69 *)
    rseq (solver_solve solutionDict fresh ls2 (vf_int (ts_phi st))) (fun x =>                         (* l.71-72 *)
    rseq (fop (Fields.assign_field (F old) (F x))) (fun old' r' =>                                    (* l.79 *)
      r' = Ok (TState (with_int (ts_phi st) x) (Some old')))))))) r.

  (** ** include/NeoFOAM/timeIntegration/sundials.hpp *)
  (** l.57-77.  In a build with MPI NF_ERROR_EXIT aborts too (error.hpp:100-115). *)
  Inductive erkTable := FORWARD_EULER_1_1 | HEUN_EULER_2_1_2 | EXPLICIT_MIDPOINT_EULER_2_1_2 | ERK_NONE.
  Definition stringToERKTable (key : string) : outcome erkTable :=
    if decide (key = "Forward-Euler") then Ok FORWARD_EULER_1_1
    else if decide (key = "Heun") then Exit
    else if decide (key = "Midpoint") then Exit
    else Exit.
  (** l.85-93 and 136-144: kernel copying [k] values into a view *)
  Definition view_copy (dst src : list Qc) (k : nat) (r : outcome (list Qc)) : Prop :=
    fop (Fields.kernel_on (F dst) (iterations 0 k (set_kernel (fun i => src !! i)))) r.
  Definition fieldToSunNVector (field vector : list Qc) := view_copy vector field (length field).
  Definition sunNVectorToField (vector field : list Qc) := view_copy field vector (length field).
  (** l.191-220: the right-hand side; [y] is only asked for its length. *)
  Definition explicitRKSolve (st : tstate) (h : heap Qc) (e : expression) (y ydot : list Qc) (r : outcome (list Qc)) : Prop :=
    rseq (explicitOperation_n (at_state cx n st) h e (length y)) (fun s =>
    rseq (fop (Fields.scale (F s) (- (1))%Qc)) (fun source =>
    fieldToSunNVector source ydot)) r.

  (** One internal step of ARKODE with the forward Euler table, fixed step [dt]:
      external; its documented effect. *)
  Definition erk_step (yn ydot : list Qc) (dt : Qc) : list Qc := zip_with (fun y d => y + dt * d)%Qc yn ydot.

  (** ** include/NeoFOAM/timeIntegration/rungeKutta.hpp, src/timeIntegration/rungeKutta.cpp *)
  (** What the integrator keeps once initialised: its copy of the expression and
      ARKODE's internal solution and time. *)
  Record rkState := RkState { rk_expr : expression; rk_yn : list Qc; rk_tn : Qc }.
  (** l.63-75, 119-141 initSUNERKSolver; [junk]: the new vectors are
      uninitialised.  The arguments of ERKStepCreate are copied by ARKODE. *)
  Definition rk_init (schemeDict : dict) (h : heap Qc) (exp : expression) (old : list Qc) (t : Qc)
    (r : outcome (rkState * heap Qc)) : Prop :=
    match copyE exp h with                                                   (* l.77-81 *)
    | Ok (e, h') =>
        exists junk, length junk = length old /\
        rseq (fieldToSunNVector old junk) (fun ic r' =>                      (* l.110-117 *)
          r' = match get_string schemeDict "Runge-Kutta-Method" with         (* l.134-139 *)
               | Ok key => match stringToERKTable key with
                           | Ok _ => Ok (RkState e ic t, h')
                           | Throw x => Throw x | Exit => Exit | UB => UB
                           end
               | Throw x => Throw x | Exit => Exit | UB => UB
               end) r
    | Throw x => r = Throw x | Exit => r = Exit | UB => r = UB
    end.
  (** l.31-55.  A step of length 0 switches ARKODE to adaptive steps, about
      which nothing is said here.  Writing the old field to solution_ (l.40) has
      no effect on the step: ARKODE continues from its own copy and overwrites
      solution_ (l.46). *)
  Definition rungeKutta_solve (schemeDict : dict) (self : option rkState) (h : heap Qc) (exp : expression)
    (t dt : Qc) (st : tstate) (r : outcome (rkState * heap Qc * tstate)) : Prop :=
    let old := old_of st in                                                                      (* l.38 *)
    rseq (fun r' => match self with
                    | Some s => r' = Ok (s, h)
                    | None => rk_init schemeDict h exp old t r'
                    end) (fun '(s, h') r0 =>                                                     (* l.39 *)
    exists solution0, length solution0 = length (rk_yn s) /\
    rseq (fieldToSunNVector old solution0) (fun _ r' =>                                          (* l.40 *)
    (dt = 0%Qc) \/
    exists ydot0, length ydot0 = length (rk_yn s) /\
    rseq (explicitRKSolve st h' (rk_expr s) (rk_yn s) ydot0) (fun ydot r'' =>                    (* l.44-46 *)
    let y := erk_step (rk_yn s) ydot dt in
    if decide (t + dt = rk_tn s + dt)%Qc then                                                    (* l.50 *)
      rseq (sunNVectorToField y (vf_int (ts_phi st))) (fun int' =>                               (* l.53 *)
      rseq (fop (Fields.assign_field (F old) (F int'))) (fun old' r3 =>                          (* l.54 *)
        r3 = Ok (RkState (rk_expr s) y (rk_tn s + dt)%Qc, h', TState (with_int (ts_phi st) int') (Some old')))) r''
    else r'' = Exit) r') r0) r.

  (** ** include/NeoFOAM/timeIntegration/timeIntegration.hpp:74-83: a new
      integrator selected by name, and one step. *)
  (** forwardEuler.hpp:30, backwardEuler.hpp:38, rungeKutta.hpp:103; the last is
      registered in builds with SUNDIALS, assumed here. *)
  Definition known_integrator : list string := ["forwardEuler"; "backwardEuler"; "Runge-Kutta"].
  Definition timeIntegration_solve (schemeDict solutionDict : dict) (h : heap Qc) (eqn : expression) (t dt : Qc)
    (st : tstate) (r : outcome (heap Qc * tstate)) : Prop :=
    match checked known_integrator (get_string schemeDict "type") with
    | Ok name =>
        if decide (name = "forwardEuler") then
          rseq (forwardEuler_solve h eqn dt st) (fun st' r' => r' = Ok (h, st')) r
        else if decide (name = "backwardEuler") then
          rseq (backwardEuler_solve solutionDict h eqn dt st) (fun st' r' => r' = Ok (h, st')) r
        else
          rseq (rungeKutta_solve schemeDict None h eqn t dt st) (fun '(_, h2, st2) r' => r' = Ok (h2, st2)) r
    | Throw x => r = Throw x | Exit => r = Exit | UB => r = UB
    end.

  (** ** include/NeoFOAM/dsl/solver.hpp:38-87 *)
  Definition dsl_solve (fvSchemes fvSolution : dict) (h : heap Qc) (exp : expression) (t dt : Qc)
    (st : tstate) (r : outcome (heap Qc * tstate)) : Prop :=
    match ex_temporal exp, ex_spatial exp with
    | [], [] => r = Exit                                                                   (* l.48-51 *)
    | _, _ =>
        rseq (fun r' => r' = expr_build (at_state cx n st) fvSchemes exp h) (fun '(_, h') => (* l.52 *)
        match ex_temporal exp with
        | _ :: _ =>
            rseq (fun r' => r' = dict_subDict fvSchemes "ddtSchemes") (fun schemeDict =>   (* l.56-59 *)
            timeIntegration_solve schemeDict fvSchemes h' exp t dt st)
        | [] =>
            rseq (sp_create (cx_exec cx) (cx_mesh cx)) (fun fresh =>                       (* l.66 *)
            rseq (solve_system (at_state cx n st) h' exp fresh) (fun ls =>                 (* l.67-82 *)
            rseq (solver_solve fvSolution fresh ls (vf_int (ts_phi st))) (fun x r' =>      (* l.84-85 *)
              r' = Ok (h', TState (with_int (ts_phi st) x) (ts_old st)))))
        end) r
    end.
End timeint.
