(** Time integrators and linear solvers as objects: construction, copying, moving,
    destruction and use.
    Models include/NeoFOAM/timeIntegration/timeIntegration.hpp:20-90 (base class,
    TimeIntegration), the clone functions forwardEuler.hpp:58-61,
    backwardEuler.hpp:82-85 and src/timeIntegration/rungeKutta.cpp:9-28, 57-61, and
    include/NeoFOAM/linearAlgebra/solver.hpp:14-70 with ginkgo.hpp:65-69 and
    petsc.hpp:71-75.

    Not modelled: the vectors and the ARKODE memory of an integrator beyond
    TimeInt.v's [rkState]; what gko::config::parse (external) makes of a parsed
    configuration; a null std::unique_ptr given to the second constructor of
    Solver (solver.hpp:54-55); what an integrator or solver does after a call of
    solve that threw (a Runge-Kutta integrator then keeps pdeExpr_ and skips the
    initialisation). *)
From Verif Require Import Base Dict Registry Par Exec Fields Value Kernel Mesh Coeff FV Sparsity Assembly AssemblyProps Boundary Dsl TimeInt Ginkgo.

(** The three integrators.  The Euler classes have no members of their own;
    rungeKutta.hpp:147-148: [None] while pdeExpr_ is null. *)
Inductive strategy := ForwardEuler | BackwardEuler | RungeKutta (self : option rkState).
(** timeIntegration.hpp:46-49, 86: the strategy ([None]: a null pointer), which holds
    *references* to two dictionaries. *)
Record integrator := Integrator { ti_scheme : nat; ti_solution : nat; ti_strategy : option strategy }.
(** The concrete solvers keep what they need by value (ginkgo.hpp:30-36, 73-75;
    petsc.hpp:35, 50). *)
Record solverInstance := SolverInstance { sv_name : string; sv_dict : dict }.
(** solver.hpp:67-68; [None]: a null pointer. *)
Definition solverObj := option solverInstance.

(** Dictionaries, integrators and solvers alive ([None]: destroyed), the operators
    and the solution field. *)
Record tiWorld := TiWorld {
  tw_dicts : list (option dict);
  tw_integs : list (option integrator);
  tw_solvers : list (option solverObj);
  tw_heap : heap Qc;
  tw_phi : tstate;
}.
Definition dict_alive (w : tiWorld) (k : nat) : option dict := mjoin (tw_dicts w !! k).
Definition integ_at (w : tiWorld) (i : nat) : option integrator := mjoin (tw_integs w !! i).
Definition solver_at (w : tiWorld) (s : nat) : option solverObj := mjoin (tw_solvers w !! s).
Definition set_dicts (w : tiWorld) l := TiWorld l (tw_integs w) (tw_solvers w) (tw_heap w) (tw_phi w).
Definition set_integs (w : tiWorld) l := TiWorld (tw_dicts w) l (tw_solvers w) (tw_heap w) (tw_phi w).
Definition set_solvers (w : tiWorld) l := TiWorld (tw_dicts w) (tw_integs w) l (tw_heap w) (tw_phi w).
Definition set_run (w : tiWorld) h st := TiWorld (tw_dicts w) (tw_integs w) (tw_solvers w) h st.

(** What a program does.  [ISolve i e t dt]: integrator [i] advances the solution
    field by one step of equation [e]; [SSolve s p values rhs x]: solver [s] solves a
    system, starting from and overwriting the solution field's values. *)
Inductive tiOp :=
| DNew (d : dict) | DSet (k : nat) (d : dict) | DFree (k : nat)
| INew (scheme solution : nat) | ICopy (i : nat) | IMove (i : nat) | IFree (i : nat)
| ISolve (i : nat) (e : expression) (t dt : Qc)
| SNew (k : nat) | SCopy (s : nat) | SMove (s : nat) | SFree (s : nat)
| SSolve (s : nat) (p : sparsity) (values rhs : list Qc)
| FSet (st : tstate).

Section integrators.
  Context (cstr : nat -> string) (flt : nat -> Qc).
  Context (dbg : bool) (cx : ctx Qc) (n : nat) (bcs : list (patch * volBC Qc)).
  Context (lin : string -> dict -> sparsity -> list Qc -> list Qc -> list Qc -> outcome (list Qc) -> Prop).

  (** timeIntegration.hpp:74-77 with the constructors of the three classes. *)
  Definition integ_new (w : tiWorld) (s d : nat) : outcome tiWorld :=
    match dict_alive w s with
    | None => UB
    | Some sd =>
        let! name := checked known_integrator (get_string sd "type") in
        Ok (set_integs w (tw_integs w ++
          [Some (Integrator s d (Some (if decide (name = "forwardEuler") then ForwardEuler
                                       else if decide (name = "backwardEuler") then BackwardEuler
                                       else RungeKutta None)))]))
    end.
  (** The clone functions.  rungeKutta.cpp:9-22: the copy's context_ is null
      (rungeKutta.hpp:141-143; it is missing from the initialisers) when initODEMemory
      dereferences it (125-130); in a debug build NF_DEBUG_ASSERT (122) ends the program
      before. *)
  Definition strategy_clone (s : strategy) : outcome strategy :=
    match s with
    | ForwardEuler => Ok ForwardEuler
    | BackwardEuler => Ok BackwardEuler
    | RungeKutta _ => if dbg then Exit else UB
    end.
  (** timeIntegration.hpp:68-69: dereferences the pointer. *)
  Definition integ_copy (w : tiWorld) (i : nat) : outcome tiWorld :=
    match integ_at w i with
    | Some (Integrator s d (Some st)) =>
        let! st' := strategy_clone st in
        Ok (set_integs w (tw_integs w ++ [Some (Integrator s d (Some st'))]))
    | _ => UB
    end.
  (** timeIntegration.hpp:71-72 *)
  Definition integ_move (w : tiWorld) (i : nat) : outcome tiWorld :=
    match integ_at w i with
    | Some x => Ok (set_integs w (<[i := Some (Integrator (ti_scheme x) (ti_solution x) None)]> (tw_integs w) ++ [Some x]))
    | None => UB
    end.
  (** timeIntegration.hpp:79-82.  backwardEuler.hpp:71 and rungeKutta.cpp:134-139
      read through the references; if that dictionary is gone the whole call counts
      as undefined (the read comes after parts of the step). *)
  Definition integ_solve (w : tiWorld) (i : nat) (e : expression) (t dt : Qc) (r : outcome tiWorld) : Prop :=
    match integ_at w i with
    | Some (Integrator s d (Some ForwardEuler)) =>
        rseq (forwardEuler_solve dbg cx n bcs (tw_heap w) e dt (tw_phi w)) (fun st' r' => r' = Ok (set_run w (tw_heap w) st')) r
    | Some (Integrator s d (Some BackwardEuler)) =>
        match dict_alive w d with
        | Some sol => rseq (backwardEuler_solve cx n lin sol (tw_heap w) e dt (tw_phi w)) (fun st' r' => r' = Ok (set_run w (tw_heap w) st')) r
        | None => r = UB
        end
    | Some (Integrator s d (Some (RungeKutta self))) =>
        match self, dict_alive w s with
        | None, None => r = UB
        | _, sd =>
            rseq (rungeKutta_solve cx n (default [] sd) self (tw_heap w) e t dt (tw_phi w)) (fun '(self', h', st') r' =>
              r' = Ok (set_integs (set_run w h' st') (<[i := Some (Integrator s d (Some (RungeKutta (Some self'))))]> (tw_integs w)))) r
        end
    | _ => r = UB
    end.

  (** solver.hpp:57-58, 20-25; ginkgo.hpp:30-36 parses the dictionary, which may throw *)
  Definition lsolver_new (w : tiWorld) (k : nat) : outcome tiWorld :=
    match dict_alive w k with
    | None => UB
    | Some d =>
        let! name := solver_create d in
        let! _ := (if decide (name = "Ginkgo") then let! _ := parse cstr flt d in Ok tt else Ok tt) in
        Ok (set_solvers w (tw_solvers w ++ [Some (Some (SolverInstance name d))]))
    end.
  (** solver.hpp:48-49: clone() of both solvers returns a null pointer
      (ginkgo.hpp:65-69, petsc.hpp:71-75). *)
  Definition lsolver_copy (w : tiWorld) (s : nat) : outcome tiWorld :=
    match solver_at w s with
    | Some (Some _) => Ok (set_solvers w (tw_solvers w ++ [Some None]))
    | _ => UB
    end.
  (** solver.hpp:51-52 *)
  Definition lsolver_move (w : tiWorld) (s : nat) : outcome tiWorld :=
    match solver_at w s with
    | Some x => Ok (set_solvers w (<[s := Some None]> (tw_solvers w) ++ [Some x]))
    | None => UB
    end.
  (** solver.hpp:60-63 *)
  Definition lsolver_solve (w : tiWorld) (s : nat) (p : sparsity) (values rhs : list Qc) (r : outcome tiWorld) : Prop :=
    match solver_at w s with
    | Some (Some x) =>
        rseq (lin (sv_name x) (sv_dict x) p values rhs (vf_int (ts_phi (tw_phi w)))) (fun y r' =>
          r' = Ok (set_run w (tw_heap w) (TState (with_int (ts_phi (tw_phi w)) y) (ts_old (tw_phi w))))) r
    | _ => r = UB
    end.

  Definition if_alive {A} (o : option A) (w : tiWorld) : outcome tiWorld := match o with Some _ => Ok w | None => UB end.
  Definition tstep (w : tiWorld) (o : tiOp) (r : outcome tiWorld) : Prop :=
    match o with
    | DNew d => r = Ok (set_dicts w (tw_dicts w ++ [Some d]))
    | DSet k d => r = if_alive (dict_alive w k) (set_dicts w (<[k := Some d]> (tw_dicts w)))
    | DFree k => r = if_alive (dict_alive w k) (set_dicts w (<[k := None]> (tw_dicts w)))
    | INew s d => r = integ_new w s d
    | ICopy i => r = integ_copy w i
    | IMove i => r = integ_move w i
    | IFree i => r = if_alive (integ_at w i) (set_integs w (<[i := None]> (tw_integs w)))
    | ISolve i e t dt => integ_solve w i e t dt r
    | SNew k => r = lsolver_new w k
    | SCopy s => r = lsolver_copy w s
    | SMove s => r = lsolver_move w s
    | SFree s => r = if_alive (solver_at w s) (set_solvers w (<[s := None]> (tw_solvers w)))
    | SSolve s p values rhs => lsolver_solve w s p values rhs r
    | FSet st => r = Ok (set_run w (tw_heap w) st)
    end.
  (** A program: the operations that succeeded, one after the other. *)
  Inductive thistory : tiWorld -> list tiOp -> tiWorld -> Prop :=
  | th_nil w : thistory w [] w
  | th_cons w o w1 ops w2 : tstep w o (Ok w1) -> thistory w1 ops w2 -> thistory w (o :: ops) w2.
End integrators.
