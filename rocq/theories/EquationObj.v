(** Discretised equations as objects (fvcc::Expression,
    finiteVolume/cellCentred/dsl/expression.hpp:25-190), among the operator and
    expression objects of a program. *)
From Verif Require Import Base Dict Registry Par Exec Value Kernel Mesh Coeff FV Sparsity Assembly Dsl DslSpec.

Section eqn.
  Context {V : Type} `{ValueType V} `{ValueUnit V} `{ValueTag V}.

  (** Members expr_ and ls_ = [values; rhs] (l.183-189).  The fields and
      dictionaries referred to, and the shared pattern, come with each call. *)
  Record eqnObj := EqnObj { eo_expr : expression; eo_ls : list (list V) }.

  (** l.29-42.  The expression is taken by value, and copied into the member;
      linearAlgebra/linearSystem.hpp:147-161 makes the zero system. *)
  Definition eqn_construct (cx : ctx V) (fvSchemes : dict) (e : expression) : M (V := V) eqnObj :=
    bind (copyE e) (fun arg =>
    bind (copyE arg) (fun x =>
    bind (expr_build cx fvSchemes x) (fun _ =>
    ret (EqnObj x [replicate (sp_nnz (cx_pattern cx)) vzero; replicate (length (sp_diagOffset (cx_pattern cx))) vzero])))).

  (** l.45-47 with linearSystem.hpp:54 *)
  Definition eqn_copy (o : eqnObj) : M (V := V) eqnObj :=
    bind (copyE (eo_expr o)) (fun x => ret (EqnObj x (eo_ls o))).

  (** solve(t, dt): l.132-156.  [linear]: what Solver(exec, fvSolution).solve does
      with the system (the result goes to psi). *)
  Definition eqn_solve {X : Type} (linear : list (list V) -> outcome X -> Prop) (o : eqnObj) (r : outcome unit) : Prop :=
    match ex_temporal (eo_expr o), ex_spatial (eo_expr o) with
    | [], [] => r = Exit                                                 (* l.136-139 *)
    | _ :: _, _ => r = Exit                                              (* l.140-142 *)
    | [], _ :: _ => rseq (linear (eo_ls o)) (fun _ r' => r' = Exit) r    (* l.151-154 *)
    end.

  (** ** Programs that use such objects.  The program's own operator objects and
      expressions, and its equation objects (None: destroyed, or the constructor
      threw). *)
  Record world := World {
    w_heap : heap V;
    w_ops : list operand;
    w_exprs : list expression;
    w_eqns : list (option eqnObj);
  }.
  Definition empty_world : world := World (Heap [] []) [] [] [].

  Definition operands (e : expression) : list operand := map OpT (ex_temporal e) ++ map OpS (ex_spatial e).
  (** The operator objects the program can reach: its own, and those in its own
      expressions (dsl/expression.hpp:127-140; expr_ of an equation object is
      private, without accessor). *)
  Definition reachable (w : world) : list operand := w_ops w ++ concat (map operands (w_exprs w)).
  (** The text names only objects the program can reach. *)
  Definition names_only (t : equation) (l : list operand) : Prop :=
    (forall p, p ∈ spatial_objects t -> OpS p ∈ l) /\ (forall p, p ∈ temporal_objects t -> OpT p ∈ l).

  Inductive wop :=
  | NewSpatial (o : spatialOp V)               (* an operator object is constructed             *)
  | NewTemporal (o : temporalOp)
  | ScaleOp (x : operand) (k : Qc)             (* x.getCoefficient() *= k                       *)
  | ScaleOpBy (x : operand) (c : Coeff)        (* x.getCoefficient() *= c, c a Coeff            *)
  | BuildOp (p : nat) (cx : ctx V) (d : dict)  (* x.build(d), dsl/spatialOperator.hpp           *)
  | MakeExpr (t : equation)                    (* auto e = t                                    *)
  | AddOp (i : nat) (x : operand)              (* e_i.addOperator(x)                            *)
  | AddExpr (i j : nat)                        (* e_i.addExpression(e_j), i and j different     *)
  | NewEqn (cx : ctx V) (d : dict) (t : equation)  (* Expression eq(t, psi, d, fvSolution)      *)
  | CopyEqn (j : nat)                          (* Expression eq(eq_j)                           *)
  | FreeEqn (j : nat)                          (* eq_j is destroyed                             *)
  | Assemble (j : nat) (cx : ctx V) (dt : Qc)  (* eq_j.assemble(t, dt), fields as in cx         *)
  | WriteSystem (j : nat) (ls : list (list V)).  (* coefficients changed through linearSystem()   *)

  Definition step_with {A} (m : M (V := V) A) (w : world) (k : A -> heap V -> world) (r : outcome world) : Prop :=
    match m (w_heap w) with
    | Ok (a, h) => r = Ok (k a h)
    | Throw x => r = Throw x | Exit => r = Exit | UB => r = UB
    end.
  Definition on_heap (w : world) (h : heap V) : world := World h (w_ops w) (w_exprs w) (w_eqns w).
  Definition push_op (w : world) (x : operand) (h : heap V) : world := World h (w_ops w ++ [x]) (w_exprs w) (w_eqns w).
  Definition push_expr (w : world) (e : expression) (h : heap V) : world := World h (w_ops w) (w_exprs w ++ [e]) (w_eqns w).
  Definition set_expr (w : world) (i : nat) (e : expression) (h : heap V) : world := World h (w_ops w) (<[i := e]> (w_exprs w)) (w_eqns w).
  Definition push_eqn (w : world) (o : option eqnObj) (h : heap V) : world := World h (w_ops w) (w_exprs w) (w_eqns w ++ [o]).
  Definition set_eqn (w : world) (j : nat) (o : option eqnObj) : world := World (w_heap w) (w_ops w) (w_exprs w) (<[j := o]> (w_eqns w)).

  (** One statement of the program.  Statements that name objects the program
      cannot reach, or equation objects that do not exist, are no programs.  A
      statement that ends abnormally ends the program, but an exception from the
      constructor of an equation is caught. *)
  Definition wstep (op : wop) (w : world) (r : outcome world) : Prop :=
    match op with
    | NewSpatial o => step_with (allocS o) w (fun p h => push_op w (OpS p) h) r
    | NewTemporal o => step_with (allocT o) w (fun p h => push_op w (OpT p) h) r
    | ScaleOp x k => x ∈ reachable w /\
        step_with (match x with OpS p => mulScalarS p k | OpT p => mulScalarT p k end) w (fun _ h => on_heap w h) r
    | ScaleOpBy x c => x ∈ reachable w /\
        step_with (match x with OpS p => mulCoeffS p c | OpT p => mulCoeffT p c end) w (fun _ h => on_heap w h) r
    | BuildOp p cx d => OpS p ∈ reachable w /\ step_with (buildS cx d [p]) w (fun _ h => on_heap w h) r
    | MakeExpr t => names_only t (reachable w) /\
        step_with (bind (eval_equation t) copyE) w (fun e h => push_expr w e h) r
    | AddOp i x => x ∈ reachable w /\ exists e, w_exprs w !! i = Some e /\
        step_with (addOperator e x) w (fun e' h => set_expr w i e' h) r
    | AddExpr i j => i <> j /\ exists e e2, w_exprs w !! i = Some e /\ w_exprs w !! j = Some e2 /\
        step_with (addExpression e e2) w (fun e' h => set_expr w i e' h) r
    | NewEqn cx d t => names_only t (reachable w) /\
        match bind (eval_equation t) (eqn_construct cx d) (w_heap w) with
        | Ok (o, h) => r = Ok (push_eqn w (Some o) h)
        | Throw _ => r = Ok (push_eqn w None (w_heap w))     (* the copies made so far are destroyed *)
        | Exit => r = Exit | UB => r = UB
        end
    | CopyEqn j => exists o, w_eqns w !! j = Some (Some o) /\ step_with (eqn_copy o) w (fun o' h => push_eqn w (Some o') h) r
    | FreeEqn j => exists o, w_eqns w !! j = Some (Some o) /\ r = Ok (set_eqn w j None)
    | Assemble j cx dt => exists o, w_eqns w !! j = Some (Some o) /\
        rseq (assemble cx (w_heap w) (eo_expr o) dt (eo_ls o))
          (fun ls r' => r' = Ok (set_eqn w j (Some (EqnObj (eo_expr o) ls)))) r
    | WriteSystem j ls => exists o, w_eqns w !! j = Some (Some o) /\ map length ls = map length (eo_ls o) /\
        r = Ok (set_eqn w j (Some (EqnObj (eo_expr o) ls)))
    end.

  (** The statements [ops], executed one after the other from [w], end normally in [w']. *)
  Inductive history : list wop -> world -> world -> Prop :=
  | history_nil w : history [] w w
  | history_cons op ops w w1 w2 : wstep op w (Ok w1) -> history ops w1 w2 -> history (op :: ops) w w2.

  (** linearSystem() of an equation object, as [values; rhs]. *)
  Definition system (w : world) (j : nat) : option (list (list V)) :=
    match w_eqns w !! j with Some (Some o) => Some (eo_ls o) | _ => None end.
End eqn.
Arguments eqnObj : clear implicits.
Arguments world : clear implicits.
Arguments wop : clear implicits.
