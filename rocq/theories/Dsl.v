(** The equation language: type-erased operators, expressions, evaluation,
    assembly (include/NeoFOAM/dsl/, finiteVolume/cellCentred/dsl/expression.hpp).

    Operators live on a heap, as the unique_ptr's of SpatialOperator and
    TemporalOperator do; copies allocate.  Objects are never freed in the model
    (destruction of temporaries is not observable). *)
From Verif Require Import Base Dict Registry Par Exec Value Kernel Mesh Coeff FV Sparsity Assembly.

(** Which instantiation of a class template: <scalar> or <Vector>. *)
Inductive vty := VScalar | VVector.
Global Instance vty_eq_dec : EqDecision vty.
Proof. solve_decision. Defined.
Class ValueTag (V : Type) := vtag : vty.
Global Instance Qc_tag : ValueTag Qc := VScalar.
Global Instance vec_tag : ValueTag vec := VVector.

(** What the compile-time tests of the type erasure see of an operator class T:
    T::FieldValueType, the element type of the Field taken by
    explicitOperation(Field<..>&) and that of the LinearSystem taken by
    implicitOperation(LinearSystem<..>&); None = no such member. *)
Record opClass := OpClass {
  cl_fieldValueType : option vty;
  cl_explicit : option vty;
  cl_implicit : option vty;
}.
Definition member_fits (fvt param : option vty) : bool :=
  match fvt, param with Some a, Some b => bool_decide (a = b) | _, _ => false end.
(** dsl/spatialOperator.hpp:20-26 and temporalOperator.hpp:18-27 *)
Definition HasExplicitOperator (c : opClass) : bool := member_fits (cl_fieldValueType c) (cl_explicit c).
(** dsl/spatialOperator.hpp:28-34 and temporalOperator.hpp:29-38 *)
Definition HasImplicitOperator (c : opClass) : bool := member_fits (cl_fieldValueType c) (cl_implicit c).

(** dsl/operator.hpp:11-20 Operator::Type *)
Inductive opType := Implicit | Explicit.
Global Instance opType_eq_dec : EqDecision opType.
Proof. solve_decision. Defined.

Definition of_opt {A} (o : option A) : outcome A := match o with Some a => Ok a | None => UB end.

(** Sequencing of nondeterministic computations ending in an outcome. *)
Definition rseq {A B} (p : outcome A -> Prop) (k : A -> outcome B -> Prop) (r : outcome B) : Prop :=
  (exists a, p (Ok a) /\ k a r) \/ (exists x, p (Throw x) /\ r = Throw x) \/
  (p Exit /\ r = Exit) \/ (p UB /\ r = UB).
(** A computation modelled with [option] (None = undefined behaviour). *)
Definition lift {A} (p : option A -> Prop) (r : outcome A) : Prop := exists o, p o /\ r = of_opt o.

Section dsl.
  Context {V : Type} `{ValueType V} `{ValueUnit V} `{ValueTag V}.
  Notation mem := (list (list V)).

  (** Everything an operator reads besides its own members: executor, mesh,
      geometry (weights, nonOrthDeltaCoeffs) and the sparsity pattern cached in the
      mesh (SparsityPattern::readOrCreate), and the fields it refers to, by number. *)
  Record ctx := Ctx {
    cx_exec : executor;
    cx_mesh : mesh;
    cx_weights : list Qc;
    cx_dc : list Qc;
    cx_pattern : sparsity;
    cx_surf : nat -> list Qc;        (* SurfaceField<scalar>: values            *)
    cx_surfV : nat -> list V;        (* SurfaceField<ValueType>: values         *)
    cx_vol : nat -> volField V;      (* VolumeField<ValueType>                  *)
    cx_coef : nat -> list Qc;        (* VolumeField<scalar>: internal values    *)
    cx_old : nat -> list V;          (* oldTime(field).internalField()          *)
    cx_surfName : nat -> string;
    cx_volName : nat -> string;
  }.

  (** A user-defined operator class (as in test/dsl/common.hpp:22-88). *)
  Record userOp := UserOp {
    u_class : opClass;
    u_explicit : ctx -> Coeff -> list V -> outcome (list V) -> Prop;
    u_implicit : ctx -> list nat -> Coeff -> mem -> outcome mem -> Prop;
  }.

  (** The concrete spatial operators; [strategy]/[built] is None/false until
      build() has run. *)
  Inductive spatialKind :=
  | DivOperator (flux phi : nat) (strategy : option interpScheme)  (* divOperator.hpp:82-195        *)
  | LaplacianOperator (gamma phi : nat) (built : bool)             (* laplacianOperator.hpp:78-183  *)
  | SurfaceIntegrate (flux : nat)                                  (* surfaceIntegrate.hpp:30-86    *)
  | SourceTerm (coefficients phi : nat)                            (* sourceTerm.hpp:18-42          *)
  | UserOperator (u : userOp).

  (** type_ and coeffs_: dsl/operator.hpp:27-64 *)
  Record spatialOp := SpatialOp { so_kind : spatialKind; so_type : opType; so_coeff : Coeff }.
  (** fvcc::DdtOperator: ddtOperator.hpp:18-39 *)
  Record temporalOp := TemporalOp { to_phi : nat; to_type : opType; to_coeff : Coeff }.

  (** FieldValueType and signatures: divOperator.hpp:88, 129, 144;
      laplacianOperator.hpp:84, 124, 133; surfaceIntegrate.hpp:36, 48;
      sourceTerm.hpp:19-34 (no FieldValueType); ddtOperator.hpp:24-30. *)
  Definition class_of (k : spatialKind) : opClass :=
    match k with
    | DivOperator _ _ _ => OpClass (Some vtag) (Some VScalar) (Some vtag)
    | LaplacianOperator _ _ _ => OpClass (Some vtag) (Some vtag) (Some vtag)
    | SurfaceIntegrate _ => OpClass (Some vtag) (Some vtag) None
    | SourceTerm _ _ => OpClass None (Some vtag) (Some vtag)
    | UserOperator u => u_class u
    end.
  Definition ddt_class : opClass := OpClass (Some vtag) (Some vtag) (Some vtag).

  (** The concrete explicitOperation.  [junk]: contents of the uninitialised face
      field the operator allocates. *)
  Definition concrete_explicit (cx : ctx) (o : spatialOp) (source : list V) (r : outcome (list V)) : Prop :=
    match so_kind o with
    | DivOperator flux phi None => r = Exit                                 (* divOperator.hpp:131 *)
    | DivOperator flux phi (Some s) =>
        exists junk, length junk = nFaces (cx_mesh cx) /\
        lift (div_explicitOperation (cx_exec cx) (cx_mesh cx) (cx_surf cx flux) (cx_vol cx phi) s
                (cx_weights cx) junk (so_coeff o) source) r
    | LaplacianOperator gamma phi false => r = Exit                         (* laplacianOperator.hpp:126 *)
    | LaplacianOperator gamma phi true =>
        exists junk, length junk = nFaces (cx_mesh cx) /\
        lift (laplacian_explicitOperation (cx_exec cx) (cx_mesh cx) (cx_dc cx) (cx_surf cx gamma)
                (cx_vol cx phi) junk (so_coeff o) source) r
    | SurfaceIntegrate flux =>
        lift (surfaceIntegrate_explicitOperation (cx_exec cx) (cx_mesh cx) (cx_surfV cx flux)
                (so_coeff o) source) r
    | SourceTerm coef phi =>
        exists o', source_explicit (cx_exec cx) (so_coeff o) (cx_coef cx coef) (vf_int (cx_vol cx phi)) source o' /\
          r = match o' with Some [s] => Ok s | _ => UB end
    | UserOperator u => u_explicit u cx (so_coeff o) source r
    end.

  (** The concrete implicitOperation on the system [values; rhs] whose matrix has
      row offsets [rowOffs]. *)
  Definition concrete_implicit (cx : ctx) (rowOffs : list nat) (o : spatialOp) (ls : mem) (r : outcome mem) : Prop :=
    match so_kind o with
    | DivOperator flux phi None => r = Exit
    | DivOperator flux phi (Some s) =>
        lift (computeDivImp (cx_exec cx) (cx_mesh cx) (cx_pattern cx) rowOffs (cx_surf cx flux)
                (cx_vol cx phi) (so_coeff o) ls) r
    | LaplacianOperator gamma phi false => r = Exit
    | LaplacianOperator gamma phi true =>
        lift (computeLaplacianImpl (cx_exec cx) (cx_mesh cx) (cx_pattern cx) rowOffs (cx_dc cx)
                (cx_surf cx gamma) (cx_vol cx phi) (so_coeff o) ls) r
    | SurfaceIntegrate _ => r = Ok ls                  (* has no implicitOperation; never called *)
    | SourceTerm coef phi =>
        lift (source_implicit (cx_exec cx) (cx_mesh cx) (cx_pattern cx) rowOffs (so_coeff o)
                (cx_coef cx coef) ls) r
    | UserOperator u => u_implicit u cx rowOffs (so_coeff o) ls r
    end.

  (** spatialOperator.hpp:74, 143-149: OperatorModel::explicitOperation *)
  Definition spatial_explicit (cx : ctx) (o : spatialOp) (source : list V) (r : outcome (list V)) : Prop :=
    if HasExplicitOperator (class_of (so_kind o)) then concrete_explicit cx o source r
    else r = Ok source.
  (** spatialOperator.hpp:76-79, 151-157 *)
  Definition spatial_implicit (cx : ctx) (rowOffs : list nat) (o : spatialOp) (ls : mem) (r : outcome mem) : Prop :=
    if HasImplicitOperator (class_of (so_kind o)) then concrete_implicit cx rowOffs o ls r
    else r = Ok ls.
  (** temporalOperator.hpp:144-150 with ddtOperator.cpp:17-31 *)
  Definition temporal_explicit (cx : ctx) (dt : Qc) (o : temporalOp) (source : list V) (r : outcome (list V)) : Prop :=
    if HasExplicitOperator ddt_class then
      exists o', ddt_explicit (cx_exec cx) (cx_mesh cx) (to_coeff o) dt (vf_int (cx_vol cx (to_phi o)))
                   (cx_old cx (to_phi o)) source o' /\
        r = match o' with Some [s] => Ok s | _ => UB end
    else r = Ok source.
  (** temporalOperator.hpp:152-159 with ddtOperator.cpp:33-55 *)
  Definition temporal_implicit (cx : ctx) (rowOffs : list nat) (dt : Qc) (o : temporalOp) (ls : mem) (r : outcome mem) : Prop :=
    if HasImplicitOperator ddt_class then
      lift (ddt_implicit (cx_exec cx) (cx_mesh cx) (cx_pattern cx) rowOffs (to_coeff o) dt
              (cx_old cx (to_phi o)) ls) r
    else r = Ok ls.

  (** ** Heap of operator models *)
  Record heap := Heap { h_spatial : list spatialOp; h_temporal : list temporalOp }.
  Definition M (A : Type) := heap -> outcome (A * heap).
  Definition ret {A} (a : A) : M A := fun h => Ok (a, h).
  Definition bind {A B} (m : M A) (k : A -> M B) : M B := fun h =>
    match m h with
    | Ok (a, h') => k a h'
    | Throw x => Throw x | Exit => Exit | UB => UB
    end.

  Definition allocS (o : spatialOp) : M nat := fun h =>
    Ok (length (h_spatial h), Heap (h_spatial h ++ [o]) (h_temporal h)).
  Definition readS (p : nat) : M spatialOp := fun h =>
    match h_spatial h !! p with Some o => Ok (o, h) | None => UB end.
  Definition writeS (p : nat) (o : spatialOp) : M unit := fun h =>
    Ok (tt, Heap (<[p := o]> (h_spatial h)) (h_temporal h)).
  Definition allocT (o : temporalOp) : M nat := fun h =>
    Ok (length (h_temporal h), Heap (h_spatial h) (h_temporal h ++ [o])).
  Definition readT (p : nat) : M temporalOp := fun h =>
    match h_temporal h !! p with Some o => Ok (o, h) | None => UB end.
  Definition writeT (p : nat) (o : temporalOp) : M unit := fun h =>
    Ok (tt, Heap (h_spatial h) (<[p := o]> (h_temporal h))).

  (** Copy construction: spatialOperator.hpp:64 with clone() l.174-178 and the
      copy constructors divOperator.hpp:90-98 (the strategy is cloned),
      laplacianOperator.hpp:86-94, surfaceIntegrate.hpp:41-43. *)
  Definition clone_spatial (o : spatialOp) : spatialOp :=
    SpatialOp
      (match so_kind o with
       | DivOperator f p s => DivOperator f p (match s with Some x => Some x | None => None end)
       | LaplacianOperator g p b => LaplacianOperator g p (if b then true else false)
       | SurfaceIntegrate f => SurfaceIntegrate f
       | SourceTerm c p => SourceTerm c p
       | UserOperator u => UserOperator u
       end)
      (so_type o) (so_coeff o).
  Definition copyS (p : nat) : M nat := bind (readS p) (fun o => allocS (clone_spatial o)).
  (** temporalOperator.hpp:66 *)
  Definition copyT (p : nat) : M nat := bind (readT p) (fun o => allocT (TemporalOp (to_phi o) (to_type o) (to_coeff o))).

  (** [result.getCoefficient() *= c], c a Coeff or (below) a scalar. *)
  Definition mulCoeffS (p : nat) (c : Coeff) : M unit :=
    bind (readS p) (fun o =>
    match coeff_mul_assign (so_coeff o) c with
    | Ok c' => writeS p (SpatialOp (so_kind o) (so_type o) c')
    | Throw x => fun _ => Throw x | Exit => fun _ => Exit | UB => fun _ => UB
    end).
  Definition mulScalarS (p : nat) (k : Qc) : M unit :=
    bind (readS p) (fun o => writeS p (SpatialOp (so_kind o) (so_type o) (coeff_mul_scalar (so_coeff o) k))).
  Definition mulCoeffT (p : nat) (c : Coeff) : M unit :=
    bind (readT p) (fun o =>
    match coeff_mul_assign (to_coeff o) c with
    | Ok c' => writeT p (TemporalOp (to_phi o) (to_type o) c')
    | Throw x => fun _ => Throw x | Exit => fun _ => Exit | UB => fun _ => UB
    end).
  Definition mulScalarT (p : nat) (k : Qc) : M unit :=
    bind (readT p) (fun o => writeT p (TemporalOp (to_phi o) (to_type o) (coeff_mul_scalar (to_coeff o) k))).

  (** spatialOperator.hpp:187-210: the argument is passed by value (one copy),
      [result = rhs] makes another. *)
  Definition scalar_times_S (k : Qc) (p : nat) : M nat :=
    bind (copyS p) (fun rhs => bind (copyS rhs) (fun result =>
    bind (mulScalarS result k) (fun _ => ret result))).
  Definition field_times_S (f : list Qc) (p : nat) : M nat :=
    bind (copyS p) (fun rhs => bind (copyS rhs) (fun result =>
    bind (mulCoeffS result (coeff_field f)) (fun _ => ret result))).
  Definition coeff_times_S (c : Coeff) (p : nat) : M nat :=
    bind (copyS p) (fun rhs => bind (copyS rhs) (fun result =>
    bind (mulCoeffS result c) (fun _ => ret result))).
  (** temporalOperator.hpp:189-212 *)
  Definition scalar_times_T (k : Qc) (p : nat) : M nat :=
    bind (copyT p) (fun rhs => bind (copyT rhs) (fun result =>
    bind (mulScalarT result k) (fun _ => ret result))).
  Definition field_times_T (f : list Qc) (p : nat) : M nat :=
    bind (copyT p) (fun rhs => bind (copyT rhs) (fun result =>
    bind (mulCoeffT result (coeff_field f)) (fun _ => ret result))).
  Definition coeff_times_T (c : Coeff) (p : nat) : M nat :=
    bind (copyT p) (fun rhs => bind (copyT rhs) (fun result =>
    bind (mulCoeffT result c) (fun _ => ret result))).

  (** ** Expression (dsl/expression.hpp:22-149): pointers to its operators.  The
      executor member is left out. *)
  Record expression := Expression { ex_temporal : list nat; ex_spatial : list nat }.
  Definition empty_expression : expression := Expression [] [].         (* l.27 *)

  Fixpoint mapM_ {A B} (f : A -> M B) (l : list A) : M (list B) :=
    match l with
    | [] => ret []
    | x :: l' => bind (f x) (fun y => bind (mapM_ f l') (fun ys => ret (y :: ys)))
    end.
  (** l.29-32: the vectors are copied, element by element *)
  Definition copyE (e : expression) : M expression :=
    bind (mapM_ copyT (ex_temporal e)) (fun ts => bind (mapM_ copyS (ex_spatial e)) (fun ss =>
    ret (Expression ts ss))).
  (** l.103-108 *)
  Definition addOperatorS (e : expression) (p : nat) : M expression :=
    bind (copyS p) (fun q => ret (Expression (ex_temporal e) (ex_spatial e ++ [q]))).
  Definition addOperatorT (e : expression) (p : nat) : M expression :=
    bind (copyT p) (fun q => ret (Expression (ex_temporal e ++ [q]) (ex_spatial e))).
  (** l.110-120 *)
  Definition addExpression (e equation : expression) : M expression :=
    bind (mapM_ copyT (ex_temporal equation)) (fun ts => bind (mapM_ copyS (ex_spatial equation)) (fun ss =>
    ret (Expression (ex_temporal e ++ ts) (ex_spatial e ++ ss)))).

  (** An operator object of either kind. *)
  Inductive operand := OpS (p : nat) | OpT (p : nat).
  Definition copyO (o : operand) : M operand :=
    match o with OpS p => bind (copyS p) (fun q => ret (OpS q)) | OpT p => bind (copyT p) (fun q => ret (OpT q)) end.
  Definition addOperator (e : expression) (o : operand) : M expression :=
    match o with OpS p => addOperatorS e p | OpT p => addOperatorT e p end.
  Definition coeff_times (c : Coeff) (o : operand) : M operand :=
    match o with
    | OpS p => bind (coeff_times_S c p) (fun q => ret (OpS q))
    | OpT p => bind (coeff_times_T c p) (fun q => ret (OpT q))
    end.

  (** l.152-158 Expression + Expression *)
  Definition expr_plus (lhs rhs : expression) : M expression :=
    bind (copyE lhs) (fun l => addExpression l rhs).
  (** l.160-166 Expression + SpatialOperator *)
  Definition expr_plus_op (lhs : expression) (rhs : nat) : M expression :=
    bind (copyE lhs) (fun l => addOperatorS l rhs).
  (** l.168-177 operator + operator (both by value) *)
  Definition op_plus_op (lhs rhs : operand) : M expression :=
    bind (copyO lhs) (fun l => bind (copyO rhs) (fun r =>
    bind (addOperator empty_expression l) (fun e => addOperator e r))).
  (** l.179-192 scalar * Expression *)
  Fixpoint scaled_T (k : Qc) (l : list nat) (e : expression) : M expression :=
    match l with
    | [] => ret e
    | p :: l' => bind (scalar_times_T k p) (fun q => bind (addOperatorT e q) (scaled_T k l'))
    end.
  Fixpoint scaled_S (k : Qc) (l : list nat) (e : expression) : M expression :=
    match l with
    | [] => ret e
    | p :: l' => bind (scalar_times_S k p) (fun q => bind (addOperatorS e q) (scaled_S k l'))
    end.
  Definition scalar_times_expr (k : Qc) (es : expression) : M expression :=
    bind (scaled_T k (ex_temporal es) empty_expression) (scaled_S k (ex_spatial es)).
  (** l.195-201 Expression - Expression *)
  Definition expr_minus (lhs rhs : expression) : M expression :=
    bind (copyE lhs) (fun l => bind (scalar_times_expr (- (1))%Qc rhs) (fun r => addExpression l r)).
  (** l.203-209 Expression - SpatialOperator *)
  Definition expr_minus_op (lhs : expression) (rhs : nat) : M expression :=
    bind (copyE lhs) (fun l => bind (scalar_times_S (- (1))%Qc rhs) (fun r => addOperatorS l r)).
  (** l.211-220 operator - operator *)
  Definition op_minus_op (lhs rhs : operand) : M expression :=
    bind (copyO lhs) (fun l => bind (copyO rhs) (fun r =>
    bind (addOperator empty_expression l) (fun e =>
    bind (coeff_times (coeff_scalar (- (1))%Qc) r) (fun r' => addOperator e r')))).

  (** ** Source text of an equation.  Leaves name operator and expression objects
      that already exist.  These are the combinations the overloads accept. *)
  Inductive sterm :=
  | SVar (p : nat) | SScalar (k : Qc) (s : sterm) | SField (f : list Qc) (s : sterm) | SCoeff (c : Coeff) (s : sterm).
  Inductive tterm :=
  | TVar (p : nat) | TScalar (k : Qc) (s : tterm) | TField (f : list Qc) (s : tterm) | TCoeff (c : Coeff) (s : tterm).
  Inductive term := TermS (s : sterm) | TermT (t : tterm).
  Inductive equation :=
  | EVar (e : expression)
  | EOpPlus (a b : term) | EOpMinus (a b : term)
  | EPlus (a b : equation) | EMinus (a b : equation)
  | EPlusOp (a : equation) (s : sterm) | EMinusOp (a : equation) (s : sterm)
  | EScale (k : Qc) (a : equation).

  Fixpoint eval_sterm (s : sterm) : M nat :=
    match s with
    | SVar p => ret p
    | SScalar k s => bind (eval_sterm s) (scalar_times_S k)
    | SField f s => bind (eval_sterm s) (field_times_S f)
    | SCoeff c s => bind (eval_sterm s) (coeff_times_S c)
    end.
  Fixpoint eval_tterm (s : tterm) : M nat :=
    match s with
    | TVar p => ret p
    | TScalar k s => bind (eval_tterm s) (scalar_times_T k)
    | TField f s => bind (eval_tterm s) (field_times_T f)
    | TCoeff c s => bind (eval_tterm s) (coeff_times_T c)
    end.
  Definition eval_term (t : term) : M operand :=
    match t with
    | TermS s => bind (eval_sterm s) (fun p => ret (OpS p))
    | TermT s => bind (eval_tterm s) (fun p => ret (OpT p))
    end.
  Fixpoint eval_equation (e : equation) : M expression :=
    match e with
    | EVar x => ret x
    | EOpPlus a b => bind (eval_term a) (fun x => bind (eval_term b) (op_plus_op x))
    | EOpMinus a b => bind (eval_term a) (fun x => bind (eval_term b) (op_minus_op x))
    | EPlus a b => bind (eval_equation a) (fun x => bind (eval_equation b) (expr_plus x))
    | EMinus a b => bind (eval_equation a) (fun x => bind (eval_equation b) (expr_minus x))
    | EPlusOp a s => bind (eval_equation a) (fun x => bind (eval_sterm s) (expr_plus_op x))
    | EMinusOp a s => bind (eval_equation a) (fun x => bind (eval_sterm s) (expr_minus_op x))
    | EScale k a => bind (eval_equation a) (scalar_times_expr k)
    end.

  (** ** build: l.34-44 *)
  Definition op_build (cx : ctx) (d : dict) (o : spatialOp) : outcome spatialOp :=
    match so_kind o with
    | DivOperator f p _ =>
        match (div_build (cx_surfName cx f) (cx_volName cx p) (IDict d)).1 with
        | Ok (_, interp) =>
            Ok (SpatialOp (DivOperator f p (Some (if decide (interp = "upwind") then Upwind else Linear))) (so_type o) (so_coeff o))
        | Throw x => Throw x | Exit => Exit | UB => UB
        end
    | LaplacianOperator g p _ =>
        match (laplacian_build (cx_surfName cx g) (cx_volName cx p) (IDict d)).1 with
        | Ok _ => Ok (SpatialOp (LaplacianOperator g p true) (so_type o) (so_coeff o))
        | Throw x => Throw x | Exit => Exit | UB => UB
        end
    | SurfaceIntegrate _ | SourceTerm _ _ | UserOperator _ => Ok o    (* build() does nothing *)
    end.
  Fixpoint buildS (cx : ctx) (d : dict) (l : list nat) : M unit :=
    match l with
    | [] => ret tt
    | p :: l' => bind (readS p) (fun o =>
        match op_build cx d o with
        | Ok o' => bind (writeS p o') (fun _ => buildS cx d l')
        | Throw x => fun _ => Throw x | Exit => fun _ => Exit | UB => fun _ => UB
        end)
    end.
  (** the temporal operators' build() does nothing (ddtOperator.hpp:32) *)
  Definition expr_build (cx : ctx) (d : dict) (e : expression) : M unit := buildS cx d (ex_spatial e).

  (** ** Evaluation *)
  (** l.54-64: the explicit spatial operators, in order *)
  Fixpoint run_explicit (cx : ctx) (h : heap) (l : list nat) (source : list V) (r : outcome (list V)) : Prop :=
    match l with
    | [] => r = Ok source
    | p :: l' =>
        match h_spatial h !! p with
        | None => r = UB
        | Some o =>
            if decide (so_type o = Explicit)
            then rseq (spatial_explicit cx o source) (fun s => run_explicit cx h l' s) r
            else run_explicit cx h l' source r
        end
    end.
  Definition explicitOperation (cx : ctx) (h : heap) (e : expression) (source : list V) (r : outcome (list V)) : Prop :=
    run_explicit cx h (ex_spatial e) source r.
  (** l.47-51 *)
  Definition explicitOperation_n (cx : ctx) (h : heap) (e : expression) (n : nat) (r : outcome (list V)) : Prop :=
    explicitOperation cx h e (replicate n vzero) r.
  (** l.66-76: the explicit temporal operators *)
  Fixpoint run_explicit_T (cx : ctx) (h : heap) (dt : Qc) (l : list nat) (source : list V) (r : outcome (list V)) : Prop :=
    match l with
    | [] => r = Ok source
    | p :: l' =>
        match h_temporal h !! p with
        | None => r = UB
        | Some o =>
            if decide (to_type o = Explicit)
            then rseq (temporal_explicit cx dt o source) (fun s => run_explicit_T cx h dt l' s) r
            else run_explicit_T cx h dt l' source r
        end
    end.
  Definition explicitOperation_dt (cx : ctx) (h : heap) (e : expression) (dt : Qc) (source : list V) (r : outcome (list V)) : Prop :=
    run_explicit_T cx h dt (ex_temporal e) source r.
  (** l.80-89 *)
  Fixpoint run_implicit (cx : ctx) (h : heap) (rowOffs : list nat) (l : list nat) (ls : mem) (r : outcome mem) : Prop :=
    match l with
    | [] => r = Ok ls
    | p :: l' =>
        match h_spatial h !! p with
        | None => r = UB
        | Some o =>
            if decide (so_type o = Implicit)
            then rseq (spatial_implicit cx rowOffs o ls) (fun s => run_implicit cx h rowOffs l' s) r
            else run_implicit cx h rowOffs l' ls r
        end
    end.
  Definition implicitOperation (cx : ctx) (h : heap) (rowOffs : list nat) (e : expression) (ls : mem) (r : outcome mem) : Prop :=
    run_implicit cx h rowOffs (ex_spatial e) ls r.
  (** l.91-100 *)
  Fixpoint run_implicit_T (cx : ctx) (h : heap) (rowOffs : list nat) (dt : Qc) (l : list nat) (ls : mem) (r : outcome mem) : Prop :=
    match l with
    | [] => r = Ok ls
    | p :: l' =>
        match h_temporal h !! p with
        | None => r = UB
        | Some o =>
            if decide (to_type o = Implicit)
            then rseq (temporal_implicit cx rowOffs dt o ls) (fun s => run_implicit_T cx h rowOffs dt l' s) r
            else run_implicit_T cx h rowOffs dt l' ls r
        end
    end.
  Definition implicitOperation_dt (cx : ctx) (h : heap) (rowOffs : list nat) (e : expression) (dt : Qc) (ls : mem) (r : outcome mem) : Prop :=
    run_implicit_T cx h rowOffs dt (ex_temporal e) ls r.

  (** rhs[i] -= expSource[i] * vol[i] for i < rhs.size():
      finiteVolume/cellCentred/dsl/expression.hpp:91-96, dsl/solver.hpp:75-82 *)
  Definition subtract_source (e : executor) (m : mesh) (expSource : list V) (ls : mem) (r : option mem) : Prop :=
    pfor e 0 (match ls with [_; rhs] => length rhs | _ => 0 end) (fun i =>
      s ← expSource !! i;
      v ← cellVolumes m !! i;
      Some [SSub (1, i) (vscale v s)]) ls r.

  (** fvcc::Expression::assemble(t, dt): expression.hpp:79-97.  The system uses
      the cached pattern (l.36-39). [ls]: the system before the call. *)
  Definition assemble (cx : ctx) (h : heap) (e : expression) (dt : Qc) (ls : mem) (r : outcome mem) : Prop :=
    rseq (explicitOperation_n cx h e (nCells (cx_mesh cx))) (fun s0 =>                      (* l.82 *)
    rseq (explicitOperation_dt cx h e dt s0) (fun expSource =>                              (* l.83 *)
    let ls0 := map (fun l => replicate (length l) vzero) ls in                              (* l.85-86 *)
    rseq (implicitOperation cx h (sp_rowPtrs (cx_pattern cx)) e ls0) (fun ls1 =>            (* l.87 *)
    rseq (implicitOperation_dt cx h (sp_rowPtrs (cx_pattern cx)) e dt ls1) (fun ls2 =>      (* l.89 *)
    lift (subtract_source (cx_exec cx) (cx_mesh cx) expSource ls2))))) r.                   (* l.90-96 *)

  (** The system dsl::solve hands to the linear solver for an equation without
      time derivative: dsl/solver.hpp:63-82.  [fresh]: the SparsityPattern
      constructed in l.66. *)
  Definition solve_system (cx : ctx) (h : heap) (e : expression) (fresh : sparsity) (r : outcome mem) : Prop :=
    let ls0 := [replicate (sp_nnz fresh) vzero; replicate (length (sp_diagOffset fresh)) vzero] in   (* l.67-70 *)
    rseq (implicitOperation cx h (sp_rowPtrs fresh) e ls0) (fun ls1 =>                               (* l.72 *)
    rseq (explicitOperation_n cx h e (nCells (cx_mesh cx))) (fun expSource =>                        (* l.73 *)
    lift (subtract_source (cx_exec cx) (cx_mesh cx) expSource ls1))) r.                              (* l.75-82 *)

  (** fvcc::Expression::setReference (l.158-176), with the row offsets read
      through a view (the source indexes the Field itself, whose operator[] is
      deleted, so the template compiles only uninstantiated). *)
  Definition setReference (cx : ctx) (refCell : nat) (refValue : V) (ls : mem) : option mem :=
    match ls with
    | [values; rhs] =>
        row ← sp_rowPtrs (cx_pattern cx) !! refCell;
        d ← sp_diagOffset (cx_pattern cx) !! refCell;
        diagValue ← values !! (row + d);
        b ← rhs !! refCell;
        Some [<[row + d := vadd diagValue diagValue]> values;
              <[refCell := vadd b (vmul diagValue refValue)]> rhs]
    | _ => None
    end.
End dsl.
Arguments ctx : clear implicits.
Arguments userOp : clear implicits.
Arguments spatialOp : clear implicits.
Arguments spatialKind : clear implicits.
Arguments heap : clear implicits.
