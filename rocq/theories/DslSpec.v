(** What equations mean. *)
From Verif Require Import Base Dict Registry Par Exec Value Kernel Mesh MeshSpec Coeff FV FVSpec Sparsity SparsitySpec Assembly AssemblySpec Dsl.

(** The computation always ends normally, with result [a]. *)
Definition surely {A} (op : outcome A -> Prop) (a : A) : Prop := forall r, op r <-> r = Ok a.

Section spec.
  Context {V : Type} `{ValueType V} `{ValueUnit V} `{ValueTag V}.

  (** [op] adds [g c] to element c of every array of [n] elements. *)
  Definition adds (n : nat) (op : list V -> outcome (list V) -> Prop) (g : nat -> V) : Prop :=
    forall source, length source = n ->
      surely (op source) (map (fun c => vadd (atV source c) (g c)) (seq 0 n)).

  (** [op] adds [g x c] to (A x - b) at every cell c, for every x. *)
  Definition contributes (m : mesh) (p : sparsity) (op : list (list V) -> outcome (list (list V)) -> Prop)
    (g : list V -> nat -> V) : Prop :=
    forall values rhs, sys_ok m p values rhs -> exists values' rhs',
      surely (op [values; rhs]) [values'; rhs'] /\ sys_ok m p values' rhs' /\
      forall x c, c < nCells m -> residual p values' rhs' x c = vadd (residual p values rhs x c) (g x c).

  (** ** The meaning of the text of an equation, at one cell [c], when the objects
      it names mean [valS p] and [valT p]. *)
  Section meaning.
    Context (valS valT : nat -> V) (c : nat).
    Fixpoint sterm_value (s : sterm) : V :=
      match s with
      | SVar p => valS p
      | SScalar k s => vscale k (sterm_value s)
      | SField f s => vscale (at0 f c) (sterm_value s)
      | SCoeff k s => vscale (coeff_val k c) (sterm_value s)
      end.
    Fixpoint tterm_value (s : tterm) : V :=
      match s with
      | TVar p => valT p
      | TScalar k s => vscale k (tterm_value s)
      | TField f s => vscale (at0 f c) (tterm_value s)
      | TCoeff k s => vscale (coeff_val k c) (tterm_value s)
      end.
    Definition term_value (t : term) : V :=
      match t with TermS s => sterm_value s | TermT s => tterm_value s end.
    Fixpoint equation_value (e : equation) : V :=
      match e with
      | EVar x => vadd (vsum (map valT (ex_temporal x))) (vsum (map valS (ex_spatial x)))
      | EOpPlus a b => vadd (term_value a) (term_value b)
      | EOpMinus a b => vsub (term_value a) (term_value b)
      | EPlus a b => vadd (equation_value a) (equation_value b)
      | EMinus a b => vsub (equation_value a) (equation_value b)
      | EPlusOp a s => vadd (equation_value a) (sterm_value s)
      | EMinusOp a s => vsub (equation_value a) (sterm_value s)
      | EScale k a => vscale k (equation_value a)
      end.
  End meaning.

  (** ** Well-formed text: the objects exist, field factors have one entry per
      cell. *)
  Section wf.
    Context (h : heap V) (n : nat).
    Definition objS (p : nat) : Prop := exists o, h_spatial h !! p = Some o /\ coeff_ok (so_coeff o) n.
    Definition objT (p : nat) : Prop := exists o, h_temporal h !! p = Some o /\ coeff_ok (to_coeff o) n.
    Fixpoint sterm_wf (s : sterm) : Prop :=
      match s with
      | SVar p => objS p
      | SScalar _ s => sterm_wf s
      | SField f s => n <= length f /\ sterm_wf s
      | SCoeff k s => coeff_ok k n /\ sterm_wf s
      end.
    Fixpoint tterm_wf (s : tterm) : Prop :=
      match s with
      | TVar p => objT p
      | TScalar _ s => tterm_wf s
      | TField f s => n <= length f /\ tterm_wf s
      | TCoeff k s => coeff_ok k n /\ tterm_wf s
      end.
    Definition term_wf (t : term) : Prop := match t with TermS s => sterm_wf s | TermT s => tterm_wf s end.
    Fixpoint equation_wf (e : equation) : Prop :=
      match e with
      | EVar x => Forall objT (ex_temporal x) /\ Forall objS (ex_spatial x)
      | EOpPlus a b | EOpMinus a b => term_wf a /\ term_wf b
      | EPlus a b | EMinus a b => equation_wf a /\ equation_wf b
      | EPlusOp a s | EMinusOp a s => equation_wf a /\ sterm_wf s
      | EScale _ a => equation_wf a
      end.

    (** Number of field factors of a term, counting the operator's own. *)
    Definition has_field (c : Coeff) : nat := match view_ c with Some _ => 1 | None => 0 end.
    Fixpoint sterm_fields (s : sterm) : nat :=
      match s with
      | SVar p => match h_spatial h !! p with Some o => has_field (so_coeff o) | None => 0 end
      | SScalar _ s => sterm_fields s
      | SField _ s => 1 + sterm_fields s
      | SCoeff k s => has_field k + sterm_fields s
      end.
    Fixpoint tterm_fields (s : tterm) : nat :=
      match s with
      | TVar p => match h_temporal h !! p with Some o => has_field (to_coeff o) | None => 0 end
      | TScalar _ s => tterm_fields s
      | TField _ s => 1 + tterm_fields s
      | TCoeff k s => has_field k + tterm_fields s
      end.
    Definition term_fields (t : term) : nat := match t with TermS s => sterm_fields s | TermT s => tterm_fields s end.
    (** Every term has at most one field factor. *)
    Fixpoint single_fields (e : equation) : Prop :=
      match e with
      | EVar _ => True
      | EOpPlus a b | EOpMinus a b => term_fields a <= 1 /\ term_fields b <= 1
      | EPlus a b | EMinus a b => single_fields a /\ single_fields b
      | EPlusOp a s | EMinusOp a s => single_fields a /\ sterm_fields s <= 1
      | EScale _ a => single_fields a
      end.
  End wf.

  (** The operator objects an equation is built from. *)
  Fixpoint sterm_object (s : sterm) : nat :=
    match s with SVar p => p | SScalar _ s | SField _ s | SCoeff _ s => sterm_object s end.
  Fixpoint tterm_object (s : tterm) : nat :=
    match s with TVar p => p | TScalar _ s | TField _ s | TCoeff _ s => tterm_object s end.
  Definition term_spatial (t : term) : list nat := match t with TermS s => [sterm_object s] | TermT _ => [] end.
  Definition term_temporal (t : term) : list nat := match t with TermS _ => [] | TermT s => [tterm_object s] end.
  Fixpoint spatial_objects (e : equation) : list nat :=
    match e with
    | EVar x => ex_spatial x
    | EOpPlus a b | EOpMinus a b => term_spatial a ++ term_spatial b
    | EPlus a b | EMinus a b => spatial_objects a ++ spatial_objects b
    | EPlusOp a s | EMinusOp a s => spatial_objects a ++ [sterm_object s]
    | EScale _ a => spatial_objects a
    end.
  Fixpoint temporal_objects (e : equation) : list nat :=
    match e with
    | EVar x => ex_temporal x
    | EOpPlus a b | EOpMinus a b => term_temporal a ++ term_temporal b
    | EPlus a b | EMinus a b => temporal_objects a ++ temporal_objects b
    | EPlusOp a _ | EMinusOp a _ => temporal_objects a
    | EScale _ a => temporal_objects a
    end.

  (** Every object of [h] exists unchanged in [h']. *)
  Definition preserved (h h' : heap V) : Prop :=
    (forall p o, h_spatial h !! p = Some o -> h_spatial h' !! p = Some o) /\
    (forall p o, h_temporal h !! p = Some o -> h_temporal h' !! p = Some o).

  (** ** Meaning of the objects named in an equation *)

  (** An operator of kind [k] with coefficient [co], placed explicitly, adds
      co*G; placed implicitly, adds co*(G x) to the residual at x. *)
  Definition explicit_meaning (cx : ctx V) (k : spatialKind V) (G : nat -> V) : Prop :=
    forall co, coeff_ok co (nCells (cx_mesh cx)) ->
    adds (nCells (cx_mesh cx)) (spatial_explicit cx (SpatialOp k Explicit co)) (fun c => vscale (coeff_val co c) (G c)).
  Definition implicit_meaning (cx : ctx V) (k : spatialKind V) (G : list V -> nat -> V) : Prop :=
    forall co, coeff_ok co (nCells (cx_mesh cx)) ->
    contributes (cx_mesh cx) (cx_pattern cx)
      (spatial_implicit cx (sp_rowPtrs (cx_pattern cx)) (SpatialOp k Implicit co)) (fun x c => vscale (coeff_val co c) (G x c)).
  Definition implicit_meaning_T (cx : ctx V) (dt : Qc) (phi : nat) (G : list V -> nat -> V) : Prop :=
    forall co, coeff_ok co (nCells (cx_mesh cx)) ->
    contributes (cx_mesh cx) (cx_pattern cx)
      (temporal_implicit cx (sp_rowPtrs (cx_pattern cx)) dt (TemporalOp phi Implicit co)) (fun x c => vscale (coeff_val co c) (G x c)).

  (** The value of object p at a cell: coefficient times [E] if it is explicit,
      times [I] if implicit. *)
  Definition object_value (h : heap V) (E I : spatialKind V -> V) (c p : nat) : V :=
    match h_spatial h !! p with
    | Some o => vscale (coeff_val (so_coeff o) c)
                  match so_type o with Explicit => E (so_kind o) | Implicit => I (so_kind o) end
    | None => vzero
    end.
  Definition object_value_T (h : heap V) (E I : nat -> V) (c p : nat) : V :=
    match h_temporal h !! p with
    | Some o => vscale (coeff_val (to_coeff o) c)
                  match to_type o with Explicit => E (to_phi o) | Implicit => I (to_phi o) end
    | None => vzero
    end.

  (** All explicit (implicit) operators the equation names have the given
      meaning. *)
  Definition explicit_leaves (cx : ctx V) (h : heap V) (G : spatialKind V -> nat -> V) (e : equation) : Prop :=
    forall p o, p ∈ spatial_objects e -> h_spatial h !! p = Some o -> so_type o = Explicit ->
      explicit_meaning cx (so_kind o) (G (so_kind o)).
  Definition implicit_leaves (cx : ctx V) (h : heap V) (G : spatialKind V -> list V -> nat -> V) (e : equation) : Prop :=
    forall p o, p ∈ spatial_objects e -> h_spatial h !! p = Some o -> so_type o = Implicit ->
      implicit_meaning cx (so_kind o) (G (so_kind o)).
  Definition implicit_leaves_T (cx : ctx V) (dt : Qc) (h : heap V) (G : nat -> list V -> nat -> V) (e : equation) : Prop :=
    forall p o, p ∈ temporal_objects e -> h_temporal h !! p = Some o -> to_type o = Implicit ->
      implicit_meaning_T cx dt (to_phi o) (G (to_phi o)).
End spec.
