(** What a step of a time integrator should do. *)
From Verif Require Import Base Dict Registry Par Exec Fields Value Kernel Mesh MeshSpec Coeff FV FVSpec Sparsity SparsitySpec Assembly AssemblySpec AssemblyProps Boundary Properties_Boundary Dsl DslSpec Properties_Dsl TimeInt.

Section spec.
  (** The context; the number of the solution field, and its boundary
      conditions. *)
  Context (cx : ctx Qc) (n : nat) (bcs : list (patch * volBC Qc)).
  Notation m := (cx_mesh cx).

  (** Boundary data of [phi'] is what the conditions prescribe for [phi'] itself
      (its values next to the boundary); everything they do not prescribe is as
      in [phi]. *)
  Definition boundary_corrected (phi phi' : volField Qc) : Prop :=
    (forall p bc en x, (p, bc) ∈ bcs -> vol_prescribes m p bc phi' en = Some x -> read phi' en = Some x) /\
    (forall en, (forall p bc, (p, bc) ∈ bcs -> vol_prescribes m p bc phi' en = None) -> (forall i, en <> Internal i) ->
       read phi' en = read phi en).

  (** One explicit Euler step with rate [- g c] at cell c. *)
  Record euler_internal (g : nat -> Qc) (dt : Qc) (st st' : tstate) : Prop := {
    eu_length : length (vf_int (ts_phi st')) = nCells m;
    eu_values : forall c, c < nCells m -> at0 (vf_int (ts_phi st')) c = (at0 (old_of st) c - dt * g c)%Qc;
    eu_old : ts_old st' = Some (vf_int (ts_phi st'));
  }.
  Definition euler_with (g : nat -> Qc) (dt : Qc) (st st' : tstate) : Prop :=
    euler_internal g dt st st' /\ boundary_corrected (ts_phi st) (ts_phi st').

  (** Value at cell c of the explicit operators of an equation, per unit volume,
      when the fields are as in [st]; [sel]: the schemes selected for the
      operators. *)
  Definition explicit_part (sel : spatialKind Qc -> spatialKind Qc) (h : heap Qc) (eqn : equation) (st : tstate) (c : nat) : Qc :=
    equation_value (object_value h (fun k => explicit_kind (at_state cx n st) (sel k) c) (fun _ => 0%Qc) c) (fun _ => 0%Qc) c eqn.

  (** Mesh, geometry, pattern and boundary conditions fit together; the field and
      its old-time field fit the mesh. *)
  Definition setup_ok : Prop :=
    cx_fits cx /\ length (bDeltaCoeffs (bmesh m)) = nBoundaryFaces m /\
    Forall (fun a => patch_ok m a.1) bcs /\ pairwise_disjoint bcs.
  Definition state_ok (st : tstate) : Prop := sized m (nCells m) (ts_phi st) /\ length (old_of st) = nCells m.
End spec.

(** build() with dictionary [d] gives the operators of the equation the kinds
    (schemes) [sel]. *)
Definition selected (sel : spatialKind Qc -> spatialKind Qc) (o : spatialOp Qc) : spatialOp Qc :=
  SpatialOp (sel (so_kind o)) (so_type o) (so_coeff o).
Definition schemes_selected (cx : ctx Qc) (d : dict) (sel : spatialKind Qc -> spatialKind Qc) (h : heap Qc) (eqn : equation) : Prop :=
  forall p o, p ∈ spatial_objects eqn -> h_spatial h !! p = Some o -> op_build cx d o = Ok (selected sel o).
(** The explicit operators of the equation fit the mesh in state [st], and are of
    kinds that explicit evaluation reaches (C39). *)
Definition explicit_supported (cx : ctx Qc) (n : nat) (sel : spatialKind Qc -> spatialKind Qc) (h : heap Qc) (eqn : equation) (st : tstate) : Prop :=
  forall p o, p ∈ spatial_objects eqn -> h_spatial h !! p = Some o -> so_type o = Explicit ->
    kind_fits (at_state cx n st) (sel (so_kind o)) /\
    match sel (so_kind o) with DivOperator _ _ _ | LaplacianOperator _ _ _ | SurfaceIntegrate _ => True | _ => False end.
(** All operators of the equation fit and are of kinds that evaluation and
    assembly reach (C39); time derivatives are implicit. *)
Definition all_supported (cx : ctx Qc) (n : nat) (sel : spatialKind Qc -> spatialKind Qc) (h : heap Qc) (eqn : equation) (st : tstate) : Prop :=
  (forall p o, p ∈ spatial_objects eqn -> h_spatial h !! p = Some o ->
     kind_fits (at_state cx n st) (sel (so_kind o)) /\
     match sel (so_kind o) with
     | DivOperator _ _ _ | LaplacianOperator _ _ _ => True
     | SurfaceIntegrate _ => so_type o = Explicit
     | _ => False
     end) /\
  (forall p o, p ∈ temporal_objects eqn -> h_temporal h !! p = Some o ->
     to_type o = Implicit /\ length (cx_old (at_state cx n st) (to_phi o)) = nCells (cx_mesh cx)).

(** The left-hand side of the equation at cell c, integrated over the cell, with
    [x] in the implicit operators and the fields of [st] elsewhere. *)
Definition equation_at (cx : ctx Qc) (n : nat) (sel : spatialKind Qc -> spatialKind Qc) (h : heap Qc) (eqn : equation) (dt : Qc) (st : tstate) (x : list Qc) (c : nat) : Qc :=
  equation_value
    (object_value h (fun k => at0 (cellVolumes (cx_mesh cx)) c * explicit_kind (at_state cx n st) (sel k) c)%Qc
                    (fun k => implicit_kind (at_state cx n st) (sel k) x c) c)
    (object_value_T h (fun _ => 0%Qc) (fun phi => implicit_ddt (at_state cx n st) dt phi x c) c) c eqn.
(** The same without the explicit operators. *)
Definition implicit_at (cx : ctx Qc) (n : nat) (sel : spatialKind Qc -> spatialKind Qc) (h : heap Qc) (eqn : equation) (dt : Qc) (st : tstate) (x : list Qc) (c : nat) : Qc :=
  equation_value
    (object_value h (fun k => 0%Qc) (fun k => implicit_kind (at_state cx n st) (sel k) x c) c)
    (object_value_T h (fun _ => 0%Qc) (fun phi => implicit_ddt (at_state cx n st) dt phi x c) c) c eqn.

(** Whenever the solver returns, it returns an exact solution. *)
Definition exact_solver (lin : string -> dict -> sparsity -> list Qc -> list Qc -> list Qc -> outcome (list Qc) -> Prop) : Prop :=
  forall name d p values rhs x0 r, lin name d p values rhs x0 r ->
    exists x, r = Ok x /\ length x = length rhs /\ forall c, c < length rhs -> residual p values rhs x c = 0%Qc.
