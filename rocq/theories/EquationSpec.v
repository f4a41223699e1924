(** What an equation object stands for. *)
From Verif Require Import Base Dict Registry Par Exec Value Kernel Mesh MeshSpec Coeff FV FVSpec Sparsity SparsitySpec Assembly AssemblySpec Dsl DslSpec Properties_Dsl Properties_DslAssembly EquationObj.

Section spec.
  Context {V : Type} `{ValueType V} `{ValueUnit V} `{ValueTag V}.
  (** The operator with the scheme [sel] gives to its kind. *)
  Definition with_scheme (sel : spatialKind V -> spatialKind V) (o : spatialOp V) : spatialOp V :=
    SpatialOp (sel (so_kind o)) (so_type o) (so_coeff o).
  (** Dictionary [d] selects the schemes [sel] for the operators named in [t]. *)
  Definition selects (cx : ctx V) (d : dict) (sel : spatialKind V -> spatialKind V) (h : heap V) (t : equation) : Prop :=
    forall p o, p ∈ spatial_objects t -> h_spatial h !! p = Some o -> op_build cx d o = Ok (with_scheme sel o).
  (** The operators named in [t], with their schemes, fit the mesh and fields of
      [cx] and are of kinds that assembly reaches (C39); time derivatives are
      implicit. *)
  Definition assemblable (cx : ctx V) (sel : spatialKind V -> spatialKind V) (h : heap V) (t : equation) : Prop :=
    (forall p o, p ∈ spatial_objects t -> h_spatial h !! p = Some o ->
       kind_fits cx (sel (so_kind o)) /\ spatial_supported (with_scheme sel o)) /\
    (forall p o, p ∈ temporal_objects t -> h_temporal h !! p = Some o ->
       to_type o = Implicit /\ length (cx_old cx (to_phi o)) = nCells (cx_mesh cx)).
  (** The text [t], with the operator objects as they are in [h] and the fields as
      in [cx], integrated over cell c, with [x] in the implicit operators. *)
  Definition text_value (cx : ctx V) (dt : Qc) (sel : spatialKind V -> spatialKind V) (h : heap V) (t : equation) (x : list V) (c : nat) : V :=
    equation_value
      (object_value h (fun k => vscale (at0 (cellVolumes (cx_mesh cx)) c) (explicit_kind cx (sel k) c)) (fun k => implicit_kind cx (sel k) x c) c)
      (object_value_T h (fun _ => vzero) (fun phi => implicit_ddt cx dt phi x c) c) c t.
  (** The conditions for assembling in [cx] an object made in [cx0] from [t]. *)
  Definition good_context (cx0 : ctx V) (sel : spatialKind V -> spatialKind V) (h : heap V) (t : equation) (cx : ctx V) : Prop :=
    cx_fits cx /\ cx_mesh cx = cx_mesh cx0 /\ cx_pattern cx = cx_pattern cx0 /\ assemblable cx sel h t.
End spec.
