(** What an assembled linear system means. *)
From Verif Require Import Base Exec Value Mesh MeshSpec Coeff FV FVSpec Sparsity SparsitySpec Assembly.

Section spec.
  Context {V : Type} `{ValueType V} `{ValueUnit V}.

  (** Row [c] of the matrix times [x]: every stored coefficient of the row times
      the entry of [x] its column index names. *)
  Definition mat_row (p : sparsity) (values x : list V) (c : nat) : V :=
    vsum (map (fun k => vmul (atV values k) (atV x (atn (sp_colIdxs p) k)))
              (seq (atn (sp_rowPtrs p) c) (atn (sp_rowPtrs p) (c + 1) - atn (sp_rowPtrs p) c))).
  (** (A x - b) at [c]. *)
  Definition residual (p : sparsity) (values rhs x : list V) (c : nat) : V :=
    vsub (mat_row p values x c) (atV rhs c).

  (** A system that fits the pattern. *)
  Definition sys_ok (m : mesh) (p : sparsity) (values rhs : list V) : Prop :=
    length values = sp_nnz p /\ length rhs = nCells m.

  (** Boundary data that fits the mesh. *)
  Definition boundary_ok (m : mesh) (phi : volField V) : Prop :=
    length (vf_refValue phi) = nBoundaryFaces m /\ length (vf_valueFraction phi) = nBoundaryFaces m /\
    length (vf_refGrad phi) = nBoundaryFaces m.

  (** Value on a face for the implicit divergence: upwind inside; on the boundary
      the mixed condition without its gradient part. *)
  Definition implicit_face_value (m : mesh) (phi : volField V) (flux : list Qc) (f : nat) : V :=
    if decide (f < nInternalFaces m) then
      if Qclt_le_dec (at0 flux f) 0 then at_neighbour m phi f else at_owner m phi f
    else let b := f - nInternalFaces m in
      vadd (vscale (at0 (vf_valueFraction phi) b) (atV (vf_refValue phi) b))
           (vscale (1 - at0 (vf_valueFraction phi) b)%Qc (at_face_cell m phi b)).

  (** Normal gradient on a face for the implicit Laplacian: difference quotient
      inside; on the boundary the mixed condition. *)
  Definition implicit_normal_gradient (m : mesh) (phi : volField V) (dc : list Qc) (f : nat) : V :=
    if decide (f < nInternalFaces m) then
      vscale (at0 dc f) (vsub (at_neighbour m phi f) (at_owner m phi f))
    else let b := f - nInternalFaces m in
      vadd (vscale (at0 (vf_valueFraction phi) b * at0 dc f)%Qc
              (vsub (atV (vf_refValue phi) b) (at_face_cell m phi b)))
           (vscale (1 - at0 (vf_valueFraction phi) b)%Qc (atV (vf_refGrad phi) b)).
End spec.

(** No cell has two boundary faces. *)
Definition boundary_once (m : mesh) : Prop :=
  forall b b', b < nBoundaryFaces m -> b' < nBoundaryFaces m ->
    atn (bFaceCells (bmesh m)) b = atn (bFaceCells (bmesh m)) b' -> b = b'.
Definition no_boundary_race (e : executor) (m : mesh) : Prop := e = SerialExecutor \/ boundary_once m.
