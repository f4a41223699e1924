(** What a valid mesh is (independent of the generators). *)
From Verif Require Import Base Value Mesh.

Definition at0 (l : list Qc) (i : nat) : Qc := default 0%Qc (l !! i).
Definition atv (l : list vec) (i : nat) : vec := default vec_zero (l !! i).
Definition atn (l : list nat) (i : nat) : nat := default 0 (l !! i).

(** Connectivity. *)
Record valid_topology (m : mesh) : Prop := {
  vt_owner_len : length (faceOwner m) = nFaces m;
  vt_nei_len : length (faceNeighbour m) = nInternalFaces m;
  vt_faces : nFaces m = nInternalFaces m + nBoundaryFaces m;
  vt_vol_len : length (cellVolumes m) = nCells m;
  vt_fc_len : length (bFaceCells (bmesh m)) = nBoundaryFaces m;
  (** internal faces join an owner to a different, higher numbered neighbour *)
  vt_owner : forall f, f < nInternalFaces m -> atn (faceOwner m) f < atn (faceNeighbour m) f;
  vt_nei : forall f, f < nInternalFaces m -> atn (faceNeighbour m) f < nCells m;
  (** boundary faces belong to a cell *)
  vt_fc : forall b, b < nBoundaryFaces m -> atn (bFaceCells (bmesh m)) b < nCells m;
  vt_fc_owner : forall b, b < nBoundaryFaces m ->
     atn (faceOwner m) (nInternalFaces m + b) = atn (bFaceCells (bmesh m)) b;
  (** positive volumes *)
  vt_vol : forall c, c < nCells m -> (0 < at0 (cellVolumes m) c)%Qc;
}.

(** Net sum over the faces of cell [c]: + for faces it owns (internal and
    boundary), - for faces it is the neighbour of. *)
Definition cell_balance {V} `{ValueType V} (m : mesh) (flux : nat -> V) (c : nat) : V :=
  vadd (vsub (vsum_over (nInternalFaces m) (fun f =>
                if decide (atn (faceOwner m) f = c) then flux f else vzero))
             (vsum_over (nInternalFaces m) (fun f =>
                if decide (atn (faceNeighbour m) f = c) then flux f else vzero)))
       (vsum_over (nBoundaryFaces m) (fun b =>
                if decide (atn (bFaceCells (bmesh m)) b = c)
                then flux (nInternalFaces m + b) else vzero)).

(** Sum of the outward area vectors of the faces of cell [c]. *)
Definition outward_area (m : mesh) (c : nat) : vec :=
  cell_balance m (atv (faceAreas m)) c.

(** Geometry and boundary arrays. *)
Record valid_geometry (m : mesh) : Prop := {
  vg_area_len : length (faceAreas m) = nFaces m;
  vg_mag_len : length (magFaceAreas m) = nFaces m;
  vg_fc_len : length (faceCentres m) = nFaces m;
  vg_cc_len : length (cellCentres m) = nCells m;
  (** magFaceAreas is the length of the area vector *)
  vg_mag : forall f, f < nFaces m ->
     (0 < at0 (magFaceAreas m) f)%Qc /\
     (at0 (magFaceAreas m) f * at0 (magFaceAreas m) f
       = vec_dot (atv (faceAreas m) f) (atv (faceAreas m) f))%Qc;
  (** area vectors point from owner to neighbour, out of the domain at the boundary *)
  vg_direction : forall f, f < nInternalFaces m ->
     (0 < vec_dot (atv (faceAreas m) f)
            (vec_sub (atv (cellCentres m) (atn (faceNeighbour m) f))
                     (atv (cellCentres m) (atn (faceOwner m) f))))%Qc;
  vg_outward : forall b, b < nBoundaryFaces m ->
     (0 < vec_dot (atv (faceAreas m) (nInternalFaces m + b))
            (vec_sub (atv (faceCentres m) (nInternalFaces m + b))
                     (atv (cellCentres m) (atn (bFaceCells (bmesh m)) b))))%Qc;
  (** every cell is closed *)
  vg_closed : forall c, c < nCells m -> outward_area m c = vec_zero;
}.

(** Boundary arrays agree with the face arrays; patches partition them. *)
Record valid_boundary (m : mesh) : Prop := {
  vb_len : forall n, n = nBoundaryFaces m ->
     length (bCf (bmesh m)) = n /\ length (bCn (bmesh m)) = n /\ length (bSf (bmesh m)) = n /\
     length (bMagSf (bmesh m)) = n /\ length (bNf (bmesh m)) = n /\
     length (bDelta (bmesh m)) = n /\ length (bWeights (bmesh m)) = n /\
     length (bDeltaCoeffs (bmesh m)) = n;
  vb_cf : forall b, b < nBoundaryFaces m ->
     atv (bCf (bmesh m)) b = atv (faceCentres m) (nInternalFaces m + b);
  vb_sf : forall b, b < nBoundaryFaces m ->
     atv (bSf (bmesh m)) b = atv (faceAreas m) (nInternalFaces m + b);
  vb_mag : forall b, b < nBoundaryFaces m ->
     at0 (bMagSf (bmesh m)) b = at0 (magFaceAreas m) (nInternalFaces m + b);
  vb_nf : forall b, b < nBoundaryFaces m ->
     vec_scale (at0 (bMagSf (bmesh m)) b) (atv (bNf (bmesh m)) b) = atv (bSf (bmesh m)) b;
  (** delta runs from the cell centre to the face centre *)
  vb_delta : forall b, b < nBoundaryFaces m ->
     atv (bDelta (bmesh m)) b =
       vec_sub (atv (faceCentres m) (nInternalFaces m + b))
               (atv (cellCentres m) (atn (bFaceCells (bmesh m)) b));
  (** deltaCoeffs is the inverse of the length of delta *)
  vb_deltaCoeffs : forall b, b < nBoundaryFaces m ->
     (0 < at0 (bDeltaCoeffs (bmesh m)) b)%Qc /\
     (at0 (bDeltaCoeffs (bmesh m)) b * at0 (bDeltaCoeffs (bmesh m)) b *
       vec_dot (atv (bDelta (bmesh m)) b) (atv (bDelta (bmesh m)) b) = 1)%Qc;
  vb_weights : forall b, b < nBoundaryFaces m -> at0 (bWeights (bmesh m)) b = 1%Qc;
  (** patch offsets *)
  vb_off_len : length (bOffset (bmesh m)) = nBoundaries m + 1;
  vb_off_0 : bOffset (bmesh m) !! 0 = Some 0;
  vb_off_end : bOffset (bmesh m) !! nBoundaries m = Some (nBoundaryFaces m);
  vb_off_mono : forall i s t, bOffset (bmesh m) !! i = Some s ->
     bOffset (bmesh m) !! (i + 1) = Some t -> s <= t;
}.

(** The neighbour-cell-centre array, as documented in boundaryMesh.hpp:38. *)
Definition boundary_cn_is_cell_centre (m : mesh) : Prop :=
  forall b, b < nBoundaryFaces m ->
    atv (bCn (bmesh m)) b = atv (cellCentres m) (atn (bFaceCells (bmesh m)) b).

(** Faces ordered by owner, then neighbour. *)
Definition upper_triangular (m : mesh) : Prop :=
  forall f g, f < g -> g < nInternalFaces m ->
    atn (faceOwner m) f < atn (faceOwner m) g \/
    (atn (faceOwner m) f = atn (faceOwner m) g /\
     atn (faceNeighbour m) f < atn (faceNeighbour m) g).
