(** C28, C55: mesh generators and boundary patches. *)
From Verif Require Import Base Par Exec Value Mesh MeshSpec MeshProofs.

(** * C28.  [e] any executor, [r] any possible result under any schedule,
    [ownJunk]/[neiJunk] arbitrary uninitialised memory. *)
Theorem C28_uniform_1d_mesh : forall e n ownJunk neiJunk r,
  1 <= n -> length ownJunk = n + 1 -> length neiJunk = n - 1 ->
  create1DUniformMesh e n ownJunk neiJunk r ->
  exists m, r = Some m /\
    nCells m = n /\ nInternalFaces m = n - 1 /\ nBoundaryFaces m = 2 /\ nBoundaries m = 2 /\
    valid_topology m /\ valid_geometry m /\ valid_boundary m /\
    boundary_cn_is_cell_centre m /\ upper_triangular m /\
    (forall c, c < n -> cellVolumes m !! c = Some (1 / Qc_of_nat n)%Qc) /\
    vsum (cellVolumes m) = 1%Qc /\
    (forall c, c < n -> cellCentres m !! c = Some (Vec ((Qc_of_nat c + half) / Qc_of_nat n) 0 0)) /\
    (forall f, f < n - 1 ->
       faceOwner m !! f = Some f /\ faceNeighbour m !! f = Some (f + 1) /\
       faceAreas m !! f = Some (Vec 1 0 0) /\
       faceCentres m !! f = Some (Vec (Qc_of_nat (f + 1) / Qc_of_nat n) 0 0)) /\
    bFaceCells (bmesh m) = [0; n - 1] /\
    bSf (bmesh m) = [Vec (-(1)) 0 0; Vec 1 0 0] /\
    bCf (bmesh m) = [Vec 0 0 0; Vec 1 0 0].
Proof. exact create1D_spec. Qed.
Print Assumptions C28_uniform_1d_mesh.

(** ... and it always returns. *)
Theorem C28_uniform_1d_mesh_defined : forall e n ownJunk neiJunk,
  1 <= n -> length ownJunk = n + 1 -> length neiJunk = n - 1 ->
  exists m, create1DUniformMesh e n ownJunk neiJunk (Some m).
Proof. exact create1D_defined. Qed.
Print Assumptions C28_uniform_1d_mesh_defined.

(** Zero cells are not rejected but undefined behaviour (why n >= 1 above). *)
Theorem C28_zero_cells_undefined : forall e ownJunk neiJunk r,
  create1DUniformMesh e 0 ownJunk neiJunk r <-> r = None.
Proof. exact create1D_zero_ub. Qed.
Print Assumptions C28_zero_cells_undefined.

Theorem C28_single_cell_mesh :
  valid_topology createSingleCellMesh /\ valid_geometry createSingleCellMesh /\
  valid_boundary createSingleCellMesh /\ upper_triangular createSingleCellMesh.
Proof. exact single_cell_valid. Qed.
Print Assumptions C28_single_cell_mesh.

(** The single-cell mesh stores area vectors where the boundary mesh documents
    cell centres (unstructuredMesh.cpp:85 against boundaryMesh.hpp:38 and
    unstructuredMesh.cpp:193). *)
Theorem C73_single_cell_cn_refuted : ~ boundary_cn_is_cell_centre createSingleCellMesh.
Proof. exact single_cell_cn_refuted. Qed.
Print Assumptions C73_single_cell_cn_refuted.

(** A concrete non-trivial instance: three cells on the GPU executor. *)
Example C28_instance : exists m,
  create1DUniformMesh GPUExecutor 3 [7; 7; 7; 7] [9; 9] (Some m) /\
  faceOwner m = [0; 1; 0; 2] /\ faceNeighbour m = [1; 2].
Proof.
  destruct (create1D_defined GPUExecutor 3 [7; 7; 7; 7] [9; 9]) as [m Hm]; [lia|done|done|].
  exists m. split; [done|].
  destruct (create1D_spec GPUExecutor 3 [7; 7; 7; 7] [9; 9] (Some m)) as (m' & Heq & Hrest); [lia|done|done|done|].
  injection Heq as <-.
  destruct Hrest as (Hc & Hi & Hb & _ & Ht & _ & _ & _ & _ & _ & _ & _ & Hf & Hfc & _).
  destruct (Hf 0) as (H0 & H0' & _); [lia|]. destruct (Hf 1) as (H1 & H1' & _); [lia|].
  pose proof (vt_owner_len _ Ht) as Hol. pose proof (vt_nei_len _ Ht) as Hnl.
  pose proof (vt_faces _ Ht) as Hfl. pose proof (vt_fc_owner _ Ht) as Hfo.
  rewrite Hi, Hb in *. rewrite Hfl in Hol. rewrite Hfc in Hfo.
  pose proof (Hfo 0 ltac:(lia)) as Ho2. pose proof (Hfo 1 ltac:(lia)) as Ho3.
  destruct (faceOwner m) as [|a0 [|a1 [|a2 [|a3 [|]]]]]; try (simpl in Hol; lia).
  destruct (faceNeighbour m) as [|b0 [|b1 [|]]]; try (simpl in Hnl; lia).
  unfold atn in *. simpl in *. split; congruence.
Qed.

(** * C55 *)
Theorem C55_patch_slice : forall {A} (l : list A) offs i s t,
  offs !! i = Some s -> offs !! (i + 1) = Some t -> s <= t -> t <= length l ->
  exists p, extractSubSpan l offs i = Ok p /\ length p = t - s /\
    forall k, k < t - s -> p !! k = l !! (s + k).
Proof. exact @extract_ok. Qed.
Print Assumptions C55_patch_slice.

Theorem C55_patches_cover : forall {A} (l : list A) (offs : list nat) n,
  length offs = n + 1 -> offs !! 0 = Some 0 -> offs !! n = Some (length l) ->
  (forall i s t, offs !! i = Some s -> offs !! (i + 1) = Some t -> s <= t) ->
  exists ps, length ps = n /\
    (forall i p, ps !! i = Some p -> extractSubSpan l offs i = Ok p) /\
    concat ps = l.
Proof. exact @slices_cover. Qed.
Print Assumptions C55_patches_cover.

Theorem C55_patches_disjoint : forall (offs : list nat) i j si ti sj tj k,
  (forall i s t, offs !! i = Some s -> offs !! (i + 1) = Some t -> s <= t) ->
  i <> j ->
  offs !! i = Some si -> offs !! (i + 1) = Some ti ->
  offs !! j = Some sj -> offs !! (j + 1) = Some tj ->
  si <= k < ti -> sj <= k < tj -> False.
Proof. exact slices_disjoint. Qed.
Print Assumptions C55_patches_disjoint.

(** Every accessor of a mesh whose boundary arrays are valid returns the slice
    of its own array. *)
Theorem C55_accessors : forall m i s t,
  valid_boundary m ->
  length (bFaceCells (bmesh m)) = nBoundaryFaces m ->
  bOffset (bmesh m) !! i = Some s -> bOffset (bmesh m) !! (i + 1) = Some t ->
  patch_faceCells (bmesh m) i = Ok (take (t - s) (drop s (bFaceCells (bmesh m)))) /\
  patch_cf (bmesh m) i = Ok (take (t - s) (drop s (bCf (bmesh m)))) /\
  patch_cn (bmesh m) i = Ok (take (t - s) (drop s (bCn (bmesh m)))) /\
  patch_sf (bmesh m) i = Ok (take (t - s) (drop s (bSf (bmesh m)))) /\
  patch_magSf (bmesh m) i = Ok (take (t - s) (drop s (bMagSf (bmesh m)))) /\
  patch_nf (bmesh m) i = Ok (take (t - s) (drop s (bNf (bmesh m)))) /\
  patch_delta (bmesh m) i = Ok (take (t - s) (drop s (bDelta (bmesh m)))) /\
  patch_weights (bmesh m) i = Ok (take (t - s) (drop s (bWeights (bmesh m)))) /\
  patch_deltaCoeffs (bmesh m) i = Ok (take (t - s) (drop s (bDeltaCoeffs (bmesh m)))).
Proof. exact patch_accessors. Qed.
Print Assumptions C55_accessors.

Example C55_instance :
  patch_deltaCoeffs (bmesh createSingleCellMesh) 2 = Ok [1 + 1]%Qc /\
  extractSubSpan [10; 11; 12; 13; 14] [0; 2; 2; 5] 2 = Ok [12; 13; 14].
Proof. done. Qed.
