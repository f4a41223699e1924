(** What a correct sparsity pattern and a correct stencil are. *)
From Verif Require Import Base Reduce Mesh MeshSpec Sparsity.

(** The matrix entries a mesh asks for: the diagonal of each cell and, for each
    internal face, the (owner, neighbour) and the (neighbour, owner) entry. *)
Inductive loc := Diag (c : nat) | Upper (f : nat) | Lower (f : nat).

Definition loc_valid (m : mesh) (l : loc) : Prop :=
  match l with
  | Diag c => c < nCells m
  | Upper f | Lower f => f < nInternalFaces m
  end.
Definition loc_row (m : mesh) (l : loc) : nat :=
  match l with
  | Diag c => c
  | Upper f => atn (faceOwner m) f
  | Lower f => atn (faceNeighbour m) f
  end.
Definition loc_col (m : mesh) (l : loc) : nat :=
  match l with
  | Diag c => c
  | Upper f => atn (faceNeighbour m) f
  | Lower f => atn (faceOwner m) f
  end.

(** Where a pattern says the entry is: start of the row plus stored offset. *)
Definition loc_slot (m : mesh) (p : sparsity) (l : loc) : nat :=
  atn (sp_rowPtrs p) (loc_row m l) +
  match l with
  | Diag c => atn (sp_diagOffset p) c
  | Upper f => atn (sp_ownerOffset p) f
  | Lower f => atn (sp_neighbourOffset p) f
  end.

(** The columns of row [c]: [c] itself and, once per internal face of [c], the
    cell on the other side. *)
Definition faces_owned (m : mesh) (c : nat) : list nat :=
  filter (fun f => atn (faceOwner m) f = c) (seq 0 (nInternalFaces m)).
Definition faces_neighboured (m : mesh) (c : nat) : list nat :=
  filter (fun f => atn (faceNeighbour m) f = c) (seq 0 (nInternalFaces m)).
Definition row_spec (m : mesh) (c : nat) : list nat :=
  c :: map (atn (faceNeighbour m)) (faces_owned m c)
    ++ map (atn (faceOwner m)) (faces_neighboured m c).

Definition row_of (p : sparsity) (c : nat) : list nat :=
  take (atn (sp_rowPtrs p) (c + 1) - atn (sp_rowPtrs p) c)
       (drop (atn (sp_rowPtrs p) c) (sp_colIdxs p)).

(** The CSR structure. *)
Record pattern_rows (m : mesh) (p : sparsity) : Prop := {
  pr_rows : sp_rows p = nCells m;
  pr_nnz : sp_nnz p = nCells m + 2 * nInternalFaces m;
  pr_rp_len : length (sp_rowPtrs p) = nCells m + 1;
  pr_rp_0 : sp_rowPtrs p !! 0 = Some 0;
  pr_rp_end : sp_rowPtrs p !! nCells m = Some (sp_nnz p);
  pr_rp_mono : forall c, c < nCells m -> atn (sp_rowPtrs p) c < atn (sp_rowPtrs p) (c + 1);
  pr_row : forall c, c < nCells m -> row_of p c ≡ₚ row_spec m c;
  pr_own_len : length (sp_ownerOffset p) = nInternalFaces m;
  pr_nei_len : length (sp_neighbourOffset p) = nInternalFaces m;
}.

(** The offsets locate the entries: each slot belongs to the right row, holds
    the right column, and every stored slot is that of exactly one entry. *)
Record pattern_located (m : mesh) (p : sparsity) : Prop := {
  pl_in_row : forall l, loc_valid m l ->
    atn (sp_rowPtrs p) (loc_row m l) <= loc_slot m p l < atn (sp_rowPtrs p) (loc_row m l + 1);
  pl_col : forall l, loc_valid m l -> sp_colIdxs p !! loc_slot m p l = Some (loc_col m l);
  pl_inj : forall l l', loc_valid m l -> loc_valid m l' -> loc_slot m p l = loc_slot m p l' -> l = l';
  pl_onto : forall k, k < sp_nnz p -> exists l, loc_valid m l /\ loc_slot m p l = k;
}.

(** No row has more entries than an 8-bit offset can address. *)
Definition rows_fit (m : mesh) : Prop :=
  forall c, c < nCells m -> length (row_spec m c) <= 256.

(** Columns strictly increasing within each row. *)
Definition pattern_sorted (m : mesh) (p : sparsity) : Prop :=
  forall c i j x y, c < nCells m -> i < j ->
    row_of p c !! i = Some x -> row_of p c !! j = Some y -> x < y.

(** The faces of a cell, in the numbering that counts boundary faces after the
    internal ones. *)
Definition cell_faces (m : mesh) (c : nat) : list nat :=
  faces_owned m c ++ faces_neighboured m c ++
  map (Nat.add (nInternalFaces m))
      (filter (fun b => atn (bFaceCells (bmesh m)) b = c) (seq 0 (nBoundaryFaces m))).

Definition segment_values (sg : segmented) (values : list nat) (c : nat) : list nat :=
  take (atn (segments sg) (c + 1) - atn (segments sg) c) (drop (atn (segments sg) c) values).

(** All the mesh has to satisfy for the two algorithms: the faces refer to
    existing cells. *)
Record connectivity (m : mesh) : Prop := {
  cn_owner : forall f, f < nInternalFaces m ->
    exists c, faceOwner m !! f = Some c /\ c < nCells m;
  cn_nei : forall f, f < nInternalFaces m ->
    exists c, faceNeighbour m !! f = Some c /\ c < nCells m;
  cn_fc : forall b c, bFaceCells (bmesh m) !! b = Some c -> c < nCells m;
  cn_nb : length (bFaceCells (bmesh m)) = nBoundaryFaces m;
}.
