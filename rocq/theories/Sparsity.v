(** SparsityPattern and CellToFaceStencil. *)
From Verif Require Import Base Par Exec Reduce Kernel Ticket Mesh.

(** Sequencing: undefined behaviour of a kernel is undefined behaviour of the
    caller. *)
Definition ubind {A B} (p : option A -> Prop) (k : A -> outcome B -> Prop) (r : outcome B) : Prop :=
  (p None /\ r = UB) \/ (exists a, p (Some a) /\ k a r).

(** static_cast<uint8_t>: sparsityPattern.cpp:77, 90, 107 *)
Definition uint8 (n : nat) : nat := n mod 256.

(** fill(field, v) on a field of n elements: fieldFreeFunctions.hpp:49-63 (the
    default range {0,0} means the whole field). *)
Definition ifill (e : executor) (v : nat) (arr : list nat) (r : option (list nat)) : Prop :=
  exec_result e (iterations 0 (length arr) (set_kernel (fun _ => Some v))) arr r.

(** * include/NeoFOAM/finiteVolume/cellCentred/linearAlgebra/sparsityPattern.hpp:20-67 *)
Record sparsity := Sparsity {
  sp_rowPtrs : list nat;
  sp_colIdxs : list nat;
  sp_ownerOffset : list nat;
  sp_neighbourOffset : list nat;
  sp_diagOffset : list nat;
}.

(** sparsityPattern.hpp:48-50 *)
Definition sp_rows (p : sparsity) : nat := length (sp_diagOffset p).
Definition sp_nnz (p : sparsity) : nat := length (sp_colIdxs p).

(** The arrays written by the kernels of update():
    0 nFacesPerCell, 1 neighbourOffset_, 2 ownerOffset_, 3 diagOffset_, 4 colIdxs_. *)

(** sparsityPattern.cpp:47-58 *)
Definition sp_count_kernel (m : mesh) (facei : nat) : option (list tinstr) :=
  owner ← faceOwner m !! facei;
  neighbour ← faceNeighbour m !! facei;
  Some [TFetch (0, owner); TFetch (0, neighbour)].

(** sparsityPattern.cpp:67-84, lower triangular part *)
Definition sp_lower_kernel (m : mesh) (rowPtrs : list nat) (facei : nat) : option (list tinstr) :=
  neighbour ← faceNeighbour m !! facei;                                   (* l.71 *)
  owner ← faceOwner m !! facei;                                           (* l.72 *)
  startSegNei ← rowPtrs !! neighbour;                                     (* l.79 *)
  Some [ TFetch (0, neighbour);                                           (* l.76 *)
         TPut 0 (fun seg => ((1, facei), uint8 seg));                     (* l.77 *)
         TPut 0 (fun seg => ((4, startSegNei + seg), owner)) ].           (* l.82 *)

(** sparsityPattern.cpp:86-94: map(field, f) assigns f(celli) to field[celli]
    (fieldFreeFunctions.hpp:27-41). *)
Definition sp_diag_kernel (rowPtrs : list nat) (celli : nat) : option (list tinstr) :=
  startSeg ← rowPtrs !! celli;
  Some [ TLoad (0, celli);                                                (* l.89 *)
         TPut 0 (fun nFaces => ((3, celli), uint8 nFaces));               (* l.90 *)
         TPut 0 (fun nFaces => ((4, startSeg + nFaces), celli));          (* l.91 *)
         TPut 0 (fun nFaces => ((0, celli), nFaces + 1)) ].               (* l.92 *)

(** sparsityPattern.cpp:97-114, upper triangular part *)
Definition sp_upper_kernel (m : mesh) (rowPtrs : list nat) (facei : nat) : option (list tinstr) :=
  neighbour ← faceNeighbour m !! facei;                                   (* l.101 *)
  owner ← faceOwner m !! facei;                                           (* l.102 *)
  startSegOwn ← rowPtrs !! owner;                                         (* l.109 *)
  Some [ TFetch (0, owner);                                               (* l.106 *)
         TPut 0 (fun seg => ((2, facei), uint8 seg));                     (* l.107 *)
         TPut 0 (fun seg => ((4, startSegOwn + seg), neighbour)) ].       (* l.112 *)

(** SparsityPattern::update(), sparsityPattern.cpp:30-115. *)
Definition sp_update (e : executor) (m : mesh) (p : sparsity) (r : outcome sparsity) : Prop :=
  let nI := nInternalFaces m in
  ubind (tfor e 0 nI (sp_count_kernel m)                                   (* l.40-58 *)
           [replicate (nCells m) 1; sp_neighbourOffset p; sp_ownerOffset p;
            sp_diagOffset p; sp_colIdxs p])
  (fun m1 r =>
    match m1 with
    | [counts; nOff; oOff; dOff; cols] =>
        exists chunks order, scan_plan (length counts) chunks order /\
        match segmentsFromIntervals counts (sp_rowPtrs p) chunks order with   (* l.61 *)
        | Ok (_, rowPtrs) =>
            ubind (ifill e 0 counts)                                           (* l.64 *)
            (fun zeros =>
            ubind (tfor e 0 nI (sp_lower_kernel m rowPtrs) [zeros; nOff; oOff; dOff; cols])
            (fun m2 =>
            ubind (tfor e 0 (nCells m) (sp_diag_kernel rowPtrs) m2)            (* l.86 *)
            (fun m3 =>
            ubind (tfor e 0 nI (sp_upper_kernel m rowPtrs) m3)
            (fun m4 r =>
              match m4 with
              | [_; nOff'; oOff'; dOff'; cols'] =>
                  r = Ok (Sparsity rowPtrs cols' oOff' nOff' dOff')
              | _ => r = UB   (* not reachable: kernels keep the number of arrays *)
              end)))) r
        | Throw x => r = Throw x
        | Exit => r = Exit
        | UB => r = UB
        end
    | _ => r = UB             (* not reachable *)
    end) r.

(** Constructor, sparsityPattern.cpp:10-18. *)
Definition sp_create (e : executor) (m : mesh) (r : outcome sparsity) : Prop :=
  sp_update e m
    (Sparsity (replicate (nCells m + 1) 0)
              (replicate (nCells m + 2 * nInternalFaces m) 0)
              (replicate (nInternalFaces m) 0)
              (replicate (nInternalFaces m) 0)
              (replicate (nCells m) 0)) r.

(** * src/finiteVolume/cellCentred/stencil/cellToFaceStencil.cpp *)

(** Arrays: 0 nFacesPerCell, 1 stencilValues.  l.22-30 *)
Definition st_count_kernel (m : mesh) (i : nat) : option (list tinstr) :=
  owner ← faceOwner m !! i;
  neighbour ← faceNeighbour m !! i;
  Some [TFetch (0, owner); TFetch (0, neighbour)].

(** l.32-38 *)
Definition st_bcount_kernel (m : mesh) (i : nat) : option (list tinstr) :=
  owner ← bFaceCells (bmesh m) !! i;
  Some [TFetch (0, owner)].

(** l.45-64 *)
Definition st_face_kernel (m : mesh) (segment : list nat) (facei : nat) : option (list tinstr) :=
  owner ← faceOwner m !! facei;
  neighbour ← faceNeighbour m !! facei;
  startSegOwn ← segment !! owner;
  startSegNei ← segment !! neighbour;
  Some [ TFetch (0, owner);                                         (* l.53 *)
         TFetch (0, neighbour);                                     (* l.56 *)
         TPut 0 (fun seg => ((1, startSegOwn + seg), facei));       (* l.60 *)
         TPut 1 (fun seg => ((1, startSegNei + seg), facei)) ].     (* l.61 *)

(** l.65-77; iterations run over [nInternalFaces, nInternalFaces + n). *)
Definition st_bface_kernel (m : mesh) (segment : list nat) (facei : nat) : option (list tinstr) :=
  owner ← bFaceCells (bmesh m) !! (facei - nInternalFaces m);
  startSegOwn ← segment !! owner;
  Some [ TFetch (0, owner);
         TPut 0 (fun seg => ((1, startSegOwn + seg), facei)) ].

(** CellToFaceStencil::computeStencil(), l.11-81.  [junk n]: the uninitialised
    contents of the values of a new SegmentedField with n values. *)
Definition computeStencil (e : executor) (m : mesh) (junk : nat -> list nat)
  (r : outcome (segmented * list nat)) : Prop :=
  let nI := nInternalFaces m in
  let nB := length (bFaceCells (bmesh m)) in
  ubind (tfor e 0 nI (st_count_kernel m) [replicate (nCells m) 0])
  (fun m1 =>
  ubind (tfor e 0 nB (st_bcount_kernel m) m1)
  (fun m2 r =>
    match m2 with
    | [counts] =>
        exists chunks order, scan_plan (length counts) chunks order /\
        match segmentedField counts chunks order with                  (* l.40 *)
        | Ok sg =>
            ubind (ifill e 0 counts)                                   (* l.43 *)
            (fun zeros =>
            ubind (tfor e 0 nI (st_face_kernel m (segments sg)) [zeros; junk (seg_size sg)])
            (fun m3 =>
            ubind (tfor e nI (nI + nB) (st_bface_kernel m (segments sg)) m3)
            (fun m4 r =>
              match m4 with
              | [_; values] => r = Ok (sg, values)
              | _ => r = UB       (* not reachable *)
              end))) r
        | Throw x => r = Throw x
        | Exit => r = Exit
        | UB => r = UB
        end
    | _ => r = UB                 (* not reachable *)
    end)) r.
