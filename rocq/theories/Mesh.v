(** UnstructuredMesh, BoundaryMesh and the two mesh generators. *)
From Coq Require Import Qcabs.
From Verif Require Import Base Par Exec Value.

(** include/NeoFOAM/mesh/unstructured/boundaryMesh.hpp:26-280,
    src/mesh/unstructured/boundaryMesh.cpp:9-23.  Labels are non-negative and
    modelled by nat. *)
Record boundaryMesh := BoundaryMesh {
  bFaceCells : list nat;      (* faceCells_   *)
  bCf : list vec;             (* Cf_          *)
  bCn : list vec;             (* Cn_          *)
  bSf : list vec;             (* Sf_          *)
  bMagSf : list Qc;           (* magSf_       *)
  bNf : list vec;             (* nf_          *)
  bDelta : list vec;          (* delta_       *)
  bWeights : list Qc;         (* weights_     *)
  bDeltaCoeffs : list Qc;     (* deltaCoeffs_ *)
  bOffset : list nat;         (* offset_      *)
}.

(** src/mesh/unstructured/unstructuredMesh.cpp:12-33 (executor and stencil
    data base are modelled elsewhere). *)
Record mesh := Mesh {
  points : list vec;
  cellVolumes : list Qc;
  cellCentres : list vec;
  faceAreas : list vec;
  faceCentres : list vec;
  magFaceAreas : list Qc;
  faceOwner : list nat;
  faceNeighbour : list nat;
  nCells : nat;
  nInternalFaces : nat;
  nBoundaryFaces : nat;
  nBoundaries : nat;
  nFaces : nat;
  bmesh : boundaryMesh;
}.

(** boundaryMesh.cpp:29-36 extractSubSpan: out-of-range offsets are undefined
    behaviour. *)
Definition extractSubSpan {A} (field : list A) (offsets : list nat) (i : nat) : outcome (list A) :=
  match offsets !! i, offsets !! (i + 1) with
  | Some s, Some t =>
      if bool_decide (s <= t) && bool_decide (t <= length field)
      then Ok (take (t - s) (drop s field)) else UB
  | _, _ => UB
  end.

(** boundaryMesh.cpp:39-98: the per-patch accessors. *)
Definition patch_faceCells b i := extractSubSpan (bFaceCells b) (bOffset b) i.
Definition patch_cf b i := extractSubSpan (bCf b) (bOffset b) i.
Definition patch_cn b i := extractSubSpan (bCn b) (bOffset b) i.
Definition patch_sf b i := extractSubSpan (bSf b) (bOffset b) i.
Definition patch_magSf b i := extractSubSpan (bMagSf b) (bOffset b) i.
Definition patch_nf b i := extractSubSpan (bNf b) (bOffset b) i.
Definition patch_delta b i := extractSubSpan (bDelta b) (bOffset b) i.
Definition patch_weights b i := extractSubSpan (bWeights b) (bOffset b) i.
Definition patch_deltaCoeffs b i := extractSubSpan (bDeltaCoeffs b) (bOffset b) i.

(** unstructuredMesh.cpp:68-110 createSingleCellMesh *)
Definition half : Qc := (1 / (1 + 1))%Qc.

Definition createSingleCellMesh : mesh :=
  let faceAreasVectors := [Vec (-(1)) 0 0; Vec 0 1 0; Vec 1 0 0; Vec 0 (-(1)) 0] in      (* l.75 *)
  let faceCentresVectors := [Vec 0 half 0; Vec half 1 0; Vec 1 half 0; Vec half 0 0] in  (* l.76-78 *)
  let mags := [1; 1; 1; 1]%Qc in                                                    (* l.79 *)
  let boundary := BoundaryMesh                                                      (* l.81-93 *)
     [0; 0; 0; 0]%nat
     faceCentresVectors
     faceAreasVectors
     faceAreasVectors
     mags
     faceAreasVectors
     [Vec (-half) 0 0; Vec 0 half 0; Vec half 0 0; Vec 0 (-half) 0]
     [1; 1; 1; 1]%Qc
     [1 + 1; 1 + 1; 1 + 1; 1 + 1]%Qc
     [0; 1; 2; 3; 4]%nat in
  Mesh                                                                              (* l.94-109 *)
    [Vec 0 0 0; Vec 0 1 0; Vec 1 1 0; Vec 1 0 0]
    [1%Qc]
    [Vec half half 0]
    faceAreasVectors
    faceCentresVectors
    mags
    [0; 0; 0; 0]%nat
    []
    1 0 4 4 4 boundary.

(** Sequencing of computations that may end in undefined behaviour (None). *)
Definition rbind {A B} (p : option A -> Prop) (k : A -> option B -> Prop) (r : option B) : Prop :=
  (p None /\ r = None) \/ (exists a, p (Some a) /\ k a r).

(** [v[i][0] = f i] *)
Definition set_x (f : nat -> Qc) (i : nat) (v : vec) : option vec :=
  Some (Vec (f i) (vy v) (vz v)).

(** unstructuredMesh.cpp:166-173: iteration i writes faceOwner[i] and
    faceNeighbour[i]. *)
Definition connect_kernel (i : nat) : thread (list nat * list nat) unit :=
  (tt,
   [ (fun s l => match s.1 !! i with
                 | Some _ => Some ((<[i := i]> s.1, s.2), l) | None => None end);
     (fun s l => match s.2 !! i with
                 | Some _ => Some ((s.1, <[i := i + 1]> s.2), l) | None => None end) ]).

(** mag of a vector whose y and z components are 0 (vector.hpp:161-162:
    sqrt(x*x) = |x|). *)
Definition mag_x (v : vec) : Qc := Qcabs (vx v).

(** unstructuredMesh.cpp:112-219 create1DUniformMesh(exec, nCells).
    [ownJunk], [neiJunk]: the uninitialised contents of the label fields
    constructed in l.156-157.  For nCells = 0 the index nCells-1 of l.120
    wraps around: undefined behaviour. *)
Definition create1DUniformMesh (e : executor) (n : nat) (ownJunk neiJunk : list nat)
  (r : option mesh) : Prop :=
  if decide (n = 0) then r = None else
  let left := Vec 0 0 0 in                                          (* l.114 *)
  let right := Vec 1 0 0 in                                         (* l.115 *)
  let h := ((vx right - vx left) / Qc_of_nat n)%Qc in                    (* l.116 *)
  let pts0 := <[n := right]> (<[n - 1 := left]> (replicate (n + 1) (Vec 0 0 0))) in  (* l.118-122 *)
  rbind (exec_result e                                                   (* l.127-133 *)
           (iterations 0 (n - 1)
              (rmw_kernel (set_x (fun i => vx left + Qc_of_nat (i + 1) * h)%Qc))) pts0)
  (fun pts =>
  let vols := replicate n h in                                           (* l.135 *)
  rbind (exec_result e                                                   (* l.137-145 *)
           (iterations 0 n
              (rmw_kernel (set_x (fun i => half * h + h * Qc_of_nat i)%Qc)))
           (replicate n (Vec 0 0 0)))
  (fun centres =>
  let areas := <[n - 1 := Vec (-(1)) 0 0]> (replicate (n + 1) (Vec 1 0 0)) in  (* l.148-151 *)
  let fcs := pts in                                                      (* l.153 *)
  let mags := replicate (n + 1) 1%Qc in                                  (* l.154 *)
  let own0 := <[n := n - 1]> (<[n - 1 := 0]> ownJunk) in        (* l.156-161 *)
  rbind (exec_result e (iterations 0 (n - 1) connect_kernel) (own0, neiJunk))  (* l.166-173 *)
  (fun on =>
  match centres !! 0, centres !! (n - 1) with
  | Some c0, Some cn =>
      let d0 := Vec (vx left - vx c0) 0 0 in                        (* l.179 *)
      let d1 := Vec (vx right - vx cn) 0 0 in                       (* l.180 *)
      let dcs := [1 / mag_x d0; 1 / mag_x d1]%Qc in                      (* l.183-187 *)
      let boundary := BoundaryMesh                                       (* l.189-201 *)
          [0; n - 1]
          [left; right]
          [c0; cn]
          [Vec (-(1)) 0 0; Vec 1 0 0]
          [1; 1]%Qc
          [Vec (-(1)) 0 0; Vec 1 0 0]
          [d0; d1]
          [1; 1]%Qc
          dcs
          [0; 1; 2] in
      fun r => r = Some (Mesh pts vols centres areas fcs mags on.1 on.2   (* l.203-218 *)
                          n (n - 1) 2 2 (n + 1) boundary)
  | _, _ => fun r => r = None
  end))) r.
