(** Finite-volume operators: interpolation, face-normal gradient and the
    explicit operators.

    An array being written is array 0 of the kernel memory.  Out-of-bounds
    reads of input arrays make the kernel body [None] (undefined behaviour). *)
From Verif Require Import Base Par Exec Value Kernel Mesh Coeff.

Section fv.
  Context {V : Type} `{ValueType V}.
  Notation mem := (list (list V)).

  (** VolumeField: internal values and BoundaryFields
      (include/NeoFOAM/fields/domainField.hpp, boundaryFields.hpp). *)
  Record volField := VolField {
    vf_int : list V;
    vf_value : list V;
    vf_refValue : list V;
    vf_valueFraction : list Qc;
    vf_refGrad : list V;
  }.

  (** src/finiteVolume/cellCentred/interpolation/linear.cpp:33-44 *)
  Definition linear_kernel (m : mesh) (src : volField) (weights : list Qc) : kernel V := fun facei =>
    if decide (facei < nInternalFaces m) then
      own ← faceOwner m !! facei;
      nei ← faceNeighbour m !! facei;
      w ← weights !! facei;
      so ← vf_int src !! own;
      sn ← vf_int src !! nei;
      Some [SSet (0, facei) (vadd (vscale w so) (vscale (1 - w)%Qc sn))]
    else
      w ← weights !! facei;
      b ← vf_value src !! (facei - nInternalFaces m);
      Some [SSet (0, facei) (vscale w b)].

  (** linear.cpp:12-46; dst.size() = length of array 0. *)
  Definition computeLinearInterpolation (e : executor) (m : mesh) (src : volField)
    (weights : list Qc) (dst : list V) (r : option mem) : Prop :=
    pfor e 0 (length dst) (linear_kernel m src weights) [dst] r.

  (** src/finiteVolume/cellCentred/interpolation/upwind.cpp:35-53 *)
  Definition upwind_kernel (m : mesh) (src : volField) (flux weights : list Qc) : kernel V := fun facei =>
    if decide (facei < nInternalFaces m) then
      fl ← flux !! facei;
      if Qclt_le_dec fl 0 then
        nei ← faceNeighbour m !! facei;
        sn ← vf_int src !! nei;
        Some [SSet (0, facei) sn]
      else
        own ← faceOwner m !! facei;
        so ← vf_int src !! own;
        Some [SSet (0, facei) so]
    else
      w ← weights !! facei;
      b ← vf_value src !! (facei - nInternalFaces m);
      Some [SSet (0, facei) (vscale w b)].

  (** upwind.cpp:12-56 *)
  Definition computeUpwindInterpolation (e : executor) (m : mesh) (src : volField)
    (flux weights : list Qc) (dst : list V) (r : option mem) : Prop :=
    pfor e 0 (length dst) (upwind_kernel m src flux weights) [dst] r.

  (** src/finiteVolume/cellCentred/faceNormalGradient/uncorrected.cpp:37-38 *)
  Definition fng_internal_kernel (m : mesh) (phi : volField) (nonOrthDC : list Qc) : kernel V := fun facei =>
    dc ← nonOrthDC !! facei;
    nei ← faceNeighbour m !! facei;
    own ← faceOwner m !! facei;
    pn ← vf_int phi !! nei;
    po ← vf_int phi !! own;
    Some [SSet (0, facei) (vscale dc (vsub pn po))].

  (** uncorrected.cpp:45-50 *)
  Definition fng_boundary_kernel (m : mesh) (phi : volField) (nonOrthDC : list Qc) : kernel V := fun facei =>
    own ← bFaceCells (bmesh m) !! (facei - nInternalFaces m);
    dc ← nonOrthDC !! facei;
    b ← vf_value phi !! (facei - nInternalFaces m);
    po ← vf_int phi !! own;
    Some [SSet (0, facei) (vscale dc (vsub b po))].

  (** uncorrected.cpp:11-52 *)
  Definition computeFaceNormalGrad (e : executor) (m : mesh) (phi : volField)
    (nonOrthDC : list Qc) (dst : list V) (r : option mem) : Prop :=
    pseq (pfor e 0 (nInternalFaces m) (fng_internal_kernel m phi nonOrthDC))
         (pfor e (nInternalFaces m) (length dst) (fng_boundary_kernel m phi nonOrthDC))
         [dst] r.

  (** ** Divergence: src/finiteVolume/cellCentred/operators/gaussGreenDiv.cpp *)

  (** l.40-45: serial loop over internal faces *)
  Definition div_internal_serial (neighbour owner : list nat) (faceFlux : list Qc) (phiF : list V)
    : kernel V := fun i =>
    fl ← faceFlux !! i;
    p ← phiF !! i;
    o ← owner !! i;
    n ← neighbour !! i;
    Some [SAdd (0, o) (vscale fl p); SSub (0, n) (vscale fl p)].

  (** l.47-52 *)
  Definition div_boundary_serial (nInt : nat) (faceCells : list nat) (faceFlux : list Qc)
    (phiF : list V) : kernel V := fun i =>
    own ← faceCells !! (i - nInt);
    fl ← faceFlux !! i;
    p ← phiF !! i;
    Some [SAdd (0, own) (vscale fl p)].

  (** l.65-69 *)
  Definition div_internal_atomic (neighbour owner : list nat) (faceFlux : list Qc) (phiF : list V)
    : kernel V := fun i =>
    fl ← faceFlux !! i;
    p ← phiF !! i;
    o ← owner !! i;
    n ← neighbour !! i;
    Some [SAtomicAdd (0, o) (vscale fl p); SAtomicSub (0, n) (vscale fl p)].

  (** l.76-80 *)
  Definition div_boundary_atomic (nInt : nat) (faceCells : list nat) (faceFlux : list Qc)
    (phiF : list V) : kernel V := fun i =>
    own ← faceCells !! (i - nInt);
    fl ← faceFlux !! i;
    p ← phiF !! i;
    Some [SAtomicAdd (0, own) (vscale fl p)].

  (** l.55-58, l.87: res[celli] *= operatorScaling[celli] / v[celli] *)
  Definition normalize_kernel (v : list Qc) (scaling : Coeff) : kernel V := fun celli =>
    s ← coeff_at scaling celli;
    x ← v !! celli;
    Some [SScale (0, celli) (s / x)%Qc].

  (** l.21-91 computeDiv; [res] is the view handed in. *)
  Definition computeDiv (e : executor) (nInt nB : nat) (neighbour owner faceCells : list nat)
    (faceFlux : list Qc) (phiF : list V) (v : list Qc) (res : list V) (scaling : Coeff)
    (r : option mem) : Prop :=
    match e with
    | SerialExecutor =>
        pseq (pfor SerialExecutor 0 nInt (div_internal_serial neighbour owner faceFlux phiF))
        (pseq (pfor SerialExecutor nInt (nInt + nB) (div_boundary_serial nInt faceCells faceFlux phiF))
              (pfor SerialExecutor 0 (length v) (normalize_kernel v scaling)))
        [res] r
    | _ =>
        pseq (pfor e 0 nInt (div_internal_atomic neighbour owner faceFlux phiF))
        (pseq (pfor e nInt (nInt + nB) (div_boundary_atomic nInt faceCells faceFlux phiF))
              (pfor e 0 (length v) (normalize_kernel v scaling)))
        [res] r
    end.

  (** Interpolation schemes selectable for the divergence
      (interpolation/linear.hpp:57-67, interpolation/upwind.hpp:63-70). *)
  Inductive interpScheme := Linear | Upwind.

  Definition interpolate (s : interpScheme) (e : executor) (m : mesh) (flux : list Qc)
    (src : volField) (weights : list Qc) (dst : list V) (r : option mem) : Prop :=
    match s with
    | Linear => computeLinearInterpolation e m src weights dst r
    | Upwind => computeUpwindInterpolation e m src flux weights dst r
    end.

  (** l.93-130 computeDivExp.  [junk]: the uninitialised face field of l.104; the
      boundary part overwritten in l.112 is never read. *)
  Definition computeDivExp (e : executor) (m : mesh) (faceFlux : list Qc) (phi : volField)
    (s : interpScheme) (weights : list Qc) (junk : list V) (divPhi : list V) (scaling : Coeff)
    (r : option mem) : Prop :=
    (interpolate s e m faceFlux phi weights junk None /\ r = None) \/
    exists phif, interpolate s e m faceFlux phi weights junk (Some [phif]) /\
      computeDiv e (nInternalFaces m) (nBoundaryFaces m) (faceNeighbour m) (faceOwner m)
        (bFaceCells (bmesh m)) faceFlux phif (cellVolumes m) divPhi scaling r.

  (** ** Surface integral: src/finiteVolume/cellCentred/operators/surfaceIntegrate.cpp *)

  (** l.29-32 *)
  Definition si_internal_kernel (neighbour owner : list nat) (flux : list V) : kernel V := fun i =>
    fl ← flux !! i;
    o ← owner !! i;
    n ← neighbour !! i;
    Some [SAtomicAdd (0, o) fl; SAtomicSub (0, n) fl].

  (** l.38-41 *)
  Definition si_boundary_kernel (nInt : nat) (faceCells : list nat) (flux : list V) : kernel V := fun i =>
    own ← faceCells !! (i - nInt);
    fl ← flux !! i;
    Some [SAtomicAdd (0, own) fl].

  (** l.11-49 *)
  Definition surfaceIntegrate (e : executor) (nInt : nat) (neighbour owner faceCells : list nat)
    (flux : list V) (v : list Qc) (res : list V) (scaling : Coeff) (r : option mem) : Prop :=
    pseq (pfor e 0 nInt (si_internal_kernel neighbour owner flux))
    (pseq (pfor e nInt (nInt + length faceCells) (si_boundary_kernel nInt faceCells flux))
          (pfor e 0 (length v) (normalize_kernel v scaling)))
    [res] r.

  (** ** Laplacian: src/finiteVolume/cellCentred/operators/gaussGreenLaplacian.cpp *)

  (** l.45-49 *)
  Definition lap_internal_kernel (m : mesh) (fnGrad : list V) : kernel V := fun i =>
    fa ← magFaceAreas m !! i;
    g ← fnGrad !! i;
    o ← faceOwner m !! i;
    n ← faceNeighbour m !! i;
    Some [SAtomicAdd (0, o) (vscale fa g); SAtomicSub (0, n) (vscale fa g)].

  (** l.55-59 *)
  Definition lap_boundary_kernel (m : mesh) (fnGrad : list V) : kernel V := fun i =>
    own ← bFaceCells (bmesh m) !! (i - nInternalFaces m);
    fa ← magFaceAreas m !! i;
    g ← fnGrad !! i;
    Some [SAtomicAdd (0, own) (vscale fa g)].

  (** l.11-67 computeLaplacianExp.  The diffusion coefficient [gamma] is an
      argument the body never uses.  [junk]: the uninitialised face field of
      faceNormalGrad(phi) (faceNormalGradient.hpp). *)
  Definition computeLaplacianExp (e : executor) (m : mesh) (nonOrthDC : list Qc)
    (gamma : list Qc) (phi : volField) (junk : list V) (lapPhi : list V) (scaling : Coeff)
    (r : option mem) : Prop :=
    (computeFaceNormalGrad e m phi nonOrthDC junk None /\ r = None) \/
    exists fnGrad, computeFaceNormalGrad e m phi nonOrthDC junk (Some [fnGrad]) /\
      pseq (pfor e 0 (nInternalFaces m) (lap_internal_kernel m fnGrad))
      (pseq (pfor e (nInternalFaces m) (length fnGrad) (lap_boundary_kernel m fnGrad))
            (pfor e 0 (nCells m) (normalize_kernel (cellVolumes m) scaling)))
      [lapPhi] r.

  (** ** explicitOperation of the operators used in expressions:
      divOperator.hpp:129-136, laplacianOperator.hpp:124-131,
      surfaceIntegrate.hpp:48-69: evaluate into a zero-filled temporary, then
      [source += tmp] (element-wise, C01). *)
  Definition add_tmp (op : list V -> option mem -> Prop) (source : list V) (r : option (list V)) : Prop :=
    (op (replicate (length source) vzero) None /\ r = None) \/
    exists tmp, op (replicate (length source) vzero) (Some [tmp]) /\
      r = Some (zip_with vadd source tmp).

  Definition div_explicitOperation (e : executor) (m : mesh) (faceFlux : list Qc) (phi : volField)
    (s : interpScheme) (weights : list Qc) (junk : list V) (scaling : Coeff) (source : list V)
    (r : option (list V)) : Prop :=
    add_tmp (fun t => computeDivExp e m faceFlux phi s weights junk t scaling) source r.

  Definition laplacian_explicitOperation (e : executor) (m : mesh) (nonOrthDC gamma : list Qc)
    (phi : volField) (junk : list V) (scaling : Coeff) (source : list V)
    (r : option (list V)) : Prop :=
    add_tmp (fun t => computeLaplacianExp e m nonOrthDC gamma phi junk t scaling) source r.

  Definition surfaceIntegrate_explicitOperation (e : executor) (m : mesh) (flux : list V)
    (scaling : Coeff) (source : list V) (r : option (list V)) : Prop :=
    add_tmp (fun t => surfaceIntegrate e (nInternalFaces m) (faceNeighbour m) (faceOwner m)
                        (bFaceCells (bmesh m)) flux (cellVolumes m) t scaling) source r.
End fv.
Arguments volField : clear implicits.

(** ** Gradient: src/finiteVolume/cellCentred/operators/gaussGreenGrad.cpp *)

(** l.48-52 *)
Definition grad_internal_kernel (m : mesh) (phif : list Qc) : kernel vec := fun i =>
  sf ← faceAreas m !! i;
  p ← phif !! i;
  o ← faceOwner m !! i;
  n ← faceNeighbour m !! i;
  Some [SAtomicAdd (0, o) (vscale p sf); SAtomicSub (0, n) (vscale p sf)].

(** l.58-62 *)
Definition grad_boundary_kernel (m : mesh) (phif : list Qc) : kernel vec := fun i =>
  own ← bFaceCells (bmesh m) !! (i - nInternalFaces m);
  sf ← faceAreas m !! i;
  p ← phif !! i;
  Some [SAtomicAdd (0, own) (vscale p sf)].

(** l.68 *)
Definition grad_normalize_kernel (m : mesh) : kernel vec := fun celli =>
  x ← cellVolumes m !! celli;
  Some [SScale (0, celli) (1 / x)%Qc].

(** l.17-70 computeGrad, and l.78-81 grad(phi, gradPhi); [junk] the
    uninitialised face field of l.25. *)
Definition computeGrad (e : executor) (m : mesh) (phi : volField Qc) (weights : list Qc)
  (junk : list Qc) (out : list vec) (r : option (list (list vec))) : Prop :=
  (computeLinearInterpolation e m phi weights junk None /\ r = None) \/
  exists phif, computeLinearInterpolation e m phi weights junk (Some [phif]) /\
    pseq (pfor e 0 (nInternalFaces m) (grad_internal_kernel m phif))
    (pseq (pfor e (nInternalFaces m) (length phif) (grad_boundary_kernel m phif))
          (pfor e 0 (nCells m) (grad_normalize_kernel m)))
    [out] r.

(** l.83-90 grad(phi): fresh zero-filled field. *)
Definition grad_value (e : executor) (m : mesh) (phi : volField Qc) (weights : list Qc)
  (junk : list Qc) (r : option (list (list vec))) : Prop :=
  computeGrad e m phi weights junk (replicate (nCells m) vec_zero) r.

(** gaussGreenDiv.hpp:81-97 div(...) returning a VolumeField: [uninit] is the
    uninitialised internal field of the freshly constructed result. *)
Definition div_value {V} `{ValueType V} (e : executor) (m : mesh) (faceFlux : list Qc) (phi : volField V)
  (s : interpScheme) (weights : list Qc) (junk uninit : list V) (scaling : Coeff)
  (r : option (list (list V))) : Prop :=
  computeDivExp e m faceFlux phi s weights junk uninit scaling r.
