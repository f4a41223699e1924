(** BasicGeometryScheme: interpolation weights and delta coefficients.
    Numbers are exact: weights are rational functions of the coordinates, so
    they are computed in Qc from the mesh; mag needs square roots, so the delta
    coefficients are computed in R from a geometry with real coordinates. *)
From Coq Require Import Qcabs Reals.
From Verif Require Import Base Par Exec Value Mesh Dsl.

(** [parallelFor(exec, {lo, hi}, w[i] = f(i))]; f(i) = None: an access out of
    bounds. *)
Definition for_each {V} (e : executor) (lo hi : nat) (f : nat -> option V) (w : list V) (r : outcome (list V)) : Prop :=
  lift (exec_result e (iterations lo hi (set_kernel f)) w) r.

(** ** Weights *)
(** core/primitives/scalar.hpp:17 *)
Definition ROOTVSMALL : Qc := Q2Qc (1 # 1000000000000000000).
(** core/primitives/vector.hpp:155-159, 105-108 *)
Definition dot (a b : vec) : Qc := (vx a * vx b + vy a * vy b + vz a * vz b)%Qc.
Definition diff (a b : vec) : vec := Vec (vx a - vx b)%Qc (vy a - vy b)%Qc (vz a - vz b)%Qc.

(** src/finiteVolume/cellCentred/stencil/basicGeometryScheme.cpp:13-48 *)
Definition weight_kernel (m : mesh) (facei : nat) : option Qc :=
  match faceAreas m !! facei, faceCentres m !! facei, faceOwner m !! facei, faceNeighbour m !! facei with
  | Some sf, Some cf, Some own, Some nei =>
      match cellCentres m !! own, cellCentres m !! nei with
      | Some co, Some cn =>
          let sfdOwn := Qcabs (dot sf (diff cf co)) in                       (* l.28-29 *)
          let sfdNei := Qcabs (dot sf (diff cn cf)) in                       (* l.30-31 *)
          Some (if Qclt_le_dec ROOTVSMALL (Qcabs (sfdOwn + sfdNei))          (* l.33 *)
                then (sfdNei / (sfdOwn + sfdNei))%Qc                         (* l.35 *)
                else half)                                                   (* l.39 *)
      | _, _ => None
      end
  | _, _, _, _ => None
  end.
Definition updateWeights (e : executor) (m : mesh) (w : list Qc) (r : outcome (list Qc)) : Prop :=
  rseq (for_each e 0 (nInternalFaces m) (weight_kernel m) w) (fun w1 =>
        for_each e (nInternalFaces m) (length w1) (fun _ => Some 1%Qc) w1) r.  (* l.44-48 *)

(** ** Delta coefficients *)
Record rvec := RVec { rx : R; ry : R; rz : R }.
(** vector.hpp:155-162, 105-108, 120-124 *)
Definition rdot (a b : rvec) : R := (rx a * rx b + ry a * ry b + rz a * rz b)%R.
Definition rdiff (a b : rvec) : rvec := RVec (rx a - rx b) (ry a - ry b) (rz a - rz b).
Definition rscale (k : R) (a : rvec) : rvec := RVec (k * rx a) (k * ry a) (k * rz a).
Definition mag (a : rvec) : R := R_sqrt.sqrt (rx a * rx a + ry a * ry a + rz a * rz a).

(** The parts of UnstructuredMesh these functions read. *)
Record geometry := Geometry {
  g_cellCentres : list rvec;
  g_faceCentres : list rvec;
  g_faceAreas : list rvec;
  g_magFaceAreas : list R;
  g_owner : list nat;
  g_neighbour : list nat;
  g_faceCells : list nat;
  g_nInternal : nat;
}.

Section geom.
  Context (g : geometry).
  (** Vector from the owner's centre to the neighbour's (l.67, 107). *)
  Definition internal_delta (facei : nat) : option rvec :=
    match g_neighbour g !! facei, g_owner g !! facei with
    | Some nei, Some own =>
        match g_cellCentres g !! nei, g_cellCentres g !! own with
        | Some cn, Some co => Some (rdiff cn co)
        | _, _ => None
        end
    | _, _ => None
    end.
  (** From the cell's centre to the boundary face (l.78-79, 121-122). *)
  Definition boundary_delta (facei : nat) : option rvec :=
    match g_faceCells g !! (facei - g_nInternal g), g_faceCentres g !! facei with
    | Some own, Some cf => match g_cellCentres g !! own with Some co => Some (rdiff cf co) | None => None end
    | _, _ => None
    end.

  (** l.51-84 *)
  Definition updateDeltaCoeffs (e : executor) (dc : list R) (r : outcome (list R)) : Prop :=
    rseq (for_each e 0 (g_nInternal g) (fun facei =>
            match internal_delta facei with Some d => Some (1 / mag d)%R | None => None end) dc) (fun dc1 =>
          for_each e (g_nInternal g) (length dc1) (fun facei =>
            match boundary_delta facei with Some d => Some (1 / mag d)%R | None => None end) dc1) r.

  (** l.107-113, 121-128 *)
  Definition nonOrthDelta (facei : nat) (d : rvec) : option R :=
    match g_magFaceAreas g !! facei, g_faceAreas g !! facei with
    | Some area, Some sf =>
        let faceNormal := rscale (1 / area) sf in
        let orthoDist := rdot faceNormal d in
        Some (1 / Rmax orthoDist (5 / 100 * mag d))%R
    | _, _ => None
    end.
  (** l.87-135; the area and area vector are those of the face itself. *)
  Definition updateNonOrthDeltaCoeffs (e : executor) (dc : list R) (r : outcome (list R)) : Prop :=
    rseq (for_each e 0 (length dc) (fun _ => Some 0%R) dc) (fun dc0 =>                    (* l.99 *)
    rseq (for_each e 0 (g_nInternal g) (fun facei =>
            match internal_delta facei with Some d => nonOrthDelta facei d | None => None end) dc0) (fun dc1 =>
          for_each e (g_nInternal g) (length dc1) (fun facei =>
            match boundary_delta facei with Some d => nonOrthDelta facei d | None => None end) dc1)) r.
End geom.
