(** What the user of  imp::ddt(T) - exp::laplacian(gamma, T)  with forward Euler
    relies on, and of perturbing the data of a transport problem, in terms of
    mesh and field values only. *)
From Verif Require Import Base Value Kernel Mesh MeshSpec FV FVSpec Boundary Properties_Boundary Transport.

Section diffusion.
  (** Mesh; inverse distance per face. *)
  Context (m : mesh) (dc : list Qc).

  (** One explicit step with diffusivity 1. *)
  Definition diffused_step (dt : Qc) (phi : volField Qc) (x : list Qc) : Prop :=
    length x = nCells m /\ forall c, c < nCells m ->
      (at0 (cellVolumes m) c * (at0 x c - at0 (vf_int phi) c) =
       dt * cell_balance m (fun f => at0 (magFaceAreas m) f * normal_gradient m phi dc f) c)%Qc.

  (** Sum of area / distance over the faces of cell [c]. *)
  Definition conductance (c : nat) : Qc :=
    (vsum_over (nInternalFaces m) (fun f => if decide (atn (faceOwner m) f = c) then at0 (magFaceAreas m) f * at0 dc f else 0) +
     vsum_over (nInternalFaces m) (fun f => if decide (atn (faceNeighbour m) f = c) then at0 (magFaceAreas m) f * at0 dc f else 0) +
     vsum_over (nBoundaryFaces m) (fun b => if decide (atn (bFaceCells (bmesh m)) b = c)
        then at0 (magFaceAreas m) (nInternalFaces m + b) * at0 dc (nInternalFaces m + b) else 0))%Qc.
  Definition diffusion_number (dt : Qc) (c : nat) : Qc := (dt * conductance c / at0 (cellVolumes m) c)%Qc.

  Definition face_positive : Prop := forall f, f < nFaces m -> (0 <= at0 (magFaceAreas m) f)%Qc /\ (0 <= at0 dc f)%Qc.
  (** All boundary values between [lo] and [hi]. *)
  Definition boundary_within (lo hi : Qc) (phi : volField Qc) : Prop :=
    forall b, b < nBoundaryFaces m -> (lo <= at0 (vf_value phi) b)%Qc /\ (at0 (vf_value phi) b <= hi)%Qc.
  (** Boundary conditions that keep them there. *)
  Definition diffusion_conditions (lo hi : Qc) (bcs : list (patch * volBC Qc)) : Prop := forall b, b < nBoundaryFaces m ->
    exists p bc, (p, bc) ∈ bcs /\ in_patch p b /\
      match bc with
      | FixedValue v => (lo <= v)%Qc /\ (v <= hi)%Qc
      | FixedGradient g => g = 0%Qc
      | Extrapolated => True
      | Calculated | EmptyBC => False
      end.
  (** What diffuses in through the boundary per unit time. *)
  Definition boundary_influx (phi : volField Qc) : Qc :=
    vsum_over (nBoundaryFaces m) (fun b => at0 (magFaceAreas m) (nInternalFaces m + b) *
      (at0 dc (nInternalFaces m + b) * (at0 (vf_value phi) b - at0 (vf_int phi) (atn (bFaceCells (bmesh m)) b))))%Qc.
End diffusion.

(** ** Distance between two fields *)
Section distance.
  Context (m : mesh).
  (** At most [eps] apart in every cell. *)
  Definition cells_apart (eps : Qc) (x y : list Qc) : Prop :=
    forall c, c < nCells m -> (at0 x c - at0 y c <= eps)%Qc /\ (at0 y c - at0 x c <= eps)%Qc.
  (** Same kinds of condition and prescribed gradients; prescribed values at most [eps] apart. *)
  Definition boundary_apart (eps : Qc) (phi psi : volField Qc) : Prop := forall b, b < nBoundaryFaces m ->
    at0 (vf_valueFraction phi) b = at0 (vf_valueFraction psi) b /\
    (at0 (vf_valueFraction phi) b = 0%Qc \/
      (at0 (vf_refValue phi) b - at0 (vf_refValue psi) b <= eps)%Qc /\ (at0 (vf_refValue psi) b - at0 (vf_refValue phi) b <= eps)%Qc) /\
    ((1 - at0 (vf_valueFraction phi) b) * at0 (vf_refGrad phi) b = (1 - at0 (vf_valueFraction psi) b) * at0 (vf_refGrad psi) b)%Qc.
  (** Volume-weighted sum of the squared differences. *)
  Definition square_distance (x y : list Qc) : Qc :=
    vsum_over (nCells m) (fun c => at0 (cellVolumes m) c * ((at0 x c - at0 y c) * (at0 x c - at0 y c)))%Qc.
  (** Where fluid enters, a value is prescribed. *)
  Definition inflow_values (flux : list Qc) (phi : volField Qc) : Prop := forall b, b < nBoundaryFaces m ->
    (at0 flux (nInternalFaces m + b) < 0)%Qc -> at0 (vf_valueFraction phi) b = 1%Qc.
End distance.
