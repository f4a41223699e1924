(** What the finite-volume operators are supposed to compute, in terms of the
    mesh arrays only (no executor, no kernel). *)
From Verif Require Import Base Value Mesh MeshSpec Coeff FV.

Definition atV {V} `{ValueType V} (l : list V) (i : nat) : V := default vzero (l !! i).

(** A coefficient that can be indexed at each of [n] cells, and its value. *)
Definition coeff_ok (c : Coeff) (n : nat) : Prop :=
  match view_ c with Some l => n <= length l | None => True end.
Definition coeff_val (c : Coeff) (i : nat) : Qc :=
  match view_ c with Some l => (at0 l i * coeff_ c)%Qc | None => coeff_ c end.

Section spec.
  Context {V : Type} `{ValueType V}.

  (** A field that fits the mesh. *)
  Definition field_ok (m : mesh) (phi : volField V) : Prop :=
    length (vf_int phi) = nCells m /\ length (vf_value phi) = nBoundaryFaces m.

  (** Value of [phi] in the owner / neighbour cell of internal face [f], in the
      cell of boundary face [b], and on boundary face [b]. *)
  Definition at_owner (m : mesh) (phi : volField V) (f : nat) : V :=
    atV (vf_int phi) (atn (faceOwner m) f).
  Definition at_neighbour (m : mesh) (phi : volField V) (f : nat) : V :=
    atV (vf_int phi) (atn (faceNeighbour m) f).
  Definition at_face_cell (m : mesh) (phi : volField V) (b : nat) : V :=
    atV (vf_int phi) (atn (bFaceCells (bmesh m)) b).

  (** Face values. *)
  Definition face_value (m : mesh) (s : interpScheme) (phi : volField V) (flux weights : list Qc)
    (f : nat) : V :=
    if decide (f < nInternalFaces m) then
      match s with
      | Linear => vadd (vscale (at0 weights f) (at_owner m phi f))
                       (vscale (1 - at0 weights f)%Qc (at_neighbour m phi f))
      | Upwind => if Qclt_le_dec (at0 flux f) 0 then at_neighbour m phi f else at_owner m phi f
      end
    else vscale (at0 weights f) (atV (vf_value phi) (f - nInternalFaces m)).

  (** Difference quotient across face [f] with inverse distances [dc]. *)
  Definition normal_gradient (m : mesh) (phi : volField V) (dc : list Qc) (f : nat) : V :=
    vscale (at0 dc f)
      (if decide (f < nInternalFaces m)
       then vsub (at_neighbour m phi f) (at_owner m phi f)
       else vsub (atV (vf_value phi) (f - nInternalFaces m)) (at_face_cell m phi (f - nInternalFaces m))).

  (** scaling/V times the net outward flux. *)
  Definition per_volume (m : mesh) (scaling : Coeff) (c : nat) (x : V) : V :=
    vscale (coeff_val scaling c / at0 (cellVolumes m) c)%Qc x.

  Definition div_spec (m : mesh) (s : interpScheme) (flux weights : list Qc) (phi : volField V)
    (scaling : Coeff) (c : nat) : V :=
    per_volume m scaling c
      (cell_balance m (fun f => vscale (at0 flux f) (face_value m s phi flux weights f)) c).

  (** Laplacian without diffusion coefficient: net outward magSf * normal gradient. *)
  Definition laplacian_spec (m : mesh) (dc : list Qc) (phi : volField V) (scaling : Coeff) (c : nat) : V :=
    per_volume m scaling c
      (cell_balance m (fun f => vscale (at0 (magFaceAreas m) f) (normal_gradient m phi dc f)) c).

  (** Laplacian with diffusion coefficient [gamma] on the faces. *)
  Definition laplacian_gamma_spec (m : mesh) (dc gamma : list Qc) (phi : volField V)
    (scaling : Coeff) (c : nat) : V :=
    per_volume m scaling c
      (cell_balance m (fun f =>
         vscale (at0 gamma f * at0 (magFaceAreas m) f)%Qc (normal_gradient m phi dc f)) c).

  Definition surface_integral_spec (m : mesh) (flux : list V) (scaling : Coeff) (c : nat) : V :=
    per_volume m scaling c (cell_balance m (atV flux) c).
End spec.

(** Green-Gauss gradient with linearly interpolated face values. *)
Definition grad_spec (m : mesh) (weights : list Qc) (phi : volField Qc) (c : nat) : vec :=
  vscale (1 / at0 (cellVolumes m) c)%Qc
    (cell_balance m (fun f => vscale (face_value m Linear phi [] weights f) (atv (faceAreas m) f)) c).

(** The outcomes of a nondeterministic operation are exactly [res]: it always
    terminates without undefined behaviour and every schedule gives [res]. *)
Definition always {A} (op : option A -> Prop) (res : A) : Prop := forall r, op r <-> r = Some res.
