(** What the user of the transport equation
      imp::ddt(T) + imp::div(flux, T) - imp::laplacian(gamma, T)
    expects of a time step, in terms of mesh, fluxes and boundary data only. *)
From Verif Require Import Base Par Exec Value Kernel Mesh MeshSpec Coeff FV FVSpec Assembly AssemblySpec Sparsity SparsitySpec AssemblyProps
  Dict Boundary Properties_Boundary Properties_CoNum.

Section transport.
  (** Mesh; volumetric flux, diffusivity, inverse distance per face. *)
  Context (m : mesh) (flux gamma dc : list Qc).

  (** What leaves the owner of face [f] per unit time when the cell values are
      [x] and the boundary data that of [phi]: carried along, and diffused. *)
  Definition convected (phi : volField Qc) (x : list Qc) (f : nat) : Qc :=
    (at0 flux f * implicit_face_value m (with_int phi x) flux f)%Qc.
  Definition diffused (phi : volField Qc) (x : list Qc) (f : nat) : Qc :=
    (at0 gamma f * at0 (magFaceAreas m) f * implicit_normal_gradient m (with_int phi x) dc f)%Qc.
  (** The balance of cell [c] over a step of size [dt] from [old] to [x]. *)
  Definition cell_law (dt : Qc) (phi : volField Qc) (old x : list Qc) (c : nat) : Prop :=
    (at0 (cellVolumes m) c / dt * (at0 x c - at0 old c) + cell_balance m (convected phi x) c - cell_balance m (diffused phi x) c = 0)%Qc.
  Definition transported (dt : Qc) (phi : volField Qc) (old x : list Qc) : Prop :=
    length x = nCells m /\ forall c, c < nCells m -> cell_law dt phi old x c.

  (** Amount of the transported quantity in the domain; what leaves through the
      boundary per unit time. *)
  Definition content (x : list Qc) : Qc := vsum_over (nCells m) (fun c => at0 (cellVolumes m) c * at0 x c)%Qc.
  Definition outflow (phi : volField Qc) (x : list Qc) : Qc :=
    vsum_over (nBoundaryFaces m) (fun b => convected phi x (nInternalFaces m + b) - diffused phi x (nInternalFaces m + b))%Qc.

  (** As much fluid leaves every cell as enters it. *)
  Definition divergence_free : Prop := forall c, c < nCells m -> cell_balance m (at0 flux) c = 0%Qc.
  (** Diffusion acts down the gradient. *)
  Definition diffusive : Prop := forall f, f < nFaces m ->
    (0 <= at0 gamma f)%Qc /\ (0 <= at0 (magFaceAreas m) f)%Qc /\ (0 <= at0 dc f)%Qc.
  (** Boundary data of a mixed condition: value fractions between 0 and 1, values
      prescribed only where no fluid leaves. *)
  Definition inflow_boundary (phi : volField Qc) : Prop := forall b, b < nBoundaryFaces m ->
    (0 <= at0 (vf_valueFraction phi) b)%Qc /\ (at0 (vf_valueFraction phi) b <= 1)%Qc /\
    (at0 (vf_valueFraction phi) b = 0%Qc \/ (at0 flux (nInternalFaces m + b) <= 0)%Qc).
  (** No gradient is prescribed. *)
  Definition no_gradient (phi : volField Qc) : Prop := forall b, b < nBoundaryFaces m ->
    ((1 - at0 (vf_valueFraction phi) b) * at0 (vf_refGrad phi) b = 0)%Qc.
  (** All cell values, all prescribed boundary values between [lo] and [hi]. *)
  Definition cells_between (lo hi : Qc) (x : list Qc) : Prop :=
    forall c, c < nCells m -> (lo <= at0 x c)%Qc /\ (at0 x c <= hi)%Qc.
  Definition boundary_between (lo hi : Qc) (phi : volField Qc) : Prop :=
    forall b, b < nBoundaryFaces m -> at0 (vf_valueFraction phi) b = 0%Qc \/
      (lo <= at0 (vf_refValue phi) b)%Qc /\ (at0 (vf_refValue phi) b <= hi)%Qc.
  (** Boundary data of [phi] is nowhere larger than that of [psi], for the same
      kinds of condition. *)
  Definition boundary_below (phi psi : volField Qc) : Prop := forall b, b < nBoundaryFaces m ->
    at0 (vf_valueFraction phi) b = at0 (vf_valueFraction psi) b /\
    (at0 (vf_valueFraction phi) b = 0%Qc \/ (at0 (vf_refValue phi) b <= at0 (vf_refValue psi) b)%Qc) /\
    ((1 - at0 (vf_valueFraction phi) b) * at0 (vf_refGrad phi) b <= (1 - at0 (vf_valueFraction psi) b) * at0 (vf_refGrad psi) b)%Qc.

  (** *** Explicit: imp::ddt(T) + exp::div(flux, T), upwind *)
  Definition advanced (weights : list Qc) (dt : Qc) (phi : volField Qc) (x : list Qc) : Prop :=
    length x = nCells m /\ forall c, c < nCells m ->
      (at0 (cellVolumes m) c * (at0 x c - at0 (vf_int phi) c) =
       - dt * cell_balance m (fun f => at0 flux f * face_value m Upwind phi flux weights f) c)%Qc.
  (** Boundary values: in the range where fluid enters, those of the cell where
      it leaves. *)
  Definition boundary_values (lo hi : Qc) (phi : volField Qc) : Prop := forall b, b < nBoundaryFaces m ->
    ((at0 flux (nInternalFaces m + b) < 0)%Qc -> (lo <= at0 (vf_value phi) b)%Qc /\ (at0 (vf_value phi) b <= hi)%Qc) /\
    ((0 < at0 flux (nInternalFaces m + b))%Qc -> at0 (vf_value phi) b = at0 (vf_int phi) (atn (bFaceCells (bmesh m)) b)).
  (** Boundary conditions that keep them so: every boundary face has a value in
      the range prescribed where no fluid leaves, or a zero gradient. *)
  Definition transport_conditions (lo hi : Qc) (bcs : list (patch * volBC Qc)) : Prop := forall b, b < nBoundaryFaces m ->
    exists p bc, (p, bc) ∈ bcs /\ in_patch p b /\
      match bc with
      | FixedValue v => (at0 flux (nInternalFaces m + b) <= 0)%Qc /\ (lo <= v)%Qc /\ (v <= hi)%Qc
      | FixedGradient g => g = 0%Qc
      | Extrapolated => True
      | Calculated | EmptyBC => False
      end.
End transport.
