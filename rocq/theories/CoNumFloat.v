(** C128: the Courant number as computed in float or double:
    src/finiteVolume/cellCentred/auxiliary/coNum.cpp. *)
From Coq Require Import Qcanon Reals Lra Psatz.
From Flocq Require Import Core Relative.
From Verif Require Import Base Par ParProofs Exec ExecProofs Value Kernel KernelProofs KernelAnyArith Mesh MeshSpec MeshProofs Coeff FV FVSpec FVProofs FVAnyArith Reduce Dict Boundary
  Properties_AnyArith Properties_Float Properties_Reduce FloatFaces FloatTotal.
Local Open Scope R_scope.

(** * Model *)
(** A boundary condition as the (template) code makes it for [scalar] fields. *)
Definition as_scalar_bc (bc : volBC Qc) : volBC R :=
  match bc with FixedValue v => FixedValue (QcR v) | FixedGradient g => FixedGradient (QcR g) | Extrapolated => Extrapolated | Calculated => Calculated | EmptyBC => EmptyBC end.
Section model.
  Context (p : precision).
  (** The arithmetic of the atomic additions. *)
  Let VR : ValueType R := scalar_value p.
  #[local] Existing Instance VR.
  (** l.39, l.50: Kokkos::sqrt(f * f), both operations rounded in [scalar]. *)
  Definition co_root (f : R) : R := rnd p (R_sqrt.sqrt (rnd p (f * f))).
  (** l.23: fill(phi.internalField(), 0.0) *)
  Definition co_fill_f : kernel R := fun i => Some [SSet (0, i)%nat 0].
  (** l.38-42 *)
  Definition co_internal_f (m : mesh) (flux : list R) : kernel R := fun i =>
    fl ← flux !! i;
    o ← faceOwner m !! i;
    n ← faceNeighbour m !! i;
    Some [SAtomicAdd (0, o)%nat (co_root fl); SAtomicAdd (0, n)%nat (co_root fl)].
  (** l.48-52 *)
  Definition co_boundary_f (m : mesh) (flux : list R) : kernel R := fun i =>
    own ← bFaceCells (bmesh m) !! (i - nInternalFaces m)%nat;
    fl ← flux !! i;
    Some [SAtomicAdd (0, own)%nat (co_root fl)].
  (** l.21-54; [junk] is the uninitialised internal field. *)
  Definition co_accumulate_f (e : executor) (m : mesh) (flux junk : list R) (r : option (list (list R))) : Prop :=
    pseq (V := R) (pfor (V := R) e 0 (length junk) co_fill_f)
    (pseq (V := R) (pfor (V := R) e 0 (nInternalFaces m) (co_internal_f m flux))
          (pfor (V := R) e (nInternalFaces m) (length flux) (co_boundary_f m flux)))
    [junk] r.
  (** l.93: maxReducer.reference() * 0.5 * dt and its assignment to a [scalar]:
      the literal 0.5 is a double, so the products are computed in double. *)
  Definition co_scaled (x dt : R) : R := rnd p (rnd Double (rnd Double (x * / 2) * dt)).
  (** l.58-94: the result and the logged mean.  [lowest] is the identity of
      Kokkos::Max<scalar>; maxValue, totalPhi and totalVol start at 0.  The mean (l.94):
      0.5 * (sumPhi / sumVol) * dt, the quotient in [scalar]. *)
  Definition co_reduce_f (lowest : R) (e : executor) (m : mesh) (volPhi : list R) (dt : R) (o : outcome (R * R)) : Prop :=
    if decide (nCells m <= length volPhi /\ nCells m <= length (cellVolumes m))%nat then
      exists mx sp sv,
        parallelReduce Rmax lowest (fun c => rnd p (default 0 (volPhi !! c) / QcR (default 0%Qc (cellVolumes m !! c)))) e 0 (nCells m) 0 mx /\
        parallelReduce (float_sum p) 0 (fun c => default 0 (volPhi !! c)) e 0 (nCells m) 0 sp /\
        parallelReduce (float_sum p) 0 (fun c => QcR (default 0%Qc (cellVolumes m !! c))) e 0 (nCells m) 0 sv /\
        o = Ok (co_scaled mx dt, co_scaled (rnd p (sp / sv)) dt)
    else o = UB.
  (** l.17-95.  [bv br bf bg]: the uninitialised boundary data of phi. *)
  Definition computeCoNum_f (lowest : R) (e : executor) (m : mesh) (flux : list R) (dt : R)
    (junk bv br : list R) (bf : list Qc) (bg : list R) (o : outcome (R * R)) : Prop :=
    match createCalculatedBCs (volumeBoundary_create m) m with
    | Ok bcs =>
        let bcs := map (fun x => (x.1, as_scalar_bc x.2)) bcs in
        (co_accumulate_f e m flux junk None /\ o = UB) \/
        exists volPhi, co_accumulate_f e m flux junk (Some [volPhi]) /\
          ((vol_correctBoundaryConditions (V := R) e m bcs (VolField volPhi bv br bf bg) None /\ o = UB) \/
           exists phi, vol_correctBoundaryConditions (V := R) e m bcs (VolField volPhi bv br bf bg) (Some phi) /\
             co_reduce_f lowest e m (vf_int phi) dt o)
    | Throw x => o = Throw x
    | Exit => o = Exit
    | UB => o = UB
    end.
End model.

(** * Specification *)
(** Each of two numbers is at most (1+u)^k times the other. *)
Definition relative (p : precision) (k : nat) (a b : R) : Prop := a <= b * (1 + u p) ^ k /\ b <= a * (1 + u p) ^ k.
(** Exact Courant number of cell [c]. *)
Definition exact_courant (m : mesh) (flux : list R) (dt : R) (c : nat) : R :=
  dt / 2 * (sum_around m c (fun f => Rabs (default 0 (flux !! f))) / QcR (at0 (cellVolumes m) c)).
Definition largest (n : nat) (f : nat -> R) (x : R) : Prop :=
  (forall c, (c < n)%nat -> f c <= x) /\ exists c, (c < n)%nat /\ x = f c.
(** Zero, or some factor above the smallest normalised number. *)
Definition no_underflow (p : precision) (x : R) : Prop := x = 0 \/ bpow radix2 (emin p + digits p + 1) <= x.
