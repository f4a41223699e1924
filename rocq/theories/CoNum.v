(** The Courant number: src/finiteVolume/cellCentred/auxiliary/coNum.cpp. *)
From Verif Require Import Base Par Exec Value Kernel Mesh FV Reduce Dict Boundary.

(** l.39, l.50: Kokkos::sqrt(f * f), exact. *)
Definition root_of_square (f : Qc) : Qc := if Qclt_le_dec f 0 then (- f)%Qc else f.

(** l.23: fill(phi.internalField(), 0.0) *)
Definition co_fill_kernel : kernel Qc := fun i => Some [SSet (0, i) 0%Qc].
(** l.38-42 *)
Definition co_internal_kernel (m : mesh) (flux : list Qc) : kernel Qc := fun i =>
  fl ← flux !! i;
  o ← faceOwner m !! i;
  n ← faceNeighbour m !! i;
  Some [SAtomicAdd (0, o) (root_of_square fl); SAtomicAdd (0, n) (root_of_square fl)].
(** l.48-52 *)
Definition co_boundary_kernel (m : mesh) (flux : list Qc) : kernel Qc := fun i =>
  own ← bFaceCells (bmesh m) !! (i - nInternalFaces m);
  fl ← flux !! i;
  Some [SAtomicAdd (0, own) (root_of_square fl)].
(** l.21-54; [junk] is the uninitialised internal field, faceFlux.size() = length flux. *)
Definition co_accumulate (e : executor) (m : mesh) (flux junk : list Qc) (r : option (list (list Qc))) : Prop :=
  pseq (pfor e 0 (length junk) co_fill_kernel)
  (pseq (pfor e 0 (nInternalFaces m) (co_internal_kernel m flux))
        (pfor e (nInternalFaces m) (length flux) (co_boundary_kernel m flux)))
  [junk] r.

(** l.64-65 (if (val > lmax) lmax = val) and Kokkos::Max::join *)
Definition qmax (a b : Qc) : Qc := if Qclt_le_dec a b then b else a.

(** l.58-94: the result and the logged mean.  [lowest] is the identity of
    Kokkos::Max<scalar>, the lowest finite scalar; maxValue, totalPhi and totalVol
    start at 0. *)
Definition co_reduce (lowest : Qc) (e : executor) (m : mesh) (volPhi : list Qc) (dt : Qc) (o : outcome (Qc * Qc)) : Prop :=
  if decide (nCells m <= length volPhi /\ nCells m <= length (cellVolumes m)) then
    exists mx sp sv,
      parallelReduce qmax lowest (fun c => (default 0 (volPhi !! c) / default 0 (cellVolumes m !! c))%Qc) e 0 (nCells m) 0%Qc mx /\
      parallelReduce Qcplus 0%Qc (fun c => default 0%Qc (volPhi !! c)) e 0 (nCells m) 0%Qc sp /\
      parallelReduce Qcplus 0%Qc (fun c => default 0%Qc (cellVolumes m !! c)) e 0 (nCells m) 0%Qc sv /\
      o = Ok (mx * (1 / (1 + 1)) * dt, (1 / (1 + 1)) * (sp / sv) * dt)%Qc
  else o = UB.

(** l.17-95.  [bv br bf bg]: the uninitialised boundary data of phi. *)
Definition computeCoNum (lowest : Qc) (e : executor) (m : mesh) (flux : list Qc) (dt : Qc)
  (junk bv br bf bg : list Qc) (o : outcome (Qc * Qc)) : Prop :=
  match createCalculatedBCs (volumeBoundary_create m) m with
  | Ok bcs =>
      (co_accumulate e m flux junk None /\ o = UB) \/
      exists volPhi, co_accumulate e m flux junk (Some [volPhi]) /\
        ((vol_correctBoundaryConditions e m bcs (VolField volPhi bv br bf bg) None /\ o = UB) \/
         exists phi, vol_correctBoundaryConditions e m bcs (VolField volPhi bv br bf bg) (Some phi) /\
           co_reduce lowest e m (vf_int phi) dt o)
  | Throw x => o = Throw x
  | Exit => o = Exit
  | UB => o = UB
  end.
