(** Implicit operators: assembly of the linear system, and the source and
    time-derivative operators.

    The kernels write two arrays: 0 the matrix values, 1 the right-hand side.
    [rowOffs] are the row offsets of the system's matrix, [p] the sparsity
    pattern whose offsets are used. *)
From Verif Require Import Base Par Exec Value Kernel Mesh Coeff Sparsity FV.

(** one<ValueType>() and the component-wise product of a matrix coefficient with
    a field value (scalar: scalar.hpp:24; Vector: vector.hpp:168, all
    components 1). *)
Class ValueUnit (V : Type) := { vone : V; vmul : V -> V -> V }.
Class UnitLaws (V : Type) `{ValueType V} `{ValueUnit V} := {
  vmul_1_l : forall a : V, vmul vone a = a;
  vmul_scale_l : forall k (a b : V), vmul (vscale k a) b = vscale k (vmul a b);
  vmul_add_l : forall a b c : V, vmul (vadd a b) c = vadd (vmul a c) (vmul b c);
  vmul_comm : forall a b : V, vmul a b = vmul b a;
  vmul_assoc : forall a b c : V, vmul a (vmul b c) = vmul (vmul a b) c;
}.
Global Instance Qc_unit : ValueUnit Qc := {| vone := 1%Qc; vmul := Qcmult |}.
Global Instance Qc_unit_laws : UnitLaws Qc.
Proof. split; intros; simpl; ring. Qed.
Global Instance vec_unit : ValueUnit vec :=
  {| vone := vec_one; vmul := fun a b => Vec (vx a * vx b) (vy a * vy b) (vz a * vz b) |}.
Global Instance vec_unit_laws : UnitLaws vec.
Proof.
  split; intros; repeat match goal with a : vec |- _ => destruct a end;
  simpl; unfold vec_add, vec_scale; simpl; f_equal; ring.
Qed.

Section assembly.
  Context {V : Type} `{ValueType V} `{ValueUnit V}.
  Notation mem := (list (list V)).

  (** ** Divergence: src/finiteVolume/cellCentred/operators/gaussGreenDiv.cpp *)

  (** l.172-201 *)
  Definition divImp_internal (m : mesh) (p : sparsity) (rowOffs : list nat) (faceFlux : list Qc)
    (scaling : Coeff) : kernel V := fun facei =>
    flux ← faceFlux !! facei;
    let weight := if Qclt_le_dec flux 0 then 0%Qc else 1%Qc in              (* l.175 *)
    own ← faceOwner m !! facei;
    nei ← faceNeighbour m !! facei;
    rowNeiStart ← rowOffs !! nei;
    rowOwnStart ← rowOffs !! own;
    scNei ← coeff_at scaling nei;
    scOwn ← coeff_at scaling own;
    neiOff ← sp_neighbourOffset p !! facei;
    diagOwn ← sp_diagOffset p !! own;
    ownOff ← sp_ownerOffset p !! facei;
    diagNei ← sp_diagOffset p !! nei;
    let value := vscale (- weight * flux)%Qc vone in                        (* l.187 *)
    let value' := vscale (flux * (1 - weight))%Qc vone in                   (* l.196 *)
    Some [ SAdd (0, rowNeiStart + neiOff) (vscale scNei value);
           SAtomicSub (0, rowOwnStart + diagOwn) (vscale scOwn value);
           SAdd (0, rowOwnStart + ownOff) (vscale scOwn value');
           SAtomicSub (0, rowNeiStart + diagNei) (vscale scNei value') ].

  (** l.211-228 *)
  Definition divImp_boundary (m : mesh) (p : sparsity) (rowOffs : list nat) (faceFlux : list Qc)
    (scaling : Coeff) (phi : volField V) : kernel V := fun facei =>
    let bcfacei := facei - nInternalFaces m in
    flux ← faceFlux !! facei;
    own ← bFaceCells (bmesh m) !! bcfacei;
    rowOwnStart ← rowOffs !! own;
    scOwn ← coeff_at scaling own;
    diagOwn ← sp_diagOffset p !! own;
    vf ← vf_valueFraction phi !! bcfacei;
    ref ← vf_refValue phi !! bcfacei;
    Some [ SAdd (0, rowOwnStart + diagOwn) (vscale (flux * scOwn * (1 - vf))%Qc vone);
           SSub (1, own) (vscale (flux * scOwn)%Qc (vscale vf ref)) ].

  (** l.145-229 computeDivImp *)
  Definition computeDivImp (e : executor) (m : mesh) (p : sparsity) (rowOffs : list nat)
    (faceFlux : list Qc) (phi : volField V) (scaling : Coeff) (sys : mem) (r : option mem) : Prop :=
    pseq (pfor e 0 (nInternalFaces m) (divImp_internal m p rowOffs faceFlux scaling))
         (pfor e (nInternalFaces m) (length faceFlux) (divImp_boundary m p rowOffs faceFlux scaling phi))
         sys r.

  (** ** Laplacian: src/finiteVolume/cellCentred/operators/gaussGreenLaplacian.cpp *)

  (** l.116-145 *)
  Definition lapImp_internal (m : mesh) (p : sparsity) (rowOffs : list nat) (deltaCoeffs gamma : list Qc)
    (scaling : Coeff) : kernel V := fun facei =>
    dc ← deltaCoeffs !! facei;
    g ← gamma !! facei;
    s ← magFaceAreas m !! facei;
    let flux := (dc * g * s)%Qc in
    own ← faceOwner m !! facei;
    nei ← faceNeighbour m !! facei;
    rowNeiStart ← rowOffs !! nei;
    rowOwnStart ← rowOffs !! own;
    scNei ← coeff_at scaling nei;
    scOwn ← coeff_at scaling own;
    neiOff ← sp_neighbourOffset p !! facei;
    diagOwn ← sp_diagOffset p !! own;
    ownOff ← sp_ownerOffset p !! facei;
    diagNei ← sp_diagOffset p !! nei;
    Some [ SAdd (0, rowNeiStart + neiOff) (vscale scNei (vscale flux vone));
           SAtomicSub (0, rowOwnStart + diagOwn) (vscale scOwn (vscale flux vone));
           SAdd (0, rowOwnStart + ownOff) (vscale scOwn (vscale flux vone));
           SAtomicSub (0, rowNeiStart + diagNei) (vscale scNei (vscale flux vone)) ].

  (** l.155-174 *)
  Definition lapImp_boundary (m : mesh) (p : sparsity) (rowOffs : list nat) (deltaCoeffs gamma : list Qc)
    (scaling : Coeff) (phi : volField V) : kernel V := fun facei =>
    let bcfacei := facei - nInternalFaces m in
    g ← gamma !! facei;
    s ← magFaceAreas m !! facei;
    let flux := (g * s)%Qc in
    own ← bFaceCells (bmesh m) !! bcfacei;
    rowOwnStart ← rowOffs !! own;
    scOwn ← coeff_at scaling own;
    diagOwn ← sp_diagOffset p !! own;
    vf ← vf_valueFraction phi !! bcfacei;
    dc ← deltaCoeffs !! facei;
    ref ← vf_refValue phi !! bcfacei;
    rgrad ← vf_refGrad phi !! bcfacei;
    Some [ SSub (0, rowOwnStart + diagOwn) (vscale (flux * scOwn * vf * dc)%Qc vone);
           SSub (1, own) (vscale (flux * scOwn)%Qc
                            (vadd (vscale (vf * dc)%Qc ref) (vscale (1 - vf)%Qc rgrad))) ].

  (** l.82-175 computeLaplacianImpl *)
  Definition computeLaplacianImpl (e : executor) (m : mesh) (p : sparsity) (rowOffs : list nat)
    (deltaCoeffs gamma : list Qc) (phi : volField V) (scaling : Coeff) (sys : mem) (r : option mem) : Prop :=
    pseq (pfor e 0 (nInternalFaces m) (lapImp_internal m p rowOffs deltaCoeffs gamma scaling))
         (pfor e (nInternalFaces m) (length gamma) (lapImp_boundary m p rowOffs deltaCoeffs gamma scaling phi))
         sys r.

  (** ** SourceTerm: src/finiteVolume/cellCentred/operators/sourceTerm.cpp *)

  (** l.18-31 *)
  Definition source_explicit (e : executor) (scaling : Coeff) (coeff : list Qc) (field : list V)
    (source : list V) (r : option mem) : Prop :=
    pfor e 0 (length source) (fun celli =>
      s ← coeff_at scaling celli;
      k ← coeff !! celli;
      x ← field !! celli;
      Some [SAdd (0, celli) (vscale (s * k)%Qc x)]) [source] r.

  (** l.33-51 *)
  Definition source_implicit (e : executor) (m : mesh) (p : sparsity) (rowOffs : list nat)
    (scaling : Coeff) (coeff : list Qc) (sys : mem) (r : option mem) : Prop :=
    pfor e 0 (length coeff) (fun celli =>
      row ← rowOffs !! celli;
      d ← sp_diagOffset p !! celli;
      s ← coeff_at scaling celli;
      k ← coeff !! celli;
      v ← cellVolumes m !! celli;
      Some [SAdd (0, row + d) (vscale (s * k * v)%Qc vone)]) sys r.

  (** ** DdtOperator: src/finiteVolume/cellCentred/operators/ddtOperator.cpp.
      [old]: the old-time field. *)

  (** l.16-31; the operator's coefficient is not used. *)
  Definition ddt_explicit (e : executor) (m : mesh) (scaling : Coeff) (dt : Qc) (field old : list V)
    (source : list V) (r : option mem) : Prop :=
    let dtInver := (1 / dt)%Qc in
    pfor e 0 (length source) (fun celli =>
      x ← field !! celli;
      o ← old !! celli;
      v ← cellVolumes m !! celli;
      Some [SAdd (0, celli) (vscale v (vscale dtInver (vsub x o)))]) [source] r.

  (** l.33-55 *)
  Definition ddt_implicit (e : executor) (m : mesh) (p : sparsity) (rowOffs : list nat)
    (scaling : Coeff) (dt : Qc) (old : list V) (sys : mem) (r : option mem) : Prop :=
    let dtInver := (1 / dt)%Qc in
    pfor e 0 (length old) (fun celli =>
      row ← rowOffs !! celli;
      d ← sp_diagOffset p !! celli;
      s ← coeff_at scaling celli;
      v ← cellVolumes m !! celli;
      let commonCoef := (s * v * dtInver)%Qc in
      o ← old !! celli;
      Some [ SAdd (0, row + d) (vscale commonCoef vone);
             SAdd (1, celli) (vscale commonCoef o) ]) sys r.
End assembly.
