(** Boundary conditions of volume and surface fields, and the copy of boundary
    data between executors. *)
From Verif Require Import Base Par Exec Fields Value Mesh FV Dict Registry.

(** ** Patches: include/NeoFOAM/finiteVolume/cellCentred/boundary/boundaryPatchMixin.hpp *)
Record patch := Patch { patchID_ : nat; start_ : nat; end_ : nat }.

(** l.34-37; out-of-range patch ids read out of bounds (None). *)
Definition patch_create (m : mesh) (patchID : nat) : option patch :=
  s ← bOffset (bmesh m) !! patchID;
  t ← bOffset (bmesh m) !! (patchID + 1);
  Some (Patch patchID s t).
(** l.43-53.  patchSize is computed on labels and cast to size_t; the model
    truncates at 0 instead of wrapping for end < start. *)
Definition patchStart (p : patch) : nat := start_ p.
Definition patchEnd (p : patch) : nat := start_ p.
Definition patchSize (p : patch) : nat := end_ p - start_ p.
Definition patch_range (p : patch) : nat * nat := (start_ p, end_ p).

Section bc.
  Context {V : Type} `{ValueType V}.
  Notation volField := (volField V).

  (** Stores performed by the kernels; the index is the iteration number, shifted
      by the number of internal faces for the internal values of a surface
      field. *)
  Inductive bwrite :=
  | WValue (v : V)          (* value[i] = v                           *)
  | WRef (v : V)            (* refValue[i] = v                        *)
  | WFrac (q : Qc)          (* valueFraction[i] = q                   *)
  | WGrad (v : V)           (* refGradient[i] = v                     *)
  | WInt (v : V)            (* internalValues[nInternalFaces + i] = v *)
  | WCrash.                 (* out-of-bounds read                     *)

  Definition bstep (off i : nat) (w : bwrite) : action volField unit := fun phi l =>
    match w with
    | WValue v => match vf_value phi !! i with
        | Some _ => Some (VolField (vf_int phi) (<[i := v]> (vf_value phi)) (vf_refValue phi) (vf_valueFraction phi) (vf_refGrad phi), l)
        | None => None end
    | WRef v => match vf_refValue phi !! i with
        | Some _ => Some (VolField (vf_int phi) (vf_value phi) (<[i := v]> (vf_refValue phi)) (vf_valueFraction phi) (vf_refGrad phi), l)
        | None => None end
    | WFrac q => match vf_valueFraction phi !! i with
        | Some _ => Some (VolField (vf_int phi) (vf_value phi) (vf_refValue phi) (<[i := q]> (vf_valueFraction phi)) (vf_refGrad phi), l)
        | None => None end
    | WGrad v => match vf_refGrad phi !! i with
        | Some _ => Some (VolField (vf_int phi) (vf_value phi) (vf_refValue phi) (vf_valueFraction phi) (<[i := v]> (vf_refGrad phi)), l)
        | None => None end
    | WInt v => match vf_int phi !! (off + i) with
        | Some _ => Some (VolField (<[off + i := v]> (vf_int phi)) (vf_value phi) (vf_refValue phi) (vf_valueFraction phi) (vf_refGrad phi), l)
        | None => None end
    | WCrash => None
    end.
  (** parallelFor over the range (parallelAlgorithms.hpp:26-63). *)
  Definition bthread (off : nat) (k : nat -> option (list bwrite)) (i : nat) : thread volField unit :=
    (tt, map (bstep off i) (match k i with Some ws => ws | None => [WCrash] end)).
  Definition bfor (e : executor) (off : nat) (range : nat * nat) (k : nat -> option (list bwrite))
    (phi : volField) (r : option volField) : Prop :=
    exec_result e (iterations (fst range) (snd range) (bthread off k)) phi r.

  (** ** Volume boundary conditions *)
  Inductive volBC := FixedValue (v : V) | FixedGradient (g : V) | Extrapolated | Calculated | EmptyBC.

  (** volume/fixedValue.hpp:22-43 setFixedValue *)
  Definition fixedValue_kernel (v : V) : nat -> option (list bwrite) := fun _ =>
    Some [WRef v; WValue v; WFrac 1; WGrad v].
  (** volume/fixedGradient.hpp:23-55 setGradientValue *)
  Definition fixedGradient_kernel (m : mesh) (iField : list V) (g : V) : nat -> option (list bwrite) := fun i =>
    c ← bFaceCells (bmesh m) !! i;
    x ← iField !! c;
    dc ← bDeltaCoeffs (bmesh m) !! i;
    Some [WGrad g; WValue (vadd x (vscale (1 / dc)%Qc g)); WFrac 0; WRef vzero].
  (** volume/extrapolated.hpp:22-52 extrapolateValue *)
  Definition extrapolated_kernel (m : mesh) (iField : list V) : nat -> option (list bwrite) := fun i =>
    c ← bFaceCells (bmesh m) !! i;
    x ← iField !! c;
    Some [WValue x; WFrac 1; WRef x; WGrad vzero].

  (** correctBoundaryCondition of one patch; calculated.hpp and empty.hpp do nothing. *)
  Definition vol_correct (e : executor) (m : mesh) (p : patch) (bc : volBC) (phi : volField) (r : option volField) : Prop :=
    match bc with
    | FixedValue v => bfor e 0 (patch_range p) (fixedValue_kernel v) phi r
    | FixedGradient g => bfor e 0 (patch_range p) (fixedGradient_kernel m (vf_int phi) g) phi r
    | Extrapolated => bfor e 0 (patch_range p) (extrapolated_kernel m (vf_int phi)) phi r
    | Calculated | EmptyBC => r = Some phi
    end.

  (** ** Surface boundary conditions *)
  Inductive surfBC := SFixedValue (v : V) | SCalculated | SEmpty.
  (** surface/fixedValue.hpp:20-41 *)
  Definition surfFixedValue_kernel (v : V) : nat -> option (list bwrite) := fun _ =>
    Some [WRef v; WValue v; WInt v].
  Definition surf_correct (e : executor) (m : mesh) (p : patch) (bc : surfBC) (phi : volField) (r : option volField) : Prop :=
    match bc with
    | SFixedValue v => bfor e (nInternalFaces m) (patch_range p) (surfFixedValue_kernel v) phi r
    | SCalculated | SEmpty => r = Some phi
    end.

  (** volumeField.hpp:144-150, surfaceField.hpp:105-111 correctBoundaryConditions *)
  Fixpoint correct_all {B} (one : patch -> B -> volField -> option volField -> Prop) (bcs : list (patch * B))
    (phi : volField) (r : option volField) : Prop :=
    match bcs with
    | [] => r = Some phi
    | (p, bc) :: bcs' => (one p bc phi None /\ r = None) \/
                         exists phi', one p bc phi (Some phi') /\ correct_all one bcs' phi' r
    end.
  Definition vol_correctBoundaryConditions e m := correct_all (vol_correct e m).
  Definition surf_correctBoundaryConditions e m := correct_all (surf_correct e m).
End bc.
Arguments volBC : clear implicits.
Arguments surfBC : clear implicits.
Arguments bwrite : clear implicits.

(** ** Selection by name (scalar fields): volumeBoundaryFactory.hpp:48-58,
    surfaceBoundaryFactory.hpp; the names registered are those of the name()
    members. *)
Definition get_string (d : dict) (k : string) : outcome string :=
  let! v := dict_get TString d k in match v with AString s => Ok s | _ => UB end.
Definition get_scalar (d : dict) (k : string) : outcome Qc :=
  let! v := dict_get TScalar d k in match v with AScalar q => Ok q | _ => UB end.

Definition volumeBoundary_create (m : mesh) (d : dict) (patchID : nat) : outcome (patch * volBC Qc) :=
  let! p := oget (patch_create m patchID) in
  let! t := get_string d "type" in
  if decide (t = "fixedValue") then let! v := get_scalar d "fixedValue" in Ok (p, FixedValue v)
  else if decide (t = "fixedGradient") then let! v := get_scalar d "fixedGradient" in Ok (p, FixedGradient v)
  else if decide (t = "calculated") then Ok (p, Calculated)
  else if decide (t = "extrapolated") then Ok (p, Extrapolated)
  else if decide (t = "empty") then Ok (p, EmptyBC)
  else Exit.
Definition surfaceBoundary_create (m : mesh) (d : dict) (patchID : nat) : outcome (patch * surfBC Qc) :=
  let! p := oget (patch_create m patchID) in
  let! t := get_string d "type" in
  if decide (t = "fixedValue") then let! v := get_scalar d "fixedValue" in Ok (p, SFixedValue v)
  else if decide (t = "calculated") then Ok (p, SCalculated)
  else if decide (t = "empty") then Ok (p, SEmpty)
  else Exit.

(** cellCentred/boundary.hpp:26-48 *)
Fixpoint create_each {B} (f : nat -> outcome B) (n : nat) : outcome (list B) :=
  match n with
  | 0 => Ok []
  | S n' => let! l := create_each f n' in let! b := f n' in Ok (l ++ [b])
  end.
Definition createCalculatedBCs {B} (create : dict -> nat -> outcome B) (m : mesh) : outcome (list B) :=
  create_each (create [("type", AString "calculated")]) (nBoundaries m).
Definition createExtrapolatedBCs {B} (create : dict -> nat -> outcome B) (m : mesh) : outcome (list B) :=
  create_each (create [("type", AString "extrapolated")]) (nBoundaries m).

(** ** BoundaryFields and DomainField *)
(** include/NeoFOAM/fields/boundaryFields.hpp:142-153 *)
Record boundaryFields (V : Type) := BoundaryFields {
  bf_exec : executor;
  bf_value : Fields.field V; bf_refValue : Fields.field V; bf_valueFraction : Fields.field Qc; bf_refGrad : Fields.field V;
  bf_types : Fields.field Z; bf_offset : Fields.field nat;
  bf_nBoundaries : nat; bf_nFaces : nat
}.
Arguments BoundaryFields {V}. Arguments bf_exec {V}. Arguments bf_value {V}. Arguments bf_refValue {V}.
Arguments bf_valueFraction {V}. Arguments bf_refGrad {V}. Arguments bf_types {V}. Arguments bf_offset {V}.
Arguments bf_nBoundaries {V}. Arguments bf_nFaces {V}.

(** Field(exec, rhs): field.hpp:122-124 *)
Definition fcopy {V} (e : executor) (a : Fields.field V) : Fields.field V := new_copy e (fdata a).

Section copy.
  Context {V : Type}.
  (** boundaryFields.hpp:39-44 copy constructor *)
  Definition bf_copy (rhs : boundaryFields V) : boundaryFields V :=
    BoundaryFields (bf_exec rhs)
      (fcopy (fexec (bf_value rhs)) (bf_value rhs)) (fcopy (fexec (bf_refValue rhs)) (bf_refValue rhs))
      (fcopy (fexec (bf_valueFraction rhs)) (bf_valueFraction rhs)) (fcopy (fexec (bf_refGrad rhs)) (bf_refGrad rhs))
      (fcopy (fexec (bf_types rhs)) (bf_types rhs)) (fcopy (fexec (bf_offset rhs)) (bf_offset rhs))
      (bf_nBoundaries rhs) (bf_nFaces rhs).
  (** l.51-56 *)
  Definition bf_copy_to (e : executor) (rhs : boundaryFields V) : boundaryFields V :=
    BoundaryFields (bf_exec rhs)
      (fcopy e (bf_value rhs)) (fcopy e (bf_refValue rhs)) (fcopy e (bf_valueFraction rhs)) (fcopy e (bf_refGrad rhs))
      (fcopy e (bf_types rhs)) (fcopy e (bf_offset rhs)) (bf_nBoundaries rhs) (bf_nFaces rhs).
  (** l.59-64: the values are uninitialised; offsets.back() of an empty vector is
      undefined behaviour. *)
  Definition bf_new (e : executor) (offsets : list nat) (b : outcome (boundaryFields V)) : Prop :=
    match last offsets with
    | None => b = UB
    | Some n => exists v r q g t, new_uninit e n v /\ new_uninit e n r /\ new_uninit e n q /\ new_uninit e n g /\
        new_uninit e (length offsets - 1) t /\
        b = Ok (BoundaryFields e v r q g t (new_copy e offsets) (length offsets - 1) n)
    end.
  (** l.134-137: reads the offsets through the raw pointer on the host; a pointer
      to device memory must not be dereferenced there. *)
  Definition bf_range (b : boundaryFields V) (patchId : nat) : outcome (nat * nat) :=
    match fexec (bf_offset b) with
    | GPUExecutor => UB
    | _ => match fdata (bf_offset b) !! patchId, fdata (bf_offset b) !! (patchId + 1) with
           | Some s, Some t => Ok (s, t)
           | _, _ => UB
           end
    end.

  (** include/NeoFOAM/fields/domainField.hpp:140-143 *)
  Record domainField := DomainField { df_exec : executor; df_internal : Fields.field V; df_boundary : boundaryFields V }.
  (** l.43-49 *)
  Definition df_new_from (e : executor) (i : Fields.field V) (b : boundaryFields V) : domainField :=
    DomainField e (fcopy e i) (bf_copy_to e b).
  (** l.63-65 *)
  Definition df_copy (d : domainField) : domainField :=
    DomainField (df_exec d) (fcopy (fexec (df_internal d)) (df_internal d)) (bf_copy (df_boundary d)).

  (** GeometricFieldMixin, geometricField.hpp:41-48: the domain field is copied as
      it is, whatever executor is asked for. *)
  Record geometricField := GeometricField { gf_exec : executor; gf_field : domainField }.
  Definition gf_from_domain (e : executor) (d : domainField) : geometricField := GeometricField e (df_copy d).
  (** l.59-72: NF_ERROR_EXIT on inconsistent size. *)
  Definition gf_from_parts (m : mesh) (e : executor) (i : Fields.field V) (b : boundaryFields V) : outcome geometricField :=
    if Nat.eqb (nCells m) (fsize i) then Ok (GeometricField e (df_copy (df_new_from e i b))) else Exit.
End copy.
Arguments domainField : clear implicits.
Arguments geometricField : clear implicits.
