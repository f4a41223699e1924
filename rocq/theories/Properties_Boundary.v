(** C43, C51: boundary conditions and boundary data. *)
From Verif Require Import Base Par ParProofs Exec ExecProofs Fields Value Mesh MeshSpec FV FVSpec FVProofs Dict Registry Boundary BoundaryProofs
  Assembly AssemblySpec ExampleMesh Properties_Assembly.

(** * Vocabulary *)
(** The entries of a field on a mesh: the four values stored per boundary face
    and the internal values. *)
Inductive entry := Value (b : nat) | RefValue (b : nat) | ValueFraction (b : nat) | RefGrad (b : nat) | Internal (i : nat).

Section vocabulary.
  Context {V : Type} `{ValueType V}.

  Definition read (phi : volField V) (en : entry) : option (V + Qc) :=
    match en with
    | Value b => inl <$> vf_value phi !! b
    | RefValue b => inl <$> vf_refValue phi !! b
    | ValueFraction b => inr <$> vf_valueFraction phi !! b
    | RefGrad b => inl <$> vf_refGrad phi !! b
    | Internal i => inl <$> vf_int phi !! i
    end.

  Definition in_patch (p : patch) (b : nat) : Prop := start_ p <= b < end_ p.
  Global Instance in_patch_dec p b : Decision (in_patch p b).
  Proof. unfold in_patch. apply _. Defined.

  (** What each type of volume condition prescribes for an entry; [None]: the
      entry is left alone.  The reference gradient of a fixed value and the
      reference value of a fixed gradient have weight 0 in the mixed condition. *)
  Definition vol_prescribes (m : mesh) (p : patch) (bc : volBC V) (phi : volField V) (en : entry) : option (V + Qc) :=
    match en with
    | Internal _ => None
    | Value b => if decide (in_patch p b) then
        match bc with
        | FixedValue v => Some (inl v)
        | FixedGradient g => Some (inl (vadd (at_face_cell m phi b) (vscale (1 / at0 (bDeltaCoeffs (bmesh m)) b)%Qc g)))
        | Extrapolated => Some (inl (at_face_cell m phi b))
        | _ => None
        end else None
    | RefValue b => if decide (in_patch p b) then
        match bc with
        | FixedValue v => Some (inl v)
        | FixedGradient _ => Some (inl vzero)
        | Extrapolated => Some (inl (at_face_cell m phi b))
        | _ => None
        end else None
    | ValueFraction b => if decide (in_patch p b) then
        match bc with
        | FixedValue _ | Extrapolated => Some (inr 1%Qc)
        | FixedGradient _ => Some (inr 0%Qc)
        | _ => None
        end else None
    | RefGrad b => if decide (in_patch p b) then
        match bc with
        | FixedValue v => Some (inl v)
        | FixedGradient g => Some (inl g)
        | Extrapolated => Some (inl vzero)
        | _ => None
        end else None
    end.

  (** Surface conditions: a fixed value also goes to the face's entry among the
      internal values, which hold all faces. *)
  Definition surf_prescribes (m : mesh) (p : patch) (bc : surfBC V) (en : entry) : option (V + Qc) :=
    match bc with
    | SFixedValue v =>
        match en with
        | Value b | RefValue b => if decide (in_patch p b) then Some (inl v) else None
        | Internal i => if decide (nInternalFaces m <= i /\ in_patch p (i - nInternalFaces m)) then Some (inl v) else None
        | _ => None
        end
    | _ => None
    end.

  (** [phi'] is [phi] with the prescribed entries replaced and everything else
      unchanged. *)
  Definition replaced (pre : entry -> option (V + Qc)) (phi phi' : volField V) : Prop :=
    forall en, read phi' en = match pre en with Some x => Some x | None => read phi en end.

  Definition patch_ok (m : mesh) (p : patch) : Prop := start_ p <= end_ p <= nBoundaryFaces m.
  Definition disjoint (p q : patch) : Prop := forall b, in_patch p b -> ~ in_patch q b.

  (** A field whose boundary data fits the mesh, with [n] internal values. *)
  Definition sized (m : mesh) (n : nat) (phi : volField V) : Prop :=
    length (vf_int phi) = n /\ length (vf_value phi) = nBoundaryFaces m /\ length (vf_refValue phi) = nBoundaryFaces m /\
    length (vf_valueFraction phi) = nBoundaryFaces m /\ length (vf_refGrad phi) = nBoundaryFaces m.
End vocabulary.

Section facts.
  Context {V : Type} `{HL : ValueType V}.

  Lemma inl_fmap_inj (a b : option V) : (inl <$> a : option (V + Qc)) = inl <$> b -> a = b.
  Proof. destruct a, b; simpl; congruence. Qed.
  Lemma inr_fmap_inj (a b : option Qc) : (inr <$> a : option (V + Qc)) = inr <$> b -> a = b.
  Proof. destruct a, b; simpl; congruence. Qed.

  Lemma read_ext (phi phi' : volField V) : (forall en, read phi en = read phi' en) -> phi = phi'.
  Proof.
    intros He. destruct phi, phi'. f_equal; apply list_eq; intros i.
    - apply inl_fmap_inj, (He (Internal i)).
    - apply inl_fmap_inj, (He (Value i)).
    - apply inl_fmap_inj, (He (RefValue i)).
    - apply inr_fmap_inj, (He (ValueFraction i)).
    - apply inl_fmap_inj, (He (RefGrad i)).
  Qed.
  Lemma replaced_unique pre (phi a b : volField V) : replaced pre phi a -> replaced pre phi b -> a = b.
  Proof. intros H1 H2. apply read_ext. intros en. by rewrite H1, H2. Qed.

  Lemma fixedGradient_lookup m (phi : volField V) g b : valid_topology m -> length (vf_int phi) = nCells m ->
    length (bDeltaCoeffs (bmesh m)) = nBoundaryFaces m -> b < nBoundaryFaces m ->
    fixedGradient_kernel m (vf_int phi) g b = Some [WGrad g;
      WValue (vadd (at_face_cell m phi b) (vscale (1 / at0 (bDeltaCoeffs (bmesh m)) b)%Qc g)); WFrac 0; WRef vzero].
  Proof using HL.
    intros Hm Hi Hd Hb. unfold fixedGradient_kernel.
    rewrite (fc_lookup m Hm) by done. cbn [mbind option_bind].
    pose proof (vt_fc m Hm b Hb). rewrite (lookup_atV (vf_int phi)) by lia. cbn [mbind option_bind].
    rewrite (lookup_at0 (bDeltaCoeffs (bmesh m))) by lia. done.
  Qed.
  Lemma extrapolated_lookup m (phi : volField V) b : valid_topology m -> length (vf_int phi) = nCells m ->
    b < nBoundaryFaces m ->
    extrapolated_kernel m (vf_int phi) b = Some [WValue (at_face_cell m phi b); WFrac 1; WRef (at_face_cell m phi b); WGrad vzero].
  Proof using HL.
    intros Hm Hi Hb. unfold extrapolated_kernel.
    rewrite (fc_lookup m Hm) by done. cbn [mbind option_bind].
    pose proof (vt_fc m Hm b Hb). rewrite (lookup_atV (vf_int phi)) by lia. done.
  Qed.

  Lemma read_decide {A B} (P Q : Prop) `{Decision P} `{Decision Q} (f : A -> B) (a : A) (b : option A) x :
    (P <-> Q) -> f a = x ->
    f <$> (if decide P then Some a else b) = match (if decide Q then Some x else None) with Some y => Some y | None => f <$> b end.
  Proof. intros HPQ <-. destruct (decide P), (decide Q); tauto || done. Qed.

  Theorem vol_effect m e p bc (phi : volField V) : valid_topology m -> length (bDeltaCoeffs (bmesh m)) = nBoundaryFaces m ->
    patch_ok m p -> sized m (nCells m) phi ->
    exists phi', always (vol_correct e m p bc phi) phi' /\ replaced (vol_prescribes m p bc phi) phi phi' /\ same_shape phi' phi.
  Proof using HL.
    intros Hm Hd [Hp1 Hp2] (S0 & S1 & S2 & S3 & S4).
    destruct bc as [v|g| | |]; simpl.
    4,5: exists phi; split; [done|]; split; [|done]; intros [b|b|b|b|i]; simpl; try done; destruct (decide _); done.
    - destruct (bfor_effect 0 (fixedValue_kernel v) e (start_ p) (end_ p) phi) as (phi' & Hr & Hsh & J1 & J2 & J3 & J4 & J5); [done|..].
      { intros i w Hi. simpl. rewrite !elem_of_cons. intros [->|[->|[->|[->|Hx]]]]; simpl; try lia. by apply elem_of_nil in Hx. }
      exists phi'. split; [exact Hr|]. split; [|done].
      intros [b|b|b|b|i]; simpl; rewrite ?J1, ?J2, ?J3, ?J4, ?J5; simpl; try (apply read_decide; done); unfold in_patch; destruct (decide _); done.
    - destruct (bfor_effect 0 (fixedGradient_kernel m (vf_int phi) g) e (start_ p) (end_ p) phi) as (phi' & Hr & Hsh & J1 & J2 & J3 & J4 & J5); [done|..].
      { intros i w Hi. rewrite fixedGradient_lookup by (done || lia).
        rewrite !elem_of_cons. intros [->|[->|[->|[->|Hx]]]]; simpl; try lia. by apply elem_of_nil in Hx. }
      exists phi'. split; [exact Hr|]. split; [|done].
      intros [b|b|b|b|i]; simpl; rewrite ?J1, ?J2, ?J3, ?J4, ?J5; unfold in_patch;
        (destruct (decide _); [|done]); rewrite ?fixedGradient_lookup by (done || lia); try done.
    - destruct (bfor_effect 0 (extrapolated_kernel m (vf_int phi)) e (start_ p) (end_ p) phi) as (phi' & Hr & Hsh & J1 & J2 & J3 & J4 & J5); [done|..].
      { intros i w Hi. rewrite extrapolated_lookup by (done || lia).
        rewrite !elem_of_cons. intros [->|[->|[->|[->|Hx]]]]; simpl; try lia. by apply elem_of_nil in Hx. }
      exists phi'. split; [exact Hr|]. split; [|done].
      intros [b|b|b|b|i]; simpl; rewrite ?J1, ?J2, ?J3, ?J4, ?J5; unfold in_patch;
        (destruct (decide _); [|done]); rewrite ?extrapolated_lookup by (done || lia); try done.
  Qed.
End facts.

(** * C43 *)
(** One patch: every executor and schedule gives the field with exactly the
    prescribed entries replaced; nothing outside the patch changes. *)
Theorem C43_volume : forall {V} `{ValueType V} m e p bc (phi : volField V),
  valid_topology m -> length (bDeltaCoeffs (bmesh m)) = nBoundaryFaces m -> patch_ok m p -> sized m (nCells m) phi ->
  exists phi', always (vol_correct e m p bc phi) phi' /\ replaced (vol_prescribes m p bc phi) phi phi'.
Proof.
  intros V ? m e p bc phi Hm Hd Hp Hs. destruct (vol_effect m e p bc phi Hm Hd Hp Hs) as (phi' & H1 & H2 & _). eauto.
Qed.
Print Assumptions C43_volume.

Theorem surf_effect {V} `{ValueType V} m e p bc (phi : volField V) : patch_ok m p ->
  sized m (nInternalFaces m + nBoundaryFaces m) phi ->
  exists phi', always (surf_correct e m p bc phi) phi' /\ replaced (surf_prescribes m p bc) phi phi' /\ same_shape phi' phi.
Proof.
  intros [Hp1 Hp2] (S0 & S1 & S2 & S3 & S4). destruct bc as [v| |]; simpl.
  2,3: exists phi; split; [done|]; split; [|done]; intros [b|b|b|b|i]; done.
  destruct (bfor_effect (nInternalFaces m) (surfFixedValue_kernel v) e (start_ p) (end_ p) phi) as (phi' & Hr & Hsh & J1 & J2 & J3 & J4 & J5); [done|..].
  { intros i w Hi. simpl. rewrite !elem_of_cons. intros [->|[->|[->|Hx]]]; simpl; try lia. by apply elem_of_nil in Hx. }
  exists phi'. split; [exact Hr|]. split; [|done].
  intros [b|b|b|b|i]; simpl; rewrite ?J1, ?J2, ?J3, ?J4, ?J5; simpl; unfold in_patch.
  - apply read_decide; done.
  - apply read_decide; done.
  - destruct (decide _); done.
  - destruct (decide _); done.
  - apply read_decide; [lia|done].
Qed.

Theorem C43_surface : forall {V} `{ValueType V} m e p bc (phi : volField V), patch_ok m p ->
  sized m (nInternalFaces m + nBoundaryFaces m) phi ->
  exists phi', always (surf_correct e m p bc phi) phi' /\ replaced (surf_prescribes m p bc) phi phi'.
Proof.
  intros V ? m e p bc phi Hp Hs. destruct (surf_effect m e p bc phi Hp Hs) as (phi' & H1 & H2 & _). eauto.
Qed.
Print Assumptions C43_surface.

(** The prescription depends on the internal values only, which a volume
    condition does not touch. *)
Lemma vol_prescribes_int {V} `{ValueType V} m p bc (phi phi' : volField V) en :
  vf_int phi = vf_int phi' -> vol_prescribes m p bc phi en = vol_prescribes m p bc phi' en.
Proof. intros E. unfold vol_prescribes, at_face_cell. by rewrite E. Qed.
Lemma vol_int {V} `{ValueType V} m p bc (phi phi' : volField V) :
  replaced (vol_prescribes m p bc phi) phi phi' -> vf_int phi' = vf_int phi.
Proof. intros Hr. apply list_eq. intros i. apply inl_fmap_inj, (Hr (Internal i)). Qed.
Lemma sized_shape {V} m n (phi phi' : volField V) : same_shape phi' phi -> sized m n phi -> sized m n phi'.
Proof. unfold sized. intros (-> & -> & -> & -> & ->). done. Qed.

Theorem C43_volume_idempotent : forall {V} `{ValueType V} m e p bc (phi phi' phi'' : volField V),
  valid_topology m -> length (bDeltaCoeffs (bmesh m)) = nBoundaryFaces m -> patch_ok m p -> sized m (nCells m) phi ->
  vol_correct e m p bc phi (Some phi') -> vol_correct e m p bc phi' (Some phi'') -> phi'' = phi'.
Proof.
  intros V ? m e p bc phi phi' phi'' Hm Hd Hp Hs H1 H2.
  destruct (vol_effect m e p bc phi Hm Hd Hp Hs) as (a & Ha & Ra & Sa). apply Ha in H1. injection H1 as ->.
  destruct (vol_effect m e p bc a Hm Hd Hp (sized_shape _ _ _ _ Sa Hs)) as (b & Hb & Rb & Sb). apply Hb in H2. injection H2 as ->.
  apply read_ext. intros en. rewrite Rb, (vol_prescribes_int m p bc a phi) by (by apply (vol_int m p bc)).
  rewrite Ra. by destruct (vol_prescribes m p bc phi en).
Qed.
Print Assumptions C43_volume_idempotent.

Theorem C43_surface_idempotent : forall {V} `{ValueType V} m e p bc (phi phi' phi'' : volField V), patch_ok m p ->
  sized m (nInternalFaces m + nBoundaryFaces m) phi ->
  surf_correct e m p bc phi (Some phi') -> surf_correct e m p bc phi' (Some phi'') -> phi'' = phi'.
Proof.
  intros V ? m e p bc phi phi' phi'' Hp Hs H1 H2.
  destruct (surf_effect m e p bc phi Hp Hs) as (a & Ha & Ra & Sa). apply Ha in H1. injection H1 as ->.
  destruct (surf_effect m e p bc a Hp (sized_shape _ _ _ _ Sa Hs)) as (b & Hb & Rb & Sb). apply Hb in H2. injection H2 as ->.
  apply read_ext. intros en. rewrite Rb, Ra. by destruct (surf_prescribes m p bc en).
Qed.
Print Assumptions C43_surface_idempotent.

(** All patches.  [pre] collects the prescriptions; with disjoint patches at
    most one applies to an entry. *)
Section all.
  Context {V : Type} `{HL : ValueType V} {B : Type}.
  Context (one : patch -> B -> volField V -> option (volField V) -> Prop)
          (pre : patch -> B -> volField V -> entry -> option (V + Qc)) (ok : volField V -> Prop) (inv : volField V -> volField V -> Prop).
  Context (okp : patch -> Prop).
  Context (Hone : forall p bc phi, okp p -> ok phi -> exists phi', always (one p bc phi) phi' /\
              replaced (pre p bc phi) phi phi' /\ ok phi' /\ inv phi phi').
  Context (Hinv_refl : forall phi, inv phi phi) (Hinv_trans : forall a b c, inv a b -> inv b c -> inv a c).
  Context (Hpre : forall p bc phi phi' en, inv phi phi' -> pre p bc phi' en = pre p bc phi en).
  Context (Hdisj : forall p q bc bc' phi en x, disjoint p q -> pre p bc phi en = Some x -> pre q bc' phi en = None).

  Definition pairwise_disjoint (bcs : list (patch * B)) : Prop :=
    forall i j a b, bcs !! i = Some a -> bcs !! j = Some b -> i <> j -> disjoint a.1 b.1.

  (** What the whole list of conditions prescribes. *)
  Definition all_prescribe (bcs : list (patch * B)) (phi : volField V) (en : entry) (x : V + Qc) : Prop :=
    exists a, a ∈ bcs /\ pre a.1 a.2 phi en = Some x.

  Lemma all_effect bcs : forall phi, Forall (fun a => okp a.1) bcs -> pairwise_disjoint bcs -> ok phi ->
    exists phi', always (correct_all one bcs phi) phi' /\ ok phi' /\ inv phi phi' /\
      (forall en x, all_prescribe bcs phi en x -> read phi' en = Some x) /\
      (forall en, (forall a, a ∈ bcs -> pre a.1 a.2 phi en = None) -> read phi' en = read phi en).
  Proof using Hone Hinv_refl Hinv_trans Hpre Hdisj.
    induction bcs as [|[p bc] bcs IH]; intros phi Hf Hd Hok.
    { exists phi. split; [done|]. split; [done|]. split; [done|]. split; [|done].
      intros en x (a & Ha & _). by apply elem_of_nil in Ha. }
    apply Forall_cons in Hf as [Hf1 Hf2]. simpl in Hf1.
    destruct (Hone p bc phi Hf1 Hok) as (phi1 & A1 & R1 & O1 & I1).
    destruct (IH phi1 Hf2) as (phi2 & A2 & O2 & I2 & P2 & N2); [|done|].
    { intros i j a b Hi Hj Hij. apply (Hd (S i) (S j)); [done..|lia]. }
    exists phi2. split; [|split; [done|split; [eauto|split]]].
    - intros r. simpl. split.
      + intros [[Hn _]|(q & Hq & Hr)]; [by apply A1 in Hn|]. apply A1 in Hq. injection Hq as ->. by apply A2.
      + intros ->. right. exists phi1. split; [by apply A1|by apply A2].
    - intros en x (a & Ha & Hx). apply elem_of_cons in Ha as [->|Ha].
      + simpl in Hx. rewrite N2; [rewrite R1, Hx; done|]. intros b Hb. rewrite (Hpre _ _ phi) by done.
        apply elem_of_list_lookup in Hb as [j Hj].
        apply (Hdisj p b.1 bc b.2 phi en x); [|done]. apply (Hd 0 (S j) (p, bc) b); done.
      + apply P2. exists a. split; [done|]. by rewrite (Hpre _ _ phi).
    - intros en Hn. rewrite N2.
      + assert (E : pre p bc phi en = None) by (apply (Hn (p, bc)); by constructor). rewrite R1, E. done.
      + intros a Ha. rewrite (Hpre _ _ phi) by done. apply Hn. by constructor.
  Qed.

  Lemma all_order bcs bcs' phi r r' : Forall (fun a => okp a.1) bcs -> pairwise_disjoint bcs -> ok phi -> bcs ≡ₚ bcs' ->
    correct_all one bcs phi r -> correct_all one bcs' phi r' -> r = r' /\ r <> None.
  Proof using Hone Hinv_refl Hinv_trans Hpre Hdisj.
    intros Hf Hd Hok Hp H1 H2.
    assert (Hd' : pairwise_disjoint bcs').
    { symmetry in Hp; apply Permutation_inj in Hp as [_ (f & Hinj & Hlk)]. intros i j a b Hi Hj Hij.
      rewrite Hlk in Hi, Hj. apply (Hd (f i) (f j)); [done..|]. intros E. by apply Hij, Hinj. }
    destruct (all_effect bcs phi Hf Hd Hok) as (a & A & _ & _ & Pa & Na).
    destruct (all_effect bcs' phi) as (b & Bq & _ & _ & Pb & Nb); [by rewrite <- Hp|done|done|].
    apply A in H1 as ->. apply Bq in H2 as ->. split; [|done]. f_equal. apply read_ext. intros en.
    destruct (decide (Exists (fun c => pre c.1 c.2 phi en <> None) bcs)) as [He|He].
    - apply Exists_exists in He as (c & Hc & Hx). destruct (pre c.1 c.2 phi en) as [x|] eqn:E; [|done].
      rewrite (Pa en x), (Pb en x); [done| |]; exists c; (split; [|done]); [by rewrite <- Hp|done].
    - assert (Hn : forall c, c ∈ bcs -> pre c.1 c.2 phi en = None).
      { intros c Hc. destruct (pre c.1 c.2 phi en) eqn:E; [|done]. exfalso. apply He. apply Exists_exists. exists c. by rewrite E. }
      rewrite Na, Nb; [done| |done]. intros c Hc. apply Hn. by rewrite Hp.
  Qed.
End all.

Lemma disjoint_vol {V} `{ValueType V} m p q bc bc' (phi : volField V) en x : disjoint p q ->
  vol_prescribes m p bc phi en = Some x -> vol_prescribes m q bc' phi en = None.
Proof.
  intros Hd. unfold vol_prescribes. destruct en as [b|b|b|b|i]; try done;
    (destruct (decide (in_patch p b)) as [Hp|]; [|done]); intros _;
    (rewrite decide_False; [done|by apply Hd]).
Qed.
Lemma disjoint_surf {V} `{ValueType V} m p q (bc bc' : surfBC V) en x : disjoint p q ->
  surf_prescribes m p bc en = Some x -> surf_prescribes m q bc' en = None.
Proof.
  intros Hd. unfold surf_prescribes. destruct bc, bc', en as [b|b|b|b|i]; try done.
  - destruct (decide (in_patch p b)); [|done]. intros _. rewrite decide_False; [done|by apply Hd].
  - destruct (decide (in_patch p b)); [|done]. intros _. rewrite decide_False; [done|by apply Hd].
  - destruct (decide _) as [[_ Hp]|]; [|done]. intros _. rewrite decide_False; [done|]. intros [_ Hq]. by apply (Hd _ Hp).
Qed.

(** Correcting all patches: when they are disjoint each entry ends up as the one
    patch it belongs to prescribes, entries of no patch are unchanged, and any
    other order of the conditions gives the same field. *)
Theorem C43_volume_all : forall {V} `{ValueType V} m e bcs (phi : volField V),
  valid_topology m -> length (bDeltaCoeffs (bmesh m)) = nBoundaryFaces m ->
  Forall (fun a => patch_ok m a.1) bcs -> pairwise_disjoint bcs -> sized m (nCells m) phi ->
  exists phi', always (vol_correctBoundaryConditions e m bcs phi) phi' /\ vf_int phi' = vf_int phi /\
    (forall p bc en x, (p, bc) ∈ bcs -> vol_prescribes m p bc phi en = Some x -> read phi' en = Some x) /\
    (forall en, (forall p bc, (p, bc) ∈ bcs -> vol_prescribes m p bc phi en = None) -> read phi' en = read phi en) /\
    sized m (nCells m) phi'.
Proof.
  intros V ? m e bcs phi Hm Hd Hf Hdj Hs.
  destruct (all_effect (vol_correct e m) (vol_prescribes m) (sized m (nCells m)) (fun a b => vf_int b = vf_int a) (patch_ok m))
    with (bcs := bcs) (phi := phi) as (phi' & A & O & I & P & N); try done.
  - intros p bc f Hp Hok. destruct (vol_effect m e p bc f Hm Hd Hp Hok) as (f' & A & R & S). exists f'.
    split; [done|]. split; [done|]. split; [by apply (sized_shape _ _ f)|]. by apply (vol_int m p bc).
  - intros a b c E1 E2. congruence.
  - intros p bc f f' en E. by apply vol_prescribes_int.
  - intros p q bc bc' f en x. apply disjoint_vol.
  - exists phi'. split; [done|]. split; [done|]. split; [|split; [|done]].
    + intros p bc en x Hin Hx. apply P. exists (p, bc). done.
    + intros en Hn. apply N. intros [p bc]. apply Hn.
Qed.
Print Assumptions C43_volume_all.

Theorem C43_volume_order : forall {V} `{ValueType V} m e bcs bcs' (phi : volField V) r r',
  valid_topology m -> length (bDeltaCoeffs (bmesh m)) = nBoundaryFaces m ->
  Forall (fun a => patch_ok m a.1) bcs -> pairwise_disjoint bcs -> sized m (nCells m) phi -> bcs ≡ₚ bcs' ->
  vol_correctBoundaryConditions e m bcs phi r -> vol_correctBoundaryConditions e m bcs' phi r' -> r = r' /\ r <> None.
Proof.
  intros V ? m e bcs bcs' phi r r' Hm Hd Hf Hdj Hs Hp.
  apply (all_order (vol_correct e m) (vol_prescribes m) (sized m (nCells m)) (fun a b => vf_int b = vf_int a) (patch_ok m)); try done.
  - intros p bc f Hpp Hok. destruct (vol_effect m e p bc f Hm Hd Hpp Hok) as (f' & A & R & S). exists f'.
    split; [done|]. split; [done|]. split; [by apply (sized_shape _ _ f)|]. by apply (vol_int m p bc).
  - intros a b c E1 E2. congruence.
  - intros p bc f f' en E. by apply vol_prescribes_int.
  - intros p q bc bc' f en x. apply disjoint_vol.
Qed.
Print Assumptions C43_volume_order.

Theorem C43_surface_order : forall {V} `{ValueType V} m e bcs bcs' (phi : volField V) r r',
  Forall (fun a => patch_ok m a.1) bcs -> pairwise_disjoint bcs -> sized m (nInternalFaces m + nBoundaryFaces m) phi -> bcs ≡ₚ bcs' ->
  surf_correctBoundaryConditions e m bcs phi r -> surf_correctBoundaryConditions e m bcs' phi r' -> r = r' /\ r <> None.
Proof.
  intros V ? m e bcs bcs' phi r r' Hf Hdj Hs Hp.
  apply (all_order (surf_correct e m) (fun p bc _ => surf_prescribes m p bc) (sized m (nInternalFaces m + nBoundaryFaces m)) (fun _ _ => True) (patch_ok m)); try done.
  - intros p bc f Hpp Hok. destruct (surf_effect m e p bc f Hpp Hok) as (f' & A & R & S). exists f'.
    split; [done|]. split; [done|]. split; [by apply (sized_shape _ _ f)|]. done.
  - intros p q bc bc' f en x. apply disjoint_surf.
Qed.
Print Assumptions C43_surface_order.

(** Patches built from the mesh: with non-decreasing offsets different patch ids
    have disjoint ranges inside the boundary, the first starts at 0, the last
    ends at the number of boundary faces, so that every face is in a patch. *)
Record offsets_ok (m : mesh) : Prop := {
  oo_len : length (bOffset (bmesh m)) = nBoundaries m + 1;
  oo_first : bOffset (bmesh m) !! 0 = Some 0;
  oo_last : bOffset (bmesh m) !! nBoundaries m = Some (nBoundaryFaces m);
  oo_mono : forall i, i < nBoundaries m -> atn (bOffset (bmesh m)) i <= atn (bOffset (bmesh m)) (i + 1);
}.

Lemma offsets_le m : offsets_ok m -> forall d i, i + d <= nBoundaries m -> atn (bOffset (bmesh m)) i <= atn (bOffset (bmesh m)) (i + d).
Proof.
  intros Ho. induction d as [|d IH]; intros i Hi; [by rewrite Nat.add_0_r|].
  specialize (IH i ltac:(lia)). pose proof (oo_mono m Ho (i + d) ltac:(lia)).
  replace (i + S d) with (i + d + 1) by lia. lia.
Qed.

Theorem C43_patches : forall m, offsets_ok m ->
  (forall id, id < nBoundaries m -> exists p, patch_create m id = Some p /\ patchID_ p = id /\ patch_ok m p /\
     patchStart p = atn (bOffset (bmesh m)) id /\ patch_range p = (patchStart p, patchStart p + patchSize p) /\
     patchStart p + patchSize p = atn (bOffset (bmesh m)) (id + 1)) /\
  (forall id id' p q, patch_create m id = Some p -> patch_create m id' = Some q -> id <> id' -> disjoint p q) /\
  (forall b, b < nBoundaryFaces m -> exists id p, id < nBoundaries m /\ patch_create m id = Some p /\ in_patch p b).
Proof.
  intros m Ho.
  assert (Hlk : forall i, i <= nBoundaries m -> bOffset (bmesh m) !! i = Some (atn (bOffset (bmesh m)) i)).
  { intros i Hi. apply lookup_atn. rewrite (oo_len m Ho). lia. }
  assert (Hend : atn (bOffset (bmesh m)) (nBoundaries m) = nBoundaryFaces m).
  { unfold atn. by rewrite (oo_last m Ho). }
  assert (Hmk : forall id, id < nBoundaries m -> patch_create m id = Some (Patch id (atn (bOffset (bmesh m)) id) (atn (bOffset (bmesh m)) (id + 1)))).
  { intros id Hid. unfold patch_create. rewrite !Hlk by lia. done. }
  assert (Hinv : forall id p, patch_create m id = Some p -> id < nBoundaries m).
  { intros id p Hp. unfold patch_create in Hp. destruct (bOffset (bmesh m) !! id) as [s|] eqn:E1; [|done]. simpl in Hp.
    destruct (bOffset (bmesh m) !! (id + 1)) as [t|] eqn:E2; [|done]. apply lookup_lt_Some in E2. rewrite (oo_len m Ho) in E2. lia. }
  split; [|split].
  - intros id Hid. eexists. split; [by apply Hmk|]. split; [done|].
    pose proof (oo_mono m Ho id Hid). pose proof (offsets_le m Ho (nBoundaries m - (id + 1)) (id + 1) ltac:(lia)) as Hl.
    replace (id + 1 + (nBoundaries m - (id + 1))) with (nBoundaries m) in Hl by lia. rewrite Hend in Hl.
    unfold patch_ok, patch_range, patchStart, patchSize. simpl. split; [lia|]. split; [done|]. split; [|lia]. f_equal. lia.
  - intros id id' p q Hp Hq Hne b [Hb1 Hb2] [Hb3 Hb4]. pose proof (Hinv _ _ Hp) as Hi. pose proof (Hinv _ _ Hq) as Hi'.
    rewrite Hmk in Hp, Hq by done. injection Hp as <-. injection Hq as <-. simpl in *.
    destruct (decide (id < id')) as [Hlt|Hge].
    + pose proof (offsets_le m Ho (id' - (id + 1)) (id + 1) ltac:(lia)) as Hl. replace (id + 1 + (id' - (id + 1))) with id' in Hl by lia. lia.
    + pose proof (offsets_le m Ho (id - (id' + 1)) (id' + 1) ltac:(lia)) as Hl. replace (id' + 1 + (id - (id' + 1))) with id in Hl by lia. lia.
  - intros b Hb.
    assert (Hx : forall n, n <= nBoundaries m -> b < atn (bOffset (bmesh m)) n ->
      exists id, id < n /\ atn (bOffset (bmesh m)) id <= b < atn (bOffset (bmesh m)) (id + 1)).
    { induction n as [|n IH]; intros Hn Hbn.
      - unfold atn in Hbn. rewrite (oo_first m Ho) in Hbn. simpl in Hbn. lia.
      - destruct (decide (b < atn (bOffset (bmesh m)) n)) as [Hlt|Hge].
        + destruct (IH ltac:(lia) Hlt) as (id & ? & ?). exists id. split; [lia|done].
        + exists n. split; [lia|]. replace (n + 1) with (S n) by lia. lia. }
    destruct (Hx (nBoundaries m) ltac:(lia) ltac:(lia)) as (id & Hid & Hr).
    eexists id, _. split; [done|]. split; [by apply Hmk|]. exact Hr.
Qed.
Print Assumptions C43_patches.

(** patchEnd() returns the start of the patch (boundaryPatchMixin.hpp:45). *)
Theorem C82_patch_end_refuted : ~ forall m id p, offsets_ok m -> patch_create m id = Some p -> patchEnd p = patchStart p + patchSize p.
Proof.
  intros H.
  assert (Ho : offsets_ok cell1). { split; try done. intros [|[|i]] Hi; simpl in Hi; try lia; vm_compute; lia. }
  specialize (H cell1 0 (Patch 0 0 1) Ho eq_refl). vm_compute in H. discriminate.
Qed.
Print Assumptions C82_patch_end_refuted.

(** After correcting, fixed value, fixed gradient and extrapolated patches
    satisfy the mixed condition the implicit operators assume (C36), for inverse
    distances that agree with those of the boundary mesh. *)
Theorem C43_mixed_condition : forall {V} `{ValueLaws V} m e bcs (phi phi' : volField V) dc,
  valid_topology m -> length (bDeltaCoeffs (bmesh m)) = nBoundaryFaces m ->
  Forall (fun a => patch_ok m a.1) bcs -> pairwise_disjoint bcs -> sized m (nCells m) phi ->
  (forall b, b < nBoundaryFaces m -> at0 dc (nInternalFaces m + b) = at0 (bDeltaCoeffs (bmesh m)) b /\ at0 (bDeltaCoeffs (bmesh m)) b <> 0%Qc) ->
  (forall b, b < nBoundaryFaces m -> exists p bc, (p, bc) ∈ bcs /\ in_patch p b /\ bc <> Calculated /\ bc <> EmptyBC) ->
  vol_correctBoundaryConditions e m bcs phi (Some phi') -> mixed_boundary m dc phi'.
Proof.
  intros V ? HL m e bcs phi phi' dc Hm Hd Hf Hdj Hs Hdc Hcov Hrun b Hb.
  destruct (C43_volume_all m e bcs phi Hm Hd Hf Hdj Hs) as (q & A & I & P & _).
  apply A in Hrun. injection Hrun as ->. destruct (Hdc b Hb) as [Edc Hnz]. rewrite Edc. split; [done|].
  destruct (Hcov b Hb) as (p & bc & Hin & Hip & Hc & He).
  assert (R : forall en x, vol_prescribes m p bc phi en = Some x -> read q en = Some x) by (intros en x; by apply P).
  assert (Ecell : at_face_cell m q b = at_face_cell m phi b) by (unfold at_face_cell; by rewrite I).
  rewrite Ecell. destruct bc as [v|g| | |]; try done.
  - assert (R1 := R (Value b) (inl v)). assert (R2 := R (RefValue b) (inl v)). assert (R3 := R (ValueFraction b) (inr 1%Qc)).
    simpl in R1, R2, R3. rewrite decide_True in R1, R2, R3 by done.
    specialize (R1 eq_refl). specialize (R2 eq_refl). specialize (R3 eq_refl).
    unfold atV, at0.
    destruct (vf_value q !! b); [|done]. destruct (vf_refValue q !! b); [|done]. destruct (vf_valueFraction q !! b); [|done].
    simpl in *. injection R1 as ->. injection R2 as ->. injection R3 as ->.
    rewrite vscale_1. replace (1 - 1)%Qc with 0%Qc by ring. by rewrite vscale_0_l, vadd_0_r.
  - assert (R1 := R (Value b) (inl (vadd (at_face_cell m phi b) (vscale (1 / at0 (bDeltaCoeffs (bmesh m)) b)%Qc g)))).
    assert (R2 := R (RefGrad b) (inl g)). assert (R3 := R (ValueFraction b) (inr 0%Qc)).
    simpl in R1, R2, R3. rewrite decide_True in R1, R2, R3 by done.
    specialize (R1 eq_refl). specialize (R2 eq_refl). specialize (R3 eq_refl).
    unfold atV. unfold at0 at 1 2.
    destruct (vf_value q !! b); [|done]. destruct (vf_refGrad q !! b); [|done]. destruct (vf_valueFraction q !! b); [|done].
    simpl in *. injection R1 as ->. injection R2 as ->. injection R3 as ->.
    rewrite vscale_0_l, vadd_0_l. replace (1 - 0)%Qc with 1%Qc by ring. by rewrite vscale_1.
  - assert (R1 := R (Value b) (inl (at_face_cell m phi b))). assert (R2 := R (RefValue b) (inl (at_face_cell m phi b))).
    assert (R3 := R (ValueFraction b) (inr 1%Qc)).
    simpl in R1, R2, R3. rewrite decide_True in R1, R2, R3 by done.
    specialize (R1 eq_refl). specialize (R2 eq_refl). specialize (R3 eq_refl).
    unfold atV, at0.
    destruct (vf_value q !! b); [|done]. destruct (vf_refValue q !! b); [|done]. destruct (vf_valueFraction q !! b); [|done].
    simpl in *. injection R1 as ->. injection R2 as ->. injection R3 as ->.
    rewrite vscale_1. replace (1 - 1)%Qc with 0%Qc by ring. by rewrite vscale_0_l, vadd_0_r.
Qed.
Print Assumptions C43_mixed_condition.

(** * Selection by name *)
(** The condition a dictionary describes: its "type" entry names one of the
    registered types, whose parameter is the entry of the same name. *)
Definition vol_described (d : dict) (bc : volBC Qc) : Prop :=
  match bc with
  | FixedValue v => dfind d "type" = Some (AString "fixedValue") /\ dfind d "fixedValue" = Some (AScalar v)
  | FixedGradient g => dfind d "type" = Some (AString "fixedGradient") /\ dfind d "fixedGradient" = Some (AScalar g)
  | Calculated => dfind d "type" = Some (AString "calculated")
  | Extrapolated => dfind d "type" = Some (AString "extrapolated")
  | EmptyBC => dfind d "type" = Some (AString "empty")
  end.
Definition surf_described (d : dict) (bc : surfBC Qc) : Prop :=
  match bc with
  | SFixedValue v => dfind d "type" = Some (AString "fixedValue") /\ dfind d "fixedValue" = Some (AScalar v)
  | SCalculated => dfind d "type" = Some (AString "calculated")
  | SEmpty => dfind d "type" = Some (AString "empty")
  end.

Theorem C43_volume_selection : forall m d id p, patch_create m id = Some p ->
  (forall bc, volumeBoundary_create m d id = Ok (p, bc) <-> vol_described d bc) /\
  (forall q bc, volumeBoundary_create m d id = Ok (q, bc) -> q = p) /\
  (dfind d "type" = None -> volumeBoundary_create m d id = Throw OutOfRange) /\
  (forall a, dfind d "type" = Some a -> (forall s, a <> AString s) -> volumeBoundary_create m d id = Throw BadAnyCast) /\
  (forall t, dfind d "type" = Some (AString t) ->
     t ∉ ["fixedValue"; "fixedGradient"; "calculated"; "extrapolated"; "empty"] -> volumeBoundary_create m d id = Exit) /\
  (forall t, dfind d "type" = Some (AString t) -> t = "fixedValue" \/ t = "fixedGradient" ->
     dfind d t = None -> volumeBoundary_create m d id = Throw OutOfRange) /\
  volumeBoundary_create m d id <> UB.
Proof.
  intros m d id p Hp. unfold volumeBoundary_create, get_string, get_scalar, dict_get, dict_at, vol_described. rewrite Hp. simpl.
  destruct (dfind d "type") as [[|t|z|q|b|dd|l n|n pl|z|f]|]; simpl.
  2:{ destruct (decide (t = "fixedValue")) as [->|H1].
      { destruct (dfind d "fixedValue") as [[|s|z|q|b|dd|l n|n pl|z|f]|] eqn:E; simpl;
        (split; [intros [v|g| | |]; split; (intros; destruct_and?; simplify_eq; (done || (split; congruence)))|]);
        (split; [intros; congruence|]); (split; [done|]); (split; [intros a Ha Hs; injection Ha as <-; by destruct (Hs "fixedValue")|]);
        (split; [intros t' Ht Hn; injection Ht as <-; destruct Hn; set_solver|]);
        (split; [intros t' Ht [->| ->] Hn; congruence|done]). }
      destruct (decide (t = "fixedGradient")) as [->|H2].
      { destruct (dfind d "fixedGradient") as [[|s|z|q|b|dd|l n|n pl|z|f]|] eqn:E; simpl;
        (split; [intros [v|g| | |]; split; (intros; destruct_and?; simplify_eq; (done || (split; congruence)))|]);
        (split; [intros; congruence|]); (split; [done|]); (split; [intros a Ha Hs; injection Ha as <-; by destruct (Hs "fixedGradient")|]);
        (split; [intros t' Ht Hn; injection Ht as <-; destruct Hn; set_solver|]);
        (split; [intros t' Ht [->| ->] Hn; congruence|done]). }
      destruct (decide (t = "calculated")) as [->|H3]; [|destruct (decide (t = "extrapolated")) as [->|H4]; [|destruct (decide (t = "empty")) as [->|H5]]];
        (split; [intros [v|g| | |]; split; (intros; destruct_and?; simplify_eq; done)|]);
        (split; [intros; congruence|]); (split; [done|]);
        (split; [intros a Ha Hs; injection Ha as <-; by destruct (Hs _ eq_refl)|]);
        (split; [intros t' Ht Hn; injection Ht as <-; (done || (destruct Hn; set_solver))|]);
        (split; [intros t' Ht [->| ->] Hn; congruence|done]). }
  all: (split; [intros [v|g| | |]; split; (intros; destruct_and?; simplify_eq; done)|]);
    (split; [intros; congruence|]); (split; [done|]); (split; [try done|]); (split; [done|]); (split; [done|]); done.
Qed.
Print Assumptions C43_volume_selection.

Theorem C43_surface_selection : forall m d id p, patch_create m id = Some p ->
  (forall bc, surfaceBoundary_create m d id = Ok (p, bc) <-> surf_described d bc) /\
  (forall q bc, surfaceBoundary_create m d id = Ok (q, bc) -> q = p) /\
  (dfind d "type" = None -> surfaceBoundary_create m d id = Throw OutOfRange) /\
  (forall a, dfind d "type" = Some a -> (forall s, a <> AString s) -> surfaceBoundary_create m d id = Throw BadAnyCast) /\
  (forall t, dfind d "type" = Some (AString t) -> t ∉ ["fixedValue"; "calculated"; "empty"] -> surfaceBoundary_create m d id = Exit) /\
  (forall t, dfind d "type" = Some (AString t) -> t = "fixedValue" ->
     dfind d t = None -> surfaceBoundary_create m d id = Throw OutOfRange) /\
  surfaceBoundary_create m d id <> UB.
Proof.
  intros m d id p Hp. unfold surfaceBoundary_create, get_string, get_scalar, dict_get, dict_at, surf_described. rewrite Hp. simpl.
  destruct (dfind d "type") as [[|t|z|q|b|dd|l n|n pl|z|f]|]; simpl.
  2:{ destruct (decide (t = "fixedValue")) as [->|H1].
      { destruct (dfind d "fixedValue") as [[|s|z|q|b|dd|l n|n pl|z|f]|] eqn:E; simpl;
        (split; [intros [v| |]; split; (intros; destruct_and?; simplify_eq; (done || (split; congruence)))|]);
        (split; [intros; congruence|]); (split; [done|]); (split; [intros a Ha Hs; injection Ha as <-; by destruct (Hs "fixedValue")|]);
        (split; [intros t' Ht Hn; injection Ht as <-; destruct Hn; set_solver|]);
        (split; [intros t' Ht -> Hn; congruence|done]). }
      destruct (decide (t = "calculated")) as [->|H3]; [|destruct (decide (t = "empty")) as [->|H5]];
        (split; [intros [v| |]; split; (intros; destruct_and?; simplify_eq; done)|]);
        (split; [intros; congruence|]); (split; [done|]);
        (split; [intros a Ha Hs; injection Ha as <-; by destruct (Hs _ eq_refl)|]);
        (split; [intros t' Ht Hn; injection Ht as <-; (done || (destruct Hn; set_solver))|]);
        (split; [intros t' Ht -> Hn; congruence|done]). }
  all: (split; [intros [v| |]; split; (intros; destruct_and?; simplify_eq; done)|]);
    (split; [intros; congruence|]); (split; [done|]); (split; [try done|]); (split; [done|]); (split; [done|]); done.
Qed.
Print Assumptions C43_surface_selection.

Lemma create_each_ok {B} (f : nat -> outcome B) (g : nat -> B) n : (forall i, i < n -> f i = Ok (g i)) -> create_each f n = Ok (map g (seq 0 n)).
Proof.
  induction n as [|n IH]; intros Hf; [done|]. cbn [create_each]. rewrite IH by (intros; apply Hf; lia).
  rewrite seq_S, map_app. simpl. by rewrite Hf by lia.
Qed.
Lemma create_each_exit {B} (f : nat -> outcome B) n : 0 < n -> f 0 = Exit -> create_each f n = Exit.
Proof.
  intros Hn Hf. induction n as [|n IH]; [lia|]. cbn [create_each]. destruct n as [|n]; [by simpl; rewrite Hf|].
  rewrite IH by lia. done.
Qed.

(** The helper that makes "calculated" conditions returns one for each patch of
    the mesh, in order; correcting the boundary then does nothing. *)
Theorem C43_calculated : forall m, offsets_ok m ->
  exists ps, map patchID_ ps = seq 0 (nBoundaries m) /\ Forall (patch_ok m) ps /\
    createCalculatedBCs (volumeBoundary_create m) m = Ok (map (fun p => (p, Calculated)) ps) /\
    createCalculatedBCs (surfaceBoundary_create m) m = Ok (map (fun p => (p, SCalculated)) ps) /\
    createExtrapolatedBCs (volumeBoundary_create m) m = Ok (map (fun p => (p, Extrapolated)) ps) /\
    (forall V (HV : ValueType V) e (phi : volField V) r,
       vol_correctBoundaryConditions e m (map (fun p => (p, Calculated)) ps) phi r <-> r = Some phi).
Proof.
  intros m Ho. destruct (C43_patches m Ho) as (Hc & _ & _).
  assert (Hmk : forall id, id < nBoundaries m -> patch_create m id = Some (Patch id (atn (bOffset (bmesh m)) id) (atn (bOffset (bmesh m)) (id + 1)))).
  { intros id Hid. unfold patch_create.
    rewrite (lookup_atn _ id) by (rewrite (oo_len m Ho); lia). rewrite (lookup_atn _ (id + 1)) by (rewrite (oo_len m Ho); lia). done. }
  exists (map (fun id => Patch id (atn (bOffset (bmesh m)) id) (atn (bOffset (bmesh m)) (id + 1))) (seq 0 (nBoundaries m))).
  split. { rewrite map_map. simpl. apply map_id. }
  split. { apply Forall_forall. intros p Hp. apply elem_of_list_In, in_map_iff in Hp as (id & <- & Hid). apply in_seq in Hid.
    destruct (Hc id ltac:(lia)) as (q & Eq & _ & Hok & _). rewrite Hmk in Eq by lia. by injection Eq as <-. }
  split; [|split; [|split]].
  - unfold createCalculatedBCs. rewrite map_map. apply create_each_ok. intros i Hi. by apply (C43_volume_selection m _ i _ (Hmk i Hi)).
  - unfold createCalculatedBCs. rewrite map_map. apply create_each_ok. intros i Hi. by apply (C43_surface_selection m _ i _ (Hmk i Hi)).
  - unfold createExtrapolatedBCs. rewrite map_map. apply create_each_ok. intros i Hi. by apply (C43_volume_selection m _ i _ (Hmk i Hi)).
  - intros V HV e phi r. generalize (map (fun id => Patch id (atn (bOffset (bmesh m)) id) (atn (bOffset (bmesh m)) (id + 1))) (seq 0 (nBoundaries m))).
    intros l. unfold vol_correctBoundaryConditions. induction l as [|p l IH]; [done|]. simpl. split.
    + intros [[Hn _]|(q & Hq & Hr)]; [done|]. injection Hq as ->. by apply IH.
    + intros ->. right. exists phi. split; [done|]. by apply IH.
Qed.
Print Assumptions C43_calculated.

(** "extrapolated" is not registered for surface fields: the helper offered for
    every boundary type (boundary.hpp:38-48) stops the program there. *)
Theorem C82_surface_extrapolated_refuted : ~ forall m, offsets_ok m -> exists bcs, createExtrapolatedBCs (surfaceBoundary_create m) m = Ok bcs.
Proof.
  intros H. destruct (H cell1) as [bcs Hb].
  - split; try done. intros [|[|i]] Hi; simpl in Hi; try lia; vm_compute; lia.
  - unfold createExtrapolatedBCs in Hb. rewrite create_each_exit in Hb; [done|vm_compute; lia|reflexivity].
Qed.
Print Assumptions C82_surface_extrapolated_refuted.

(** A case: two patches of one face each on a one-cell mesh, a fixed value and a
    fixed gradient, on any executor. *)
Definition cell1d : mesh :=
  Mesh [] [1%Qc] [Vec 0 0 0] [Vec (-(1)) 0 0; Vec 1 0 0] [] [1%Qc; 1%Qc] [0; 0] [] 1 0 2 2 2
    (BoundaryMesh [0; 0] [] [] [] [] [] [] [] [Q2Qc 2; Q2Qc 2] [0; 1; 2]).
Example C43_instance : offsets_ok cell1d /\
  forall e, always (vol_correctBoundaryConditions e cell1d [(Patch 0 0 1, FixedValue (Q2Qc 5)); (Patch 1 1 2, FixedGradient (Q2Qc 4))]
      (VolField [Q2Qc 3] [0; 0]%Qc [0; 0]%Qc [0; 0]%Qc [0; 0]%Qc))
    (VolField [Q2Qc 3] [Q2Qc 5; Q2Qc 5] [Q2Qc 5; 0%Qc] [1; 0]%Qc [Q2Qc 5; Q2Qc 4]).
Proof.
  split. { split; try done. intros [|[|i]] Hi; simpl in Hi; try lia; vm_compute; lia. }
  intros e.
  assert (Ht : valid_topology cell1d).
  { split; try done; try (intros f Hf; simpl in Hf; lia).
    - intros [|[|b]] Hb; simpl in Hb; try lia; vm_compute; lia.
    - intros [|[|b]] Hb; simpl in Hb; try lia; reflexivity. }
  destruct (C43_volume_all cell1d e [(Patch 0 0 1, FixedValue (Q2Qc 5)); (Patch 1 1 2, FixedGradient (Q2Qc 4))]
      (VolField [Q2Qc 3] [0; 0]%Qc [0; 0]%Qc [0; 0]%Qc [0; 0]%Qc)) as (phi' & A & I & P & N & _); try done.
  - constructor; [|constructor; [|constructor]]; vm_compute; lia.
  - intros [|[|i]] [|[|j]] a b Hi Hj Hij; try done; injection Hi as <-; injection Hj as <-; intros x [H1 H2] [H3 H4]; simpl in *; lia.
  - replace (VolField [Q2Qc 3] [Q2Qc 5; Q2Qc 5] [Q2Qc 5; 0%Qc] [1; 0]%Qc [Q2Qc 5; Q2Qc 4]) with phi'; [done|].
    apply read_ext. intros en.
    assert (E0 : forall n, n <> 0 -> n <> 1 -> (exists n', n = S (S n'))) by (intros [|[|n]]; [done|done|eauto]).
    destruct en as [[|[|b]]|[|[|b]]|[|[|b]]|[|[|b]]|i].
    all: try (etransitivity; [apply (P (Patch 0 0 1) (FixedValue (Q2Qc 5))); [set_solver|reflexivity]|reflexivity]).
    all: try (etransitivity; [apply (P (Patch 1 1 2) (FixedGradient (Q2Qc 4))); [set_solver|reflexivity]|]).
    all: try reflexivity.
    all: try (cbn [read vf_value lookup list_lookup fmap option_fmap option_map]; do 2 f_equal; apply Qc_is_canon; reflexivity).
    all: rewrite N; [reflexivity|]; intros p bc Hin; try done.
    all: assert (Hend : end_ p <= 2) by
      (apply elem_of_cons in Hin as [Hin|Hin]; [|apply elem_of_cons in Hin as [Hin|Hin]; [|by apply elem_of_nil in Hin]];
       injection Hin as -> ->; simpl; lia).
    all: unfold vol_prescribes; rewrite decide_False; [done|unfold in_patch; lia].
Qed.

(** * C51: copying boundary data *)
Definition field_on {V} (e : executor) (d : list V) (a : Fields.field V) : Prop := fexec a = e /\ fdata a = d.
(** The boundary data [b] holds the contents of [src], all on executor [e]. *)
Record boundary_on {V} (e : executor) (src b : boundaryFields V) : Prop := {
  bo_value : field_on e (fdata (bf_value src)) (bf_value b);
  bo_refValue : field_on e (fdata (bf_refValue src)) (bf_refValue b);
  bo_valueFraction : field_on e (fdata (bf_valueFraction src)) (bf_valueFraction b);
  bo_refGrad : field_on e (fdata (bf_refGrad src)) (bf_refGrad b);
  bo_types : field_on e (fdata (bf_types src)) (bf_types b);
  bo_offset : field_on e (fdata (bf_offset src)) (bf_offset b);
  bo_nBoundaries : bf_nBoundaries b = bf_nBoundaries src;
  bo_nFaces : bf_nFaces b = bf_nFaces src;
}.

(** Copying boundary fields to an executor puts all six arrays there with the
    contents of the source. *)
Theorem C51_data : forall V (e : executor) (src : boundaryFields V), boundary_on e src (bf_copy_to e src).
Proof. intros V e src. by split. Qed.
Print Assumptions C51_data.
(** The same for domain fields built from an internal field and boundary data. *)
Theorem C51_domain : forall V (e : executor) (i : Fields.field V) (src : boundaryFields V),
  df_exec (df_new_from e i src) = e /\ field_on e (fdata i) (df_internal (df_new_from e i src)) /\
  boundary_on e src (df_boundary (df_new_from e i src)).
Proof. intros V e i src. split; [done|]. split; [done|]. by split. Qed.
Print Assumptions C51_domain.
(** And for geometric fields built from these parts, of the right size. *)
Theorem C51_geometric : forall V m (e : executor) (i : Fields.field V) (src : boundaryFields V),
  (fsize i = nCells m -> exists g, gf_from_parts m e i src = Ok g /\ gf_exec g = e /\ df_exec (gf_field g) = e /\
     field_on e (fdata i) (df_internal (gf_field g)) /\ boundary_on e src (df_boundary (gf_field g))) /\
  (fsize i <> nCells m -> gf_from_parts m e i src = Exit).
Proof.
  intros V m e i src. unfold gf_from_parts. split.
  - intros E. rewrite E, Nat.eqb_refl. eexists. split; [done|]. split; [done|]. split; [done|]. split; [done|]. by split.
  - intros E. rewrite (proj2 (Nat.eqb_neq _ _)); [done|congruence].
Qed.
Print Assumptions C51_geometric.

(** The executor the copy reports is that of the source (boundaryFields.hpp:52
    initialises exec_ from rhs). *)
Theorem C89_exec_refuted : ~ forall V (e : executor) (src : boundaryFields V), bf_exec (bf_copy_to e src) = e.
Proof.
  intros H. specialize (H Qc GPUExecutor (BoundaryFields SerialExecutor (new_copy SerialExecutor []) (new_copy SerialExecutor [])
    (new_copy SerialExecutor []) (new_copy SerialExecutor []) (new_copy SerialExecutor []) (new_copy SerialExecutor [0]) 0 0)). discriminate.
Qed.
Print Assumptions C89_exec_refuted.
(** It is right when the source was already there. *)
Theorem C51_exec_same : forall V (e : executor) (src : boundaryFields V), bf_exec src = e -> bf_exec (bf_copy_to e src) = e /\ bf_exec (bf_copy src) = e.
Proof. intros V e src <-. done. Qed.

(** A geometric field constructed with an executor from a domain field on another
    keeps the data where it was, while exec() reports the requested executor
    (geometricField.hpp:41-48). *)
Theorem C89_geometric_field_exec_refuted : ~ forall V (e : executor) (d : domainField V),
  gf_exec (gf_from_domain e d) = e /\ fexec (df_internal (gf_field (gf_from_domain e d))) = e.
Proof.
  intros H. destruct (H Qc GPUExecutor (DomainField SerialExecutor (new_copy SerialExecutor []) (BoundaryFields SerialExecutor (new_copy SerialExecutor []) (new_copy SerialExecutor [])
    (new_copy SerialExecutor []) (new_copy SerialExecutor []) (new_copy SerialExecutor []) (new_copy SerialExecutor [0]) 0 0))) as [_ E]. discriminate.
Qed.
Print Assumptions C89_geometric_field_exec_refuted.

(** New boundary fields from offsets: everything on the executor, the arrays as
    long as the last offset, and the ranges of the patches as given. *)
Theorem C51_new : forall V (e : executor) offsets (b : boundaryFields V), bf_new e offsets (Ok b) ->
  bf_exec b = e /\ bf_nBoundaries b = length offsets - 1 /\ last offsets = Some (bf_nFaces b) /\
  fexec (bf_value b) = e /\ fexec (bf_refValue b) = e /\ fexec (bf_valueFraction b) = e /\ fexec (bf_refGrad b) = e /\
  fsize (bf_value b) = bf_nFaces b /\ fsize (bf_refValue b) = bf_nFaces b /\ fsize (bf_valueFraction b) = bf_nFaces b /\
  fsize (bf_refGrad b) = bf_nFaces b /\ fsize (bf_types b) = bf_nBoundaries b /\
  field_on e offsets (bf_offset b) /\
  (e <> GPUExecutor -> forall i, i < bf_nBoundaries b -> exists s t, offsets !! i = Some s /\ offsets !! (i + 1) = Some t /\ bf_range b i = Ok (s, t)).
Proof.
  intros V e offsets b Hb. unfold bf_new in Hb. destruct (last offsets) as [n|] eqn:El; [|done].
  destruct Hb as (v & r & q & g & t & [? ?] & [? ?] & [? ?] & [? ?] & [? ?] & E). injection E as ->. simpl.
  do 13 (split; [done|]). intros He i Hi.
  destruct (lookup_lt_is_Some_2 offsets i ltac:(lia)) as [s Hs]. destruct (lookup_lt_is_Some_2 offsets (i + 1) ltac:(lia)) as [u Hu].
  exists s, u. split; [done|]. split; [done|]. unfold bf_range. simpl. rewrite Hs, Hu. by destruct e.
Qed.
Print Assumptions C51_new.
(** On the GPU executor asking for a patch range dereferences device memory on
    the host. *)
Theorem C89_range_gpu_refuted : ~ forall V (e : executor) offsets (b : boundaryFields V) i, bf_new e offsets (Ok b) ->
  i < bf_nBoundaries b -> exists s t, bf_range b i = Ok (s, t).
Proof.
  intros H. edestruct (H Qc GPUExecutor [0; 0] (BoundaryFields GPUExecutor (new_copy GPUExecutor []) (new_copy GPUExecutor [])
    (new_copy GPUExecutor []) (new_copy GPUExecutor []) (new_copy GPUExecutor [0%Z]) (new_copy GPUExecutor [0; 0]) 1 0) 0) as (s & t & E).
  - unfold bf_new. simpl. exists (new_copy GPUExecutor []), (new_copy GPUExecutor []), (new_copy GPUExecutor []), (new_copy GPUExecutor []),
      (new_copy GPUExecutor [0%Z]). do 5 (split; [done|]). reflexivity.
  - simpl. lia.
  - discriminate.
Qed.
Print Assumptions C89_range_gpu_refuted.

(** A case for the hypotheses of C51_new. *)
Example C51_instance : bf_new SerialExecutor [0; 1; 3] (Ok (BoundaryFields SerialExecutor (new_copy SerialExecutor [1; 1; 1]%Qc)
  (new_copy SerialExecutor [1; 1; 1]%Qc) (new_copy SerialExecutor [1; 1; 1]%Qc) (new_copy SerialExecutor [1; 1; 1]%Qc)
  (new_copy SerialExecutor [0%Z; 0%Z]) (new_copy SerialExecutor [0; 1; 3]) 2 3)).
Proof.
  unfold bf_new. simpl. pose (a := new_copy SerialExecutor [1; 1; 1]%Qc).
  exists a, a, a, a, (new_copy SerialExecutor [0%Z; 0%Z]). do 5 (split; [done|]). reflexivity. Qed.
