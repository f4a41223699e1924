(** C96: the explicit operators in any arithmetic. *)
From Verif Require Import Base Par ParProofs Exec ExecProofs Value Kernel KernelProofs KernelAnyArith Mesh MeshSpec Coeff FV FVSpec FVProofs FVAnyArith ExampleMesh.

Section any.
  Context {V : Type} `{ValueType V}.
  Notation mem := (list (list V)).

  (** [res]: in every cell scaling/V times the accumulated value, starting from [start]. *)
  Definition accumulated_field (e : executor) (m : mesh) (flux : nat -> V) (scaling : Coeff) (start : nat -> V) (res : list V) : Prop :=
    length res = nCells m /\
    forall c, c < nCells m -> exists y, accumulated e m flux c (start c) y /\ atV res c = per_volume m scaling c y.

  Lemma normalize_scale m (Hm : valid_topology m) scaling : coeff_ok scaling (nCells m) ->
    forall c, c < nCells m -> normalize_kernel (V := V) (cellVolumes m) scaling c
      = Some [SScale (0, c) (coeff_val scaling c / at0 (cellVolumes m) c)%Qc].
  Proof.
    intros Hco c Hc. unfold normalize_kernel. rewrite (coeff_lookup _ (nCells m)) by done. simpl. by rewrite vol_lookup.
  Qed.

  Lemma accumulated_ext e m (Hm : valid_topology m) (f g : nat -> V) c x y :
    (forall i, i < nFaces m -> f i = g i) -> accumulated e m f c x y -> accumulated e m g c x y.
  Proof.
    intros Hfg. pose proof (vt_faces _ Hm) as HnF.
    assert (E1 : internal_terms m f c = internal_terms m g c).
    { unfold internal_terms. f_equal. apply map_ext_in. intros i Hi%in_seq. by rewrite Hfg by lia. }
    assert (E2 : boundary_terms m f c = boundary_terms m g c).
    { unfold boundary_terms. f_equal. apply map_ext_in. intros i Hi%in_seq. by rewrite Hfg by lia. }
    unfold accumulated. by rewrite E1, E2.
  Qed.

  (** The three operators as kernels that add the face contributions. *)
  Definition face_kernels (m : mesh) (e : executor) (k1 k2 : kernel V) (flux : nat -> V) : Prop :=
    (forall f, f < nInternalFaces m -> exists s t, k1 f = Some [s; t] /\
       adds_to e s (atn (faceOwner m) f) (flux f) /\ adds_to e t (atn (faceNeighbour m) f) (vneg (flux f))) /\
    (forall b, b < nBoundaryFaces m -> exists s, k2 (nInternalFaces m + b) = Some [s] /\
       adds_to e s (atn (bFaceCells (bmesh m)) b) (flux (nInternalFaces m + b))).
  Definition is_face_op (m : mesh) (e : executor) (flux : nat -> V) (scaling : Coeff) (op : list V -> option mem -> Prop) : Prop :=
    exists k1 k2 flux', face_kernels m e k1 k2 flux' /\ (forall f, f < nFaces m -> flux' f = flux f) /\
      forall target r, op target r <->
        pseq (pfor e 0 (nInternalFaces m) k1) (pseq (pfor e (nInternalFaces m) (nInternalFaces m + nBoundaryFaces m) k2)
            (pfor e 0 (nCells m) (normalize_kernel (cellVolumes m) scaling))) [target] r.

  Lemma face_op_any m (Hm : valid_topology m) e flux scaling op target : coeff_ok scaling (nCells m) ->
    length target = nCells m -> is_face_op m e flux scaling op ->
    every_outcome (op target) (fun r => exists res, r = [res] /\ accumulated_field e m flux scaling (atV target) res).
  Proof.
    intros Hco Ht (k1 & k2 & flux' & [H1 H2] & Hfl & Hop).
    destruct (faces_scaled_any m Hm e k1 k2 (normalize_kernel (cellVolumes m) scaling) flux'
       (fun c => coeff_val scaling c / at0 (cellVolumes m) c)%Qc target Ht H1 H2 (normalize_scale m Hm scaling Hco)) as (Hn & (r & He) & Ha).
    split; [|split].
    - by rewrite Hop.
    - exists r. by apply Hop.
    - intros a Hra. apply Hop, Ha in Hra as (res & -> & Hl & Hc). exists res. split; [done|]. split; [done|].
      intros c Hcc. destruct (Hc c Hcc) as (y & Hy & Hr). exists y. split; [|done].
      eapply accumulated_ext; [done| |exact Hy]. done.
  Qed.
  Lemma face_op_every m (Hm : valid_topology m) e flux scaling op target c li lb : e <> SerialExecutor -> coeff_ok scaling (nCells m) ->
    length target = nCells m -> c < nCells m -> is_face_op m e flux scaling op ->
    li ≡ₚ internal_terms m flux c -> lb ≡ₚ boundary_terms m flux c ->
    exists res, op target (Some [res]) /\ length res = nCells m /\
      atV res c = per_volume m scaling c (foldl vadd (foldl vadd (atV target c) li) lb).
  Proof.
    intros He Hco Ht Hc (k1 & k2 & flux' & [H1 H2] & Hfl & Hop) Hli Hlb. pose proof (vt_faces _ Hm) as HnF.
    assert (E1 : internal_terms m flux' c = internal_terms m flux c).
    { unfold internal_terms. f_equal. apply map_ext_in. intros i Hi%in_seq. by rewrite Hfl by lia. }
    assert (E2 : boundary_terms m flux' c = boundary_terms m flux c).
    { unfold boundary_terms. f_equal. apply map_ext_in. intros i Hi%in_seq. by rewrite Hfl by lia. }
    rewrite <- E1 in Hli. rewrite <- E2 in Hlb.
    destruct (faces_scaled_every_order m Hm e k1 k2 (normalize_kernel (cellVolumes m) scaling) flux'
       (fun c => coeff_val scaling c / at0 (cellVolumes m) c)%Qc target c li lb He Ht Hc H1 H2 (normalize_scale m Hm scaling Hco) Hli Hlb)
      as (res & Hr & Hl & Hv).
    exists res. split; [by apply Hop|]. done.
  Qed.

  Lemma div_face_op m (Hm : valid_topology m) e s (phi : volField V) flux weights junk scaling :
    field_ok m phi -> length flux = nFaces m -> length weights = nFaces m -> length junk = nFaces m ->
    is_face_op m e (fun f => vscale (at0 flux f) (face_value m s phi flux weights f)) scaling
      (fun t => computeDivExp e m flux phi s weights junk t scaling).
  Proof.
    intros Hphi Hfl Hw Hj. pose proof (vt_faces _ Hm) as HnF.
    destruct (interpolate_result m Hm s e phi flux weights junk Hphi Hfl Hw Hj) as (phif & Hi & Hil & Hif).
    assert (Hx : exists k1 k2, face_kernels m e k1 k2 (fun f => vscale (at0 flux f) (atV phif f)) /\
      forall target r, computeDiv e (nInternalFaces m) (nBoundaryFaces m) (faceNeighbour m) (faceOwner m)
        (bFaceCells (bmesh m)) flux phif (cellVolumes m) target scaling r <->
        pseq (pfor e 0 (nInternalFaces m) k1) (pseq (pfor e (nInternalFaces m) (nInternalFaces m + nBoundaryFaces m) k2)
            (pfor e 0 (nCells m) (normalize_kernel (cellVolumes m) scaling))) [target] r).
    { unfold computeDiv. rewrite (vt_vol_len _ Hm). destruct e; do 2 eexists; (split; [|intros target r; reflexivity]); split.
      - intros f Hf. unfold div_internal_serial.
        rewrite (lookup_at0 flux f), (lookup_atV phif f), (owner_lookup m Hm), (nei_lookup m Hm) by lia. simpl.
        do 2 eexists. split; [reflexivity|]. split; (split; [done|]; split; [done|]; split; [done|]; by left).
      - intros b Hb. unfold div_boundary_serial. rewrite Nat.add_comm, Nat.add_sub, Nat.add_comm.
        rewrite (fc_lookup m Hm), (lookup_at0 flux), (lookup_atV phif) by lia. simpl.
        eexists. split; [reflexivity|]. split; [done|]; split; [done|]; split; [done|]; by left.
      - intros f Hf. unfold div_internal_atomic.
        rewrite (lookup_at0 flux f), (lookup_atV phif f), (owner_lookup m Hm), (nei_lookup m Hm) by lia. simpl.
        do 2 eexists. split; [reflexivity|]. split; (split; [done|]; split; [done|]; split; [done|]; by right).
      - intros b Hb. unfold div_boundary_atomic. rewrite Nat.add_comm, Nat.add_sub, Nat.add_comm.
        rewrite (fc_lookup m Hm), (lookup_at0 flux), (lookup_atV phif) by lia. simpl.
        eexists. split; [reflexivity|]. split; [done|]; split; [done|]; split; [done|]; by right.
      - intros f Hf. unfold div_internal_atomic.
        rewrite (lookup_at0 flux f), (lookup_atV phif f), (owner_lookup m Hm), (nei_lookup m Hm) by lia. simpl.
        do 2 eexists. split; [reflexivity|]. split; (split; [done|]; split; [done|]; split; [done|]; by right).
      - intros b Hb. unfold div_boundary_atomic. rewrite Nat.add_comm, Nat.add_sub, Nat.add_comm.
        rewrite (fc_lookup m Hm), (lookup_at0 flux), (lookup_atV phif) by lia. simpl.
        eexists. split; [reflexivity|]. split; [done|]; split; [done|]; split; [done|]; by right. }
    destruct Hx as (k1 & k2 & Hk & Hop). exists k1, k2, (fun f => vscale (at0 flux f) (atV phif f)).
    split; [done|]. split; [intros f Hf; unfold atV; by rewrite (Hif f Hf)|].
    intros target r. rewrite <- Hop. unfold computeDivExp. split.
    - intros [[Hx _]|(g' & Hx & Hx2)]; apply Hi in Hx; [done|]. injection Hx as ->. done.
    - intros Hx. right. exists phif. split; [by apply Hi|done].
  Qed.
  Lemma surfaceIntegrate_face_op m (Hm : valid_topology m) e flux scaling : length flux = nFaces m ->
    is_face_op m e (atV flux) scaling (fun t => surfaceIntegrate e (nInternalFaces m) (faceNeighbour m) (faceOwner m)
      (bFaceCells (bmesh m)) flux (cellVolumes m) t scaling).
  Proof.
    intros Hfl. pose proof (vt_faces _ Hm) as HnF.
    unfold surfaceIntegrate. rewrite (vt_fc_len _ Hm), (vt_vol_len _ Hm). do 3 eexists.
    split; [|split; [intros f _; reflexivity|intros target r; reflexivity]]. split.
    - intros f Hf. unfold si_internal_kernel. rewrite (lookup_atV flux f), (owner_lookup m Hm), (nei_lookup m Hm) by lia. simpl.
      do 2 eexists. split; [reflexivity|]. split; (split; [done|]; split; [done|]; split; [done|]; by right).
    - intros b Hb. unfold si_boundary_kernel. rewrite Nat.add_comm, Nat.add_sub, Nat.add_comm.
      rewrite (fc_lookup m Hm), (lookup_atV flux) by lia. simpl.
      eexists. split; [reflexivity|]. split; [done|]; split; [done|]; split; [done|]; by right.
  Qed.
  Lemma laplacian_face_op m (Hm : valid_topology m) e (phi : volField V) dc gamma junk scaling :
    field_ok m phi -> length dc = nFaces m -> length junk = nFaces m -> length (magFaceAreas m) = nFaces m ->
    is_face_op m e (fun f => vscale (at0 (magFaceAreas m) f) (normal_gradient m phi dc f)) scaling
      (fun t => computeLaplacianExp e m dc gamma phi junk t scaling).
  Proof.
    intros Hphi Hdc Hj Hmag. pose proof (vt_faces _ Hm) as HnF.
    destruct (fng_result m Hm e phi dc junk Hphi Hdc Hj) as (g & Hi & Hil & Hg1 & Hg2).
    assert (Hg : forall f, f < nFaces m -> atV g f = normal_gradient m phi dc f).
    { intros f Hf. unfold normal_gradient, at_neighbour, at_owner, at_face_cell. unfold atV at 1.
      destruct (decide (f < nInternalFaces m)).
      - by rewrite Hg1.
      - replace f with (nInternalFaces m + (f - nInternalFaces m)) at 1 by lia. rewrite Hg2 by lia. simpl.
        by replace (nInternalFaces m + (f - nInternalFaces m)) with f by lia. }
    exists (lap_internal_kernel m g), (lap_boundary_kernel m g), (fun f => vscale (at0 (magFaceAreas m) f) (atV g f)).
    split; [split|split].
    - intros f Hf. unfold lap_internal_kernel.
      rewrite (lookup_at0 (magFaceAreas m) f), (lookup_atV g f), (owner_lookup m Hm), (nei_lookup m Hm) by lia. simpl.
      do 2 eexists. split; [reflexivity|]. split; (split; [done|]; split; [done|]; split; [done|]; by right).
    - intros b Hb. unfold lap_boundary_kernel. rewrite Nat.add_comm, Nat.add_sub, Nat.add_comm.
      rewrite (fc_lookup m Hm), (lookup_at0 (magFaceAreas m)), (lookup_atV g) by lia. simpl.
      eexists. split; [reflexivity|]. split; [done|]; split; [done|]; split; [done|]; by right.
    - intros f Hf. by rewrite Hg.
    - intros target r. rewrite <- HnF, <- Hil at 1. unfold computeLaplacianExp. split.
      + intros [[Hx _]|(g' & Hx & Hx2)]; apply Hi in Hx; [done|]. injection Hx as ->. by rewrite Hil in *.
      + intros Hx. right. exists g. split; [by apply Hi|]. by rewrite Hil in *.
  Qed.

  Lemma add_tmp_any (op : list V -> option mem -> Prop) source n (P : list V -> Prop) : length source = n ->
    every_outcome (op (replicate n vzero)) (fun r => exists res, r = [res] /\ P res) ->
    every_outcome (add_tmp op source) (fun r => exists res, P res /\ r = zip_with vadd source res).
  Proof.
    intros <- (Hn & (r & He) & Ha). unfold add_tmp. split; [|split].
    - intros [[? _]|(t & _ & ?)]; done.
    - destruct (Ha _ He) as (res & -> & HP). eexists. right. eauto.
    - intros a [[? ?]|(t & Ht & [= ->])]; [done|]. destruct (Ha _ Ht) as (res & [= <-] & HP). eauto.
  Qed.
End any.

(** What an explicit operator adds to the right-hand side [source]. *)
Definition adds_accumulated {V} `{ValueType V} (e : executor) (m : mesh) (flux : nat -> V) (scaling : Coeff) (source res : list V) : Prop :=
  length res = nCells m /\
  forall c, c < nCells m -> exists y, accumulated e m flux c vzero y /\
    atV res c = vadd (atV source c) (per_volume m scaling c y).

Lemma adds_accumulated_intro {V} `{ValueType V} e m (flux : nat -> V) scaling (source tmp : list V) :
  length source = nCells m -> accumulated_field e m flux scaling (atV (replicate (nCells m) vzero)) tmp ->
  adds_accumulated e m flux scaling source (zip_with vadd source tmp).
Proof.
  intros Hs [Hl Hc]. split; [rewrite zip_with_length; lia|]. intros c Hcc.
  destruct (Hc c Hcc) as (y & Hy & Ey). exists y. split.
  - unfold atV in Hy. rewrite lookup_replicate_2 in Hy by done. done.
  - unfold atV in *. rewrite lookup_zip_with.
    destruct (lookup_lt_is_Some_2 source c) as [x Ex]; [lia|]. destruct (lookup_lt_is_Some_2 tmp c) as [t Et]; [lia|].
    rewrite Ex, Et in *. simpl in *. by rewrite Ey.
Qed.

Lemma adds_op_any {V} `{ValueType V} m (Hm : valid_topology m) e (flux : nat -> V) scaling op source : coeff_ok scaling (nCells m) ->
  length source = nCells m -> is_face_op m e flux scaling op -> every_outcome (add_tmp op source) (adds_accumulated e m flux scaling source).
Proof.
  intros Hco Hs Hop. eapply every_outcome_impl.
  - eapply (add_tmp_any op source (nCells m)); [done|]. apply (face_op_any m Hm e flux scaling op); [done|by rewrite replicate_length|done].
  - cbv beta. intros r (res & Ha & ->). by apply adds_accumulated_intro.
Qed.
Lemma adds_op_every {V} `{ValueType V} m (Hm : valid_topology m) e (flux : nat -> V) scaling op source c li lb :
  e <> SerialExecutor -> coeff_ok scaling (nCells m) ->
  length source = nCells m -> c < nCells m -> is_face_op m e flux scaling op ->
  li ≡ₚ internal_terms m flux c -> lb ≡ₚ boundary_terms m flux c ->
  exists res, add_tmp op source (Some res) /\
    atV res c = vadd (atV source c) (per_volume m scaling c (foldl vadd (foldl vadd vzero li) lb)).
Proof.
  intros He Hco Hs Hc Hop Hli Hlb.
  destruct (face_op_every m Hm e flux scaling op (replicate (nCells m) vzero) c li lb He Hco) as (tmp & Ht & Hl & Hv);
    [by rewrite replicate_length|done|done|done|done|].
  exists (zip_with vadd source tmp). split; [right; exists tmp; by rewrite Hs|].
  unfold atV in *. rewrite lookup_replicate_2 in Hv by done. simpl in Hv. rewrite lookup_zip_with.
  destruct (lookup_lt_is_Some_2 source c) as [x Ex]; [lia|]. destruct (lookup_lt_is_Some_2 tmp c) as [t Et]; [lia|].
  rewrite Ex, Et in *. simpl in *. by rewrite Hv.
Qed.

(** * C96: whatever the arithmetic, every cell's value is the sum of its face
    contributions, each added exactly once, in some order; in face order on the
    serial executor. *)
Theorem C96_div_any_order : forall {V} `{ValueType V} m, valid_topology m ->
  forall e s (phi : volField V) flux weights junk scaling source,
  field_ok m phi -> length flux = nFaces m -> length weights = nFaces m ->
  length junk = nFaces m -> length source = nCells m -> coeff_ok scaling (nCells m) ->
  every_outcome (div_explicitOperation e m flux phi s weights junk scaling source)
    (adds_accumulated e m (fun f => vscale (at0 flux f) (face_value m s phi flux weights f)) scaling source).
Proof.
  intros V ? m Hm e s phi flux weights junk scaling source Hphi Hfl Hw Hj Hs Hco.
  apply (adds_op_any m Hm e _ scaling _ source Hco Hs). by apply div_face_op.
Qed.
Theorem C96_laplacian_any_order : forall {V} `{ValueType V} m, valid_topology m ->
  forall e (phi : volField V) dc gamma junk scaling source,
  field_ok m phi -> length dc = nFaces m -> length junk = nFaces m ->
  length (magFaceAreas m) = nFaces m -> length source = nCells m -> coeff_ok scaling (nCells m) ->
  every_outcome (laplacian_explicitOperation e m dc gamma phi junk scaling source)
    (adds_accumulated e m (fun f => vscale (at0 (magFaceAreas m) f) (normal_gradient m phi dc f)) scaling source).
Proof.
  intros V ? m Hm e phi dc gamma junk scaling source Hphi Hdc Hj Hmag Hs Hco.
  apply (adds_op_any m Hm e _ scaling _ source Hco Hs). by apply laplacian_face_op.
Qed.
Theorem C96_surfaceIntegrate_any_order : forall {V} `{ValueType V} m, valid_topology m ->
  forall e flux scaling source,
  length flux = nFaces m -> length source = nCells m -> coeff_ok scaling (nCells m) ->
  every_outcome (surfaceIntegrate_explicitOperation e m flux scaling source)
    (adds_accumulated e m (atV flux) scaling source).
Proof.
  intros V ? m Hm e flux scaling source Hfl Hs Hco.
  apply (adds_op_any m Hm e _ scaling _ source Hco Hs). by apply surfaceIntegrate_face_op.
Qed.

(** On a parallel executor any cell may see any order. *)
Theorem C96_every_order : forall {V} `{ValueType V} m, valid_topology m ->
  forall e s (phi : volField V) flux weights junk scaling source c li lb,
  e <> SerialExecutor -> field_ok m phi -> length flux = nFaces m -> length weights = nFaces m ->
  length junk = nFaces m -> length source = nCells m -> coeff_ok scaling (nCells m) -> c < nCells m ->
  let g := fun f => vscale (at0 flux f) (face_value m s phi flux weights f) in
  li ≡ₚ internal_terms m g c -> lb ≡ₚ boundary_terms m g c ->
  exists res, div_explicitOperation e m flux phi s weights junk scaling source (Some res) /\
    atV res c = vadd (atV source c) (per_volume m scaling c (foldl vadd (foldl vadd vzero li) lb)).
Proof.
  intros V ? m Hm e s phi flux weights junk scaling source c li lb He Hphi Hfl Hw Hj Hs Hco Hc g Hli Hlb.
  apply (adds_op_every m Hm e g scaling _ source c li lb He Hco Hs Hc); [|done|done]. by apply div_face_op.
Qed.

(** The serial executor always gives the same bits, whatever uninitialised
    memory it works in. *)
Theorem C96_serial_reproducible : forall {V} `{ValueType V} m, valid_topology m ->
  forall s (phi : volField V) flux weights junk junk' scaling source r r',
  field_ok m phi -> length flux = nFaces m -> length weights = nFaces m ->
  length junk = nFaces m -> length junk' = nFaces m -> length source = nCells m -> coeff_ok scaling (nCells m) ->
  div_explicitOperation SerialExecutor m flux phi s weights junk scaling source r ->
  div_explicitOperation SerialExecutor m flux phi s weights junk' scaling source r' -> r = r'.
Proof.
  intros V ? m Hm s phi flux weights junk junk' scaling source r r' Hphi Hfl Hw Hj Hj' Hs Hco Hr Hr'.
  destruct (C96_div_any_order m Hm SerialExecutor s phi flux weights junk scaling source Hphi Hfl Hw Hj Hs Hco) as (Hn & _ & Ha).
  destruct (C96_div_any_order m Hm SerialExecutor s phi flux weights junk' scaling source Hphi Hfl Hw Hj' Hs Hco) as (Hn' & _ & Ha').
  destruct r as [a|]; [|done]. destruct r' as [a'|]; [|done]. f_equal.
  apply Ha in Hr as [Hl Hc]. apply Ha' in Hr' as [Hl' Hc'].
  apply (list_eq_same_length _ _ (nCells m)); [done|done|]. intros i x y Hi Hx Hy.
  destruct (Hc i Hi) as (v & (li & lb & _ & _ & He & ->) & Ev).
  destruct (Hc' i Hi) as (v' & (li' & lb' & _ & _ & He' & ->) & Ev').
  destruct (He eq_refl) as [-> ->]. destruct (He' eq_refl) as [-> ->]. rewrite <- Ev' in Ev.
  unfold atV in Ev. rewrite Hx, Hy in Ev. done.
Qed.

(** In meshes whose cells have at most two faces (one dimension) all executors
    give the same bits, if the sum of two contributions does not depend on the order. *)
Definition faces_of_cell (m : mesh) (c : nat) : nat :=
  length (filter (fun f => atn (faceOwner m) f = c \/ atn (faceNeighbour m) f = c) (seq 0 (nInternalFaces m))) +
  length (filter (fun b => atn (bFaceCells (bmesh m)) b = c) (seq 0 (nBoundaryFaces m))).
Lemma internal_terms_length {V} `{ValueType V} m (Hm : valid_topology m) (g : nat -> V) c :
  length (internal_terms m g c) =
  length (filter (fun f => atn (faceOwner m) f = c \/ atn (faceNeighbour m) f = c) (seq 0 (nInternalFaces m))).
Proof.
  unfold internal_terms. assert (Hall : forall f, f ∈ seq 0 (nInternalFaces m) -> f < nInternalFaces m) by (intros f Hf%elem_of_seq; lia).
  induction (seq 0 (nInternalFaces m)) as [|f l IH]; [done|].
  rewrite filter_cons. cbn [map concat]. rewrite app_length, IH by (intros x Hx; apply Hall; by right).
  pose proof (vt_owner _ Hm f (Hall f ltac:(by left))).
  destruct (decide (atn (faceOwner m) f = c)), (decide (atn (faceNeighbour m) f = c)); try lia.
  - rewrite decide_True by auto. done.
  - rewrite decide_True by auto. done.
  - rewrite decide_False by (intros [?|?]; done). done.
Qed.
Lemma boundary_terms_length {V} `{ValueType V} m (g : nat -> V) c :
  length (boundary_terms m g c) = length (filter (fun b => atn (bFaceCells (bmesh m)) b = c) (seq 0 (nBoundaryFaces m))).
Proof.
  unfold boundary_terms. induction (seq 0 (nBoundaryFaces m)) as [|f l IH]; [done|].
  rewrite filter_cons. cbn [map concat]. rewrite app_length, IH.
  by destruct (decide (atn (bFaceCells (bmesh m)) f = c)).
Qed.
Lemma accumulated_two {V} `{ValueType V} m (Hm : valid_topology m) (g : nat -> V) c e e' y y' :
  faces_of_cell m c <= 2 ->
  (forall a b : V, a ∈ internal_terms m g c ++ boundary_terms m g c -> b ∈ internal_terms m g c ++ boundary_terms m g c ->
     vadd (vadd vzero a) b = vadd (vadd vzero b) a) ->
  accumulated e m g c vzero y -> accumulated e' m g c vzero y' -> y = y'.
Proof.
  unfold faces_of_cell. rewrite <- (internal_terms_length m Hm g c), <- (boundary_terms_length m g c).
  intros H2 Hcm (li & lb & Hli & Hlb & _ & ->) (li' & lb' & Hli' & Hlb' & _ & ->).
  destruct (internal_terms m g c) as [|a [|b [|? ?]]] eqn:E1; destruct (boundary_terms m g c) as [|a' [|b' [|? ?]]] eqn:E2; simpl in H2; try lia;
  repeat match goal with
  | H : _ ≡ₚ [] |- _ => apply Permutation_nil_r in H
  | H : _ ≡ₚ [_] |- _ => apply Permutation_singleton_r in H
  | H : ?l ≡ₚ [?x; ?y] |- _ => apply Permutation_length_2_inv in H || (symmetry in H; apply Permutation_length_2_inv in H)
  end; repeat match goal with H : _ \/ _ |- _ => destruct H end; subst; simpl; try done;
  apply Hcm; simpl; rewrite ?elem_of_cons; tauto.
Qed.
Theorem C96_two_faces_reproducible : forall {V} `{ValueType V} m, valid_topology m ->
  forall e e' s (phi : volField V) flux weights junk junk' scaling source r r',
  field_ok m phi -> length flux = nFaces m -> length weights = nFaces m ->
  length junk = nFaces m -> length junk' = nFaces m -> length source = nCells m -> coeff_ok scaling (nCells m) ->
  (forall c, c < nCells m -> faces_of_cell m c <= 2) ->
  (let g := fun f => vscale (at0 flux f) (face_value m s phi flux weights f) in
   forall c, c < nCells m -> forall a b : V, a ∈ internal_terms m g c ++ boundary_terms m g c -> b ∈ internal_terms m g c ++ boundary_terms m g c ->
     vadd (vadd vzero a) b = vadd (vadd vzero b) a) ->
  div_explicitOperation e m flux phi s weights junk scaling source r ->
  div_explicitOperation e' m flux phi s weights junk' scaling source r' -> r = r'.
Proof.
  intros V ? m Hm e e' s phi flux weights junk junk' scaling source r r' Hphi Hfl Hw Hj Hj' Hs Hco H2 Hcm Hr Hr'.
  destruct (C96_div_any_order m Hm e s phi flux weights junk scaling source Hphi Hfl Hw Hj Hs Hco) as (Hn & _ & Ha).
  destruct (C96_div_any_order m Hm e' s phi flux weights junk' scaling source Hphi Hfl Hw Hj' Hs Hco) as (Hn' & _ & Ha').
  destruct r as [a|]; [|done]. destruct r' as [a'|]; [|done]. f_equal.
  apply Ha in Hr as [Hl Hc]. apply Ha' in Hr' as [Hl' Hc'].
  apply (list_eq_same_length _ _ (nCells m)); [done|done|]. intros i x y Hi Hx Hy.
  destruct (Hc i Hi) as (v & Hv & Ev). destruct (Hc' i Hi) as (v' & Hv' & Ev').
  assert (v = v') as -> by (eapply (accumulated_two m Hm _ i e e' v v'); [by apply H2|exact (Hcm i Hi)|done|done]). rewrite <- Ev' in Ev.
  unfold atV in Ev. rewrite Hx, Hy in Ev. done.
Qed.

(** Non-vacuity: cell 0 of the 2x2 mesh has four faces; the order of its boundary
    faces is reversed, and on a parallel executor some run adds them so. *)
Example C96_instance : let phi := VolField [1; 0; Q2Qc 3; 0]%Qc (replicate 8 1%Qc) [] [] [] in
  let fl := replicate 12 1%Qc in let g := fun f => vscale (at0 fl f) (face_value mesh22 Upwind phi fl fl f) in
  valid_topology mesh22 /\ field_ok mesh22 phi /\ length fl = nFaces mesh22 /\ coeff_ok coeff_default (nCells mesh22) /\
  length (internal_terms mesh22 g 0) = 2 /\ length (boundary_terms mesh22 g 0) = 2 /\
  exists res, div_explicitOperation CPUExecutor mesh22 fl phi Upwind fl fl coeff_default [0; 0; 0; 0]%Qc (Some res).
Proof.
  cbv zeta. split; [apply mesh22_topology|]. do 5 (split; [done|]).
  destruct (C96_every_order (V := Qc) mesh22 mesh22_topology CPUExecutor Upwind (VolField [1; 0; Q2Qc 3; 0]%Qc (replicate 8 1%Qc) [] [] []) (replicate 12 1%Qc)
    (replicate 12 1%Qc) (replicate 12 1%Qc) coeff_default [0; 0; 0; 0]%Qc 0 _ _ ltac:(done) ltac:(done) ltac:(done) ltac:(done) ltac:(done) ltac:(done) ltac:(done)
    ltac:(simpl; lia) (reflexivity _) (reflexivity _)) as (res & H & _). by exists res.
Qed.
