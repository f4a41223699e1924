(** C41: weights and delta coefficients. *)
From Coq Require Import Qcabs Reals Lra.
From Verif Require Import Base Par Exec ExecProofs Value Mesh MeshSpec FV FVSpec ExampleMesh Dsl DslSpec DslProofs Geometry.

Lemma for_each_surely {V} e lo hi (f : nat -> option V) w : lo <= hi -> hi <= length w -> (forall i, lo <= i < hi -> is_Some (f i)) ->
  exists w', surely (for_each e lo hi f w) w' /\ length w' = length w /\
    forall i, w' !! i = if decide (lo <= i < hi) then f i else w !! i.
Proof.
  intros H1 H2 Hf. destruct (set_exec_exists f e lo hi w H1 H2) as [w' Hw]; [intros; apply Hf; lia|].
  assert (Hd : forall r, exec_result e (iterations lo hi (set_kernel f)) w r -> exists s, r = Some s /\ length s = length w /\
    forall i, s !! i = if decide (lo <= i < hi) then f i else w !! i).
  { intros r Hr. apply (set_exec f e lo hi w r H1 H2) in Hr as (s & -> & A & B); [|intros; apply Hf; lia]. exists s. done. }
  destruct (Hd _ Hw) as (s & E & Hl & Hp). injection E as <-. exists w'. split; [|done].
  intros r. split.
  - intros (o & Ho & ->). destruct (Hd _ Ho) as (s & -> & Hl' & Hp'). simpl. f_equal. apply list_eq. intros i. by rewrite Hp, Hp'.
  - intros ->. exists (Some w'). done.
Qed.

(** ** Weights *)

(** The mesh has geometry for all its faces and cells. *)
Definition geometry_sized (m : mesh) : Prop :=
  valid_topology m /\ length (cellCentres m) = nCells m /\ length (faceCentres m) = nFaces m /\ length (faceAreas m) = nFaces m.
(** Area vector and centre of an internal face; centres of the cells next to it. *)
Definition face_geometry (m : mesh) (f : nat) (sf cf co cn : vec) : Prop :=
  f < nInternalFaces m /\ faceAreas m !! f = Some sf /\ faceCentres m !! f = Some cf /\
  cellCentres m !! atn (faceOwner m) f = Some co /\ cellCentres m !! atn (faceNeighbour m) f = Some cn.
Definition dist_own (sf cf co : vec) : Qc := Qcabs (dot sf (diff cf co)).
Definition dist_nei (sf cf cn : vec) : Qc := Qcabs (dot sf (diff cn cf)).

Lemma weights_run e m w : geometry_sized m -> length w = nFaces m ->
  exists w', surely (updateWeights e m w) w' /\ length w' = nFaces m /\
    (forall f, f < nInternalFaces m -> w' !! f = weight_kernel m f) /\
    (forall f, nInternalFaces m <= f < nFaces m -> w' !! f = Some 1%Qc).
Proof.
  intros (Hm & Hcc & Hcf & Hsf) Hw. pose proof (vt_faces m Hm) as Hnf. pose proof (vt_owner_len m Hm) as Hol. pose proof (vt_nei_len m Hm) as Hnl.
  assert (Hk : forall i, 0 <= i < nInternalFaces m -> is_Some (weight_kernel m i)).
  { intros i [_ Hi]. unfold weight_kernel.
    destruct (lookup_lt_is_Some_2 (faceAreas m) i) as [sf ->]; [lia|]. destruct (lookup_lt_is_Some_2 (faceCentres m) i) as [cf ->]; [lia|].
    pose proof (vt_owner m Hm i Hi) as H1. pose proof (vt_nei m Hm i Hi) as H2. unfold atn in H1, H2.
    destruct (lookup_lt_is_Some_2 (faceOwner m) i) as [o Eo]; [lia|]. destruct (lookup_lt_is_Some_2 (faceNeighbour m) i) as [nb En]; [lia|].
    rewrite Eo, En in *. simpl in *.
    destruct (lookup_lt_is_Some_2 (cellCentres m) o) as [co ->]; [lia|]. destruct (lookup_lt_is_Some_2 (cellCentres m) nb) as [cn ->]; [lia|]. by eexists. }
  destruct (for_each_surely e 0 (nInternalFaces m) (weight_kernel m) w) as (w1 & A1 & L1 & P1); [lia|lia|done|].
  destruct (for_each_surely e (nInternalFaces m) (length w1) (fun _ => Some 1%Qc) w1) as (w2 & A2 & L2 & P2); [lia|lia|by eexists|].
  exists w2. split; [|split; [lia|split]].
  - unfold updateWeights. eapply surely_rseq; [exact A1|exact A2].
  - intros f Hf. rewrite P2, decide_False by lia. rewrite P1, decide_True by lia. done.
  - intros f Hf. rewrite P2, decide_True by lia. done.
Qed.
Lemma weight_at m f sf cf co cn : geometry_sized m -> face_geometry m f sf cf co cn ->
  weight_kernel m f = Some (if Qclt_le_dec ROOTVSMALL (dist_own sf cf co + dist_nei sf cf cn)
                            then (dist_nei sf cf cn / (dist_own sf cf co + dist_nei sf cf cn))%Qc else half).
Proof.
  intros (Hm & _) (Hf & E1 & E2 & E3 & E4). unfold weight_kernel. rewrite E1, E2. unfold atn in *.
  pose proof (vt_owner_len m Hm). pose proof (vt_nei_len m Hm). pose proof (vt_faces m Hm).
  destruct (lookup_lt_is_Some_2 (faceOwner m) f) as [o Eo]; [lia|]. destruct (lookup_lt_is_Some_2 (faceNeighbour m) f) as [nb En]; [lia|].
  rewrite Eo, En in *. simpl in E3, E4. rewrite E3, E4. fold (dist_own sf cf co) (dist_nei sf cf cn).
  assert (Hnn : (0 <= dist_own sf cf co + dist_nei sf cf cn)%Qc).
  { replace 0%Qc with (0 + 0)%Qc by ring. apply Qcplus_le_compat; apply Qcabs_nonneg. }
  by rewrite (Qcabs_pos _ Hnn).
Qed.
Lemma ROOTVSMALL_pos : (0 < ROOTVSMALL)%Qc.
Proof. reflexivity. Qed.
Lemma Qc_frac (a b : Qc) : (0 <= a)%Qc -> (0 <= b)%Qc -> (0 < a + b)%Qc ->
  (b / (a + b) * (a + b) = b)%Qc /\ (0 <= b / (a + b))%Qc /\ (b / (a + b) <= 1)%Qc.
Proof.
  intros Ha Hb Hp. assert (Hne : (a + b)%Qc <> 0%Qc) by (intros E; rewrite E in Hp; by apply Qclt_not_eq in Hp).
  assert (E : (b / (a + b) * (a + b) = b)%Qc) by (field; exact Hne).
  split; [done|]. split; apply (Qcmult_lt_0_le_reg_r _ _ (a + b)%Qc Hp); rewrite E.
  - by rewrite Qcmult_0_l.
  - rewrite Qcmult_1_l. rewrite <- (Qcplus_0_l b) at 1. apply Qcplus_le_compat; [done|apply Qcle_refl].
Qed.

(** Weights of internal faces are the fractions of the distance between the two
    cell centres (measured normal to the face) that lie on the neighbour's side. *)
Theorem C41_weights : forall e m w, geometry_sized m -> length w = nFaces m ->
  exists w', surely (updateWeights e m w) w' /\ length w' = nFaces m /\
    (forall f sf cf co cn, face_geometry m f sf cf co cn -> exists x, w' !! f = Some x /\ (0 <= x <= 1)%Qc /\
       ((ROOTVSMALL < dist_own sf cf co + dist_nei sf cf cn)%Qc -> (x * (dist_own sf cf co + dist_nei sf cf cn) = dist_nei sf cf cn)%Qc) /\
       ((dist_own sf cf co + dist_nei sf cf cn <= ROOTVSMALL)%Qc -> x = Q2Qc (1 # 2))) /\
    (forall f, nInternalFaces m <= f < nFaces m -> w' !! f = Some 1%Qc).
Proof.
  intros e m w Hg Hw. destruct (weights_run e m w Hg Hw) as (w' & A & L & P & B). exists w'. split; [done|]. split; [done|]. split; [|done].
  intros f sf cf co cn Hf. rewrite P by apply Hf. rewrite (weight_at m f sf cf co cn Hg Hf). eexists. split; [reflexivity|].
  assert (Ha : (0 <= dist_own sf cf co)%Qc) by apply Qcabs_nonneg. assert (Hb : (0 <= dist_nei sf cf cn)%Qc) by apply Qcabs_nonneg.
  destruct (Qclt_le_dec _ _) as [Hlt|Hle].
  - destruct (Qc_frac _ _ Ha Hb (Qclt_trans _ _ _ ROOTVSMALL_pos Hlt)) as (E1 & E2 & E3). split; [done|]. split; [done|].
    intros Hle. exfalso. by apply Qcle_not_lt in Hle.
  - split; [split; discriminate|]. split; [intros Hlt; exfalso; by apply Qcle_not_lt in Hle|]. intros _. apply Qc_is_canon. vm_compute. reflexivity.
Qed.
Print Assumptions C41_weights.

(** Exchanging the two cells of a face exchanges w and 1 - w, whichever way the
    area vector points. *)
Theorem C41_exchange : forall e m1 m2 w w1 w2 f sf sf' cf co cn,
  geometry_sized m1 -> geometry_sized m2 -> length w = nFaces m1 -> length w = nFaces m2 ->
  updateWeights e m1 w (Ok w1) -> updateWeights e m2 w (Ok w2) ->
  face_geometry m1 f sf cf co cn -> face_geometry m2 f sf' cf cn co -> sf' = sf \/ sf' = Vec (- vx sf) (- vy sf) (- vz sf) ->
  (at0 w2 f = 1 - at0 w1 f)%Qc.
Proof.
  intros e m1 m2 w w1 w2 f sf sf' cf co cn G1 G2 L1 L2 R1 R2 F1 F2 Hsf.
  destruct (weights_run e m1 w G1 L1) as (w1' & A1 & _ & P1 & _). destruct (weights_run e m2 w G2 L2) as (w2' & A2 & _ & P2 & _).
  apply A1 in R1. apply A2 in R2. injection R1 as ->. injection R2 as ->.
  assert (Hs : forall a b, dot sf' (diff a b) = dot sf (diff a b) \/ dot sf' (diff a b) = (- dot sf (diff a b))%Qc).
  { intros a b. destruct Hsf as [->| ->]; [by left|]. right. unfold dot. simpl. ring. }
  assert (Hrev : forall a b, dot sf (diff a b) = (- dot sf (diff b a))%Qc) by (intros; unfold dot, diff; simpl; ring).
  assert (E1 : dist_own sf' cf cn = dist_nei sf cf cn).
  { unfold dist_own, dist_nei. destruct (Hs cf cn) as [-> | ->]; rewrite (Hrev cf cn), ?Qcabs_opp; done. }
  assert (E2 : dist_nei sf' cf co = dist_own sf cf co).
  { unfold dist_own, dist_nei. destruct (Hs co cf) as [-> | ->]; rewrite (Hrev co cf), ?Qcabs_opp; done. }
  unfold at0. rewrite P1 by apply F1. rewrite P2 by apply F2. rewrite (weight_at m1 f sf cf co cn G1 F1), (weight_at m2 f sf' cf cn co G2 F2).
  rewrite E1, E2. rewrite (Qcplus_comm (dist_nei sf cf cn)). simpl.
  assert (Ha : (0 <= dist_own sf cf co)%Qc) by apply Qcabs_nonneg. assert (Hb : (0 <= dist_nei sf cf cn)%Qc) by apply Qcabs_nonneg.
  destruct (Qclt_le_dec _ _) as [Hlt|Hle]; [|apply Qc_is_canon; vm_compute; reflexivity].
  pose proof (Qclt_trans _ _ _ ROOTVSMALL_pos Hlt) as Hp.
  assert (Hne : (dist_own sf cf co + dist_nei sf cf cn)%Qc <> 0%Qc) by (intros E; rewrite E in Hp; by apply Qclt_not_eq in Hp).
  field. exact Hne.
Qed.
Print Assumptions C41_exchange.

(** Linear interpolation with these weights reproduces every function that is
    linear in the distance normal to the face, at the face centre, for faces
    lying between their two cells. *)
Theorem C41_linear_exact : forall e m w w' f sf cf co cn,
  geometry_sized m -> length w = nFaces m -> updateWeights e m w (Ok w') -> face_geometry m f sf cf co cn ->
  (0 <= dot sf (diff cf co))%Qc -> (0 <= dot sf (diff cn cf))%Qc -> (ROOTVSMALL < dot sf (diff cn co))%Qc ->
  forall a b, let u p := (a + b * dot sf p)%Qc in
  (at0 w' f * u co + (1 - at0 w' f) * u cn = u cf)%Qc.
Proof.
  intros e m w w' f sf cf co cn Hg Hw Hr Hf H1 H2 H3 a b u.
  destruct (weights_run e m w Hg Hw) as (w1 & A1 & _ & P1 & _). apply A1 in Hr. injection Hr as ->.
  unfold at0. rewrite P1 by apply Hf. rewrite (weight_at m f sf cf co cn Hg Hf). unfold dist_own, dist_nei.
  rewrite (Qcabs_pos _ H1), (Qcabs_pos _ H2).
  assert (Es : (dot sf (diff cf co) + dot sf (diff cn cf) = dot sf (diff cn co))%Qc) by (unfold dot, diff; simpl; ring).
  rewrite Es. destruct (Qclt_le_dec _ _) as [Hlt|Hle]; [|exfalso; by apply Qcle_not_lt in Hle].
  assert (Hne : dot sf (diff cn co) <> 0%Qc).
  { intros E. rewrite E in H3. by apply (Qclt_not_le _ _ H3), Qclt_le_weak, ROOTVSMALL_pos. }
  simpl. unfold u.
  assert (Ed : forall p q, dot sf (diff p q) = (dot sf p - dot sf q)%Qc) by (intros; unfold dot, diff; simpl; ring).
  rewrite !Ed in *. field. exact Hne.
Qed.
Print Assumptions C41_linear_exact.

(** With these weights linear interpolation stays between the two cell values. *)
Theorem C41_interpolation_bounded : forall e m w w' f sf cf co cn (phi : volField Qc) flux lo hi,
  geometry_sized m -> length w = nFaces m -> updateWeights e m w (Ok w') -> face_geometry m f sf cf co cn ->
  (lo <= at_owner m phi f <= hi)%Qc -> (lo <= at_neighbour m phi f <= hi)%Qc ->
  (lo <= face_value m Linear phi flux w' f <= hi)%Qc.
Proof.
  intros e m w w' f sf cf co cn phi flux lo hi Hg Hw Hr Hf [O1 O2] [N1 N2].
  destruct (C41_weights e m w Hg Hw) as (w1 & A & _ & P & _). apply A in Hr. injection Hr as ->.
  destruct (P _ _ _ _ _ Hf) as (x & Ex & [X0 X1] & _). unfold face_value. rewrite decide_True by apply Hf.
  unfold at0. rewrite Ex. simpl.
  assert (X1' : (0 <= 1 - x)%Qc) by (apply Qcle_minus_iff in X1; exact X1).
  assert (Hm : forall k a b, (0 <= k)%Qc -> (a <= b)%Qc -> (k * a <= k * b)%Qc).
  { intros k a b Hk Hab. rewrite (Qcmult_comm k a), (Qcmult_comm k b). by apply Qcmult_le_compat_r. }
  split.
  - replace lo with (x * lo + (1 - x) * lo)%Qc by ring. apply Qcplus_le_compat; by apply Hm.
  - replace hi with (x * hi + (1 - x) * hi)%Qc by ring. apply Qcplus_le_compat; by apply Hm.
Qed.
Print Assumptions C41_interpolation_bounded.

(** Two cells of width k and 3k with a common face of area k^2. *)
Definition pairMesh (k : Qc) : mesh :=
  Mesh [] [k * k * k; Q2Qc 3 * k * k * k]%Qc [Vec (Q2Qc (1 # 2) * k) 0 0; Vec (Q2Qc (5 # 2) * k) 0 0]%Qc [Vec (k * k)%Qc 0%Qc 0%Qc] [Vec k 0%Qc 0%Qc] [(k * k)%Qc]
    [0] [1] 2 1 0 0 1 (BoundaryMesh [] [] [] [] [] [] [] [] [] [0]).
Lemma pairMesh_sized k : (0 < k)%Qc -> geometry_sized (pairMesh k).
Proof.
  intros Hk. split; [|done]. split; try done; try (intros f Hf; simpl in Hf; destruct f as [|f]; [cbn; lia|lia]); try (intros; simpl in *; lia).
  intros c Hc. simpl in Hc. assert (H2 : (0 < k * k)%Qc) by (rewrite <- (Qcmult_0_l k); by apply Qcmult_lt_compat_r).
  assert (H3 : (0 < k * k * k)%Qc) by (rewrite <- (Qcmult_0_l k); by apply Qcmult_lt_compat_r).
  destruct c as [|[|c]]; [exact H3| |lia]. cbn. replace (Q2Qc 3 * k * k * k)%Qc with (k * k * k * Q2Qc 3)%Qc by ring.
  rewrite <- (Qcmult_0_l (Q2Qc 3)). by apply Qcmult_lt_compat_r.
Qed.
Lemma pairMesh_face k : face_geometry (pairMesh k) 0 (Vec (k * k) 0 0)%Qc (Vec k 0 0)%Qc (Vec (Q2Qc (1 # 2) * k) 0 0)%Qc (Vec (Q2Qc (5 # 2) * k) 0 0)%Qc.
Proof. split; [simpl; lia|]. done. Qed.
Example C41_instance : surely (updateWeights CPUExecutor (pairMesh 1%Qc) [0%Qc]) [Q2Qc (3 # 4)].
Proof.
  destruct (C41_weights CPUExecutor (pairMesh 1%Qc) [0%Qc] (pairMesh_sized 1%Qc eq_refl) eq_refl) as (w' & A & L & P & _).
  destruct (P _ _ _ _ _ (pairMesh_face 1%Qc)) as (x & Ex & _ & Hx & _). specialize (Hx eq_refl).
  destruct w' as [|y [|? ?]]; try discriminate L. injection Ex as ->. assert (x = Q2Qc (3 # 4)) as ->; [|exact A].
  assert (E1 : (dist_own (Vec (1 * 1) 0 0) (Vec 1 0 0) (Vec (Q2Qc (1 # 2) * 1) 0 0) + dist_nei (Vec (1 * 1) 0 0) (Vec 1 0 0) (Vec (Q2Qc (5 # 2) * 1) 0 0))%Qc = Q2Qc 2)
    by (apply Qc_is_canon; vm_compute; reflexivity).
  assert (E2 : dist_nei (Vec (1 * 1) 0 0)%Qc (Vec 1 0 0)%Qc (Vec (Q2Qc (5 # 2) * 1) 0 0)%Qc = Q2Qc (3 # 2)) by (apply Qc_is_canon; vm_compute; reflexivity).
  rewrite E1, E2 in Hx. assert (x = (x * Q2Qc 2) * Q2Qc (1 # 2))%Qc as ->.
  { rewrite <- Qcmult_assoc. replace (Q2Qc 2 * Q2Qc (1 # 2))%Qc with 1%Qc by (apply Qc_is_canon; vm_compute; reflexivity). ring. }
  rewrite Hx. apply Qc_is_canon. vm_compute. reflexivity.
Qed.

(** ** The degenerate case is recognised by an absolute threshold (1e-18 for area
    times distance), so proper cells of 1e-7 m get weights of 1/2. *)
Theorem C81_small_cells_refuted : ~ forall e m w w' f sf cf co cn x,
  geometry_sized m -> length w = nFaces m -> updateWeights e m w (Ok w') -> face_geometry m f sf cf co cn ->
  (0 < dot sf (diff cf co))%Qc -> (0 < dot sf (diff cn cf))%Qc -> w' !! f = Some x ->
  (x * (dist_own sf cf co + dist_nei sf cf cn) = dist_nei sf cf cn)%Qc.
Proof.
  intros HH. set (k := Q2Qc (1 # 10000000)).
  destruct (C41_weights CPUExecutor (pairMesh k) [0%Qc] (pairMesh_sized k eq_refl) eq_refl) as (w' & A & L & P & _).
  destruct (P _ _ _ _ _ (pairMesh_face k)) as (x & Ex & _ & _ & Hx).
  assert (x = Q2Qc (1 # 2)) as -> by (apply Hx; vm_compute; discriminate).
  pose proof (HH CPUExecutor (pairMesh k) [0%Qc] w' 0 _ _ _ _ _ (pairMesh_sized k eq_refl) eq_refl (proj2 (A _) eq_refl) (pairMesh_face k)
    ltac:(vm_compute; reflexivity) ltac:(vm_compute; reflexivity) Ex) as E.
  apply (f_equal this) in E. vm_compute in E. discriminate.
Qed.
Print Assumptions C81_small_cells_refuted.

(** ** Delta coefficients *)
Local Open Scope R_scope.
Lemma rdot_self a : 0 <= rdot a a.
Proof. unfold rdot. pose proof (Rle_0_sqr (rx a)). pose proof (Rle_0_sqr (ry a)). pose proof (Rle_0_sqr (rz a)). unfold Rsqr in *. lra. Qed.
Lemma mag_sqr a : mag a * mag a = rdot a a.
Proof. unfold mag. apply sqrt_sqrt, rdot_self. Qed.
Lemma mag_nonneg a : 0 <= mag a.
Proof. apply sqrt_pos. Qed.
Lemma mag_scale k a : 0 <= k -> mag (rscale k a) = k * mag a.
Proof.
  intros Hk. apply Rsqr_inj; [apply mag_nonneg|apply Rmult_le_pos; [done|apply mag_nonneg]|].
  unfold Rsqr. rewrite mag_sqr. replace (k * mag a * (k * mag a)) with (k * k * (mag a * mag a)) by ring. rewrite mag_sqr. unfold rdot, rscale. simpl. ring.
Qed.
(** Cauchy-Schwarz *)
Lemma rdot_le a b : rdot a b <= mag a * mag b.
Proof.
  destruct (Rle_or_lt (rdot a b) 0) as [H|H].
  - pose proof (Rmult_le_pos _ _ (mag_nonneg a) (mag_nonneg b)). lra.
  - apply Rsqr_incr_0; [|lra|apply Rmult_le_pos; apply mag_nonneg]. unfold Rsqr.
    replace (mag a * mag b * (mag a * mag b)) with ((mag a * mag a) * (mag b * mag b)) by ring. rewrite !mag_sqr.
    assert (Hc : rdot a a * rdot b b - rdot a b * rdot a b =
      (rx a * ry b - ry a * rx b)² + (rx a * rz b - rz a * rx b)² + (ry a * rz b - rz a * ry b)²) by (unfold rdot, Rsqr; ring).
    pose proof (Rle_0_sqr (rx a * ry b - ry a * rx b)). pose proof (Rle_0_sqr (rx a * rz b - rz a * rx b)). pose proof (Rle_0_sqr (ry a * rz b - rz a * ry b)). lra.
Qed.

(** The geometry fits together: every face has its data, and cells exist. *)
Definition real_sized (g : geometry) (nF : nat) : Prop :=
  (g_nInternal g <= nF)%nat /\
  length (g_faceCentres g) = nF /\ length (g_faceAreas g) = nF /\ length (g_magFaceAreas g) = nF /\
  (forall f, (f < g_nInternal g)%nat -> exists o n, g_owner g !! f = Some o /\ g_neighbour g !! f = Some n /\
     (o < length (g_cellCentres g))%nat /\ (n < length (g_cellCentres g))%nat) /\
  (forall b, (b < nF - g_nInternal g)%nat -> exists c, g_faceCells g !! b = Some c /\ (c < length (g_cellCentres g))%nat).
(** The vector whose length the coefficient of face f inverts: between the
    centres of the two cells, or from the cell to the boundary face. *)
Definition delta_of (g : geometry) (f : nat) (d : rvec) : Prop :=
  (exists o n co cn, (f < g_nInternal g)%nat /\ g_owner g !! f = Some o /\ g_neighbour g !! f = Some n /\
     g_cellCentres g !! o = Some co /\ g_cellCentres g !! n = Some cn /\ d = rdiff cn co) \/
  (exists c cc cf, (g_nInternal g <= f)%nat /\ g_faceCells g !! (f - g_nInternal g)%nat = Some c /\
     g_cellCentres g !! c = Some cc /\ g_faceCentres g !! f = Some cf /\ d = rdiff cf cc).

Lemma delta_kernel g nF f d : real_sized g nF -> delta_of g f d ->
  ((f < g_nInternal g)%nat /\ internal_delta g f = Some d) \/ ((g_nInternal g <= f)%nat /\ boundary_delta g f = Some d).
Proof.
  intros Hs [(o & n & co & cn & Hf & E1 & E2 & E3 & E4 & ->)|(c & cc & cf & Hf & E1 & E2 & E3 & ->)].
  - left. split; [done|]. unfold internal_delta. by rewrite E1, E2, E3, E4.
  - right. split; [done|]. unfold boundary_delta. by rewrite E1, E3, E2.
Qed.
Lemma internal_some g nF f : real_sized g nF -> (f < g_nInternal g)%nat -> is_Some (internal_delta g f).
Proof.
  intros (_ & _ & _ & _ & Hi & _) Hf. destruct (Hi f Hf) as (o & n & E1 & E2 & Ho & Hn). unfold internal_delta. rewrite E1, E2.
  destruct (lookup_lt_is_Some_2 _ _ Ho) as [co ->]. destruct (lookup_lt_is_Some_2 _ _ Hn) as [cn ->]. by eexists.
Qed.
Lemma boundary_some g nF f : real_sized g nF -> (g_nInternal g <= f < nF)%nat -> is_Some (boundary_delta g f).
Proof.
  intros (_ & Hc & _ & _ & _ & Hb) Hf. destruct (Hb (f - g_nInternal g)%nat) as (c & E1 & Hcl); [lia|]. unfold boundary_delta. rewrite E1.
  destruct (lookup_lt_is_Some_2 (g_faceCentres g) f) as [cf ->]; [lia|]. destruct (lookup_lt_is_Some_2 _ _ Hcl) as [cc ->]. by eexists.
Qed.

(** Two loops, over internal and boundary faces. *)
Lemma two_loops e g nF dc (F : nat -> rvec -> option R) : real_sized g nF -> length dc = nF ->
  (forall f d, (f < nF)%nat -> is_Some (F f d)) ->
  exists dc', surely (rseq (for_each e 0 (g_nInternal g) (fun f => match internal_delta g f with Some d => F f d | None => None end) dc) (fun dc1 =>
      for_each e (g_nInternal g) (length dc1) (fun f => match boundary_delta g f with Some d => F f d | None => None end) dc1)) dc' /\
    length dc' = nF /\ forall f d, (f < nF)%nat -> delta_of g f d -> dc' !! f = F f d.
Proof.
  intros Hs Hl HF. pose proof Hs as (Hn & _).
  destruct (for_each_surely e 0 (g_nInternal g) (fun f => match internal_delta g f with Some d => F f d | None => None end) dc) as (d1 & A1 & L1 & P1); [lia|lia| |].
  { intros f [_ Hf]. destruct (internal_some g nF f Hs Hf) as [d ->]. apply HF. lia. }
  destruct (for_each_surely e (g_nInternal g) (length d1) (fun f => match boundary_delta g f with Some d => F f d | None => None end) d1) as (d2 & A2 & L2 & P2); [lia|lia| |].
  { intros f Hf. destruct (boundary_some g nF f Hs) as [d ->]; [lia|]. apply HF. lia. }
  exists d2. split; [eapply surely_rseq; [exact A1|exact A2]|]. split; [lia|].
  intros f d Hf Hd. destruct (delta_kernel g nF f d Hs Hd) as [[H1 E]|[H1 E]].
  - rewrite P2, decide_False by lia. rewrite P1, decide_True by lia. by rewrite E.
  - rewrite P2, decide_True by lia. by rewrite E.
Qed.

Theorem C41_delta_coeffs : forall e g nF dc, real_sized g nF -> length dc = nF ->
  exists dc', surely (updateDeltaCoeffs g e dc) dc' /\ length dc' = nF /\
    forall f d, (f < nF)%nat -> delta_of g f d -> 0 < mag d -> exists x, dc' !! f = Some x /\ 0 < x /\ x * mag d = 1.
Proof.
  intros e g nF dc Hs Hl. destruct (two_loops e g nF dc (fun _ d => Some (1 / mag d)) Hs Hl) as (dc' & A & L & P); [by eexists|].
  exists dc'. split; [exact A|]. split; [done|]. intros f d Hf Hd Hm. exists (1 / mag d). split; [by apply P|].
  split; [apply Rdiv_lt_0_compat; lra|field; lra].
Qed.
Print Assumptions C41_delta_coeffs.

(** Non-orthogonal coefficients: 1 / max(n.d, 0.05 |d|).  They are positive, at
    most twenty times, and (with consistent areas) at least, the orthogonal
    coefficient; equal to it where d is normal to the face, and equal to
    1/(n.d) wherever the angle is not extreme. *)
Theorem C41_nonOrth_delta_coeffs : forall e g nF dc, real_sized g nF -> length dc = nF ->
  exists dc', surely (updateNonOrthDeltaCoeffs g e dc) dc' /\ length dc' = nF /\
    forall f d sf area, (f < nF)%nat -> delta_of g f d -> g_faceAreas g !! f = Some sf -> g_magFaceAreas g !! f = Some area -> 0 < mag d -> 0 < area ->
      exists x, dc' !! f = Some x /\ 0 < x /\ x * mag d <= 20 /\
        (5 / 100 * mag d * area <= rdot sf d -> x * rdot sf d = area) /\
        (area = mag sf -> 1 <= x * mag d) /\
        (area = mag sf -> forall k, 0 < k -> d = rscale k sf -> x * mag d = 1).
Proof.
  intros e g nF dc Hs Hl. pose proof Hs as (Hn & _ & Ha & Hm & _).
  destruct (for_each_surely e 0 (length dc) (fun _ => Some 0) dc) as (d0 & A0 & L0 & _); [lia|lia|by eexists|].
  destruct (two_loops e g nF d0 (nonOrthDelta g) Hs) as (dc' & A & L & P); [lia| |].
  { intros f d Hf. unfold nonOrthDelta. destruct (lookup_lt_is_Some_2 (g_magFaceAreas g) f) as [ar ->]; [lia|].
    destruct (lookup_lt_is_Some_2 (g_faceAreas g) f) as [sf ->]; [lia|]. by eexists. }
  exists dc'. split; [unfold updateNonOrthDeltaCoeffs; eapply surely_rseq; [exact A0|exact A]|]. split; [done|].
  intros f d sf area Hf Hd Esf Ear Hdm Harea. pose proof (P f d Hf Hd) as Ex. unfold nonOrthDelta in Ex. rewrite Ear, Esf in Ex.
  set (nd := rdot (rscale (1 / area) sf) d) in *. set (M := Rmax nd (5 / 100 * mag d)) in *.
  assert (Hnd : nd * area = rdot sf d) by (unfold nd, rdot, rscale; simpl; field; lra).
  assert (HM1 : nd <= M) by apply Rmax_l. assert (HM2 : 5 / 100 * mag d <= M) by apply Rmax_r.
  assert (HM0 : 0 < M) by lra.
  exists (1 / M). split; [done|]. split; [apply Rdiv_lt_0_compat; lra|]. split; [|split; [|split]].
  - apply (Rmult_le_reg_r M); [done|]. replace (1 / M * mag d * M) with (mag d) by (field; lra). lra.
  - intros Hbig. assert (M = nd) as ->.
    { apply Rmax_left. apply (Rmult_le_reg_r area); [done|]. lra. }
    rewrite <- Hnd. field. assert (0 < nd * area); [|intros E; rewrite E in *; lra].
    rewrite Hnd. apply (Rlt_le_trans _ (5 / 100 * mag d * area)); [|done]. apply Rmult_lt_0_compat; lra.
  - intros Earea. assert (M <= mag d).
    { apply Rmax_lub; [|lra]. apply (Rmult_le_reg_r area); [done|]. rewrite Hnd, Earea, (Rmult_comm (mag d)). apply rdot_le. }
    apply (Rmult_le_reg_r M); [done|]. replace (1 / M * mag d * M) with (mag d) by (field; lra). lra.
  - intros Earea k Hk ->. assert (Hms : mag (rscale k sf) = k * mag sf) by (apply mag_scale; lra).
    assert (nd = mag (rscale k sf)).
    { apply (Rmult_eq_reg_r area); [|lra]. rewrite Hnd, Hms, Earea.
      replace (k * mag sf * mag sf) with (k * (mag sf * mag sf)) by ring. rewrite mag_sqr. unfold rdot, rscale. simpl. ring. }
    assert (M = mag (rscale k sf)) as -> by (unfold M; rewrite Rmax_left; lra). field. lra.
Qed.
Print Assumptions C41_nonOrth_delta_coeffs.

(** Example: two cells, one internal and one boundary face, the line between the
    centres at an angle to the internal face's normal. *)
Definition geoR : geometry :=
  Geometry [RVec 0 0 0; RVec 3 4 0] [RVec 1 1 0; RVec (-1) 0 0] [RVec 2 0 0; RVec (-2) 0 0] [2; 2] [0%nat] [1%nat] [0%nat] 1.
Lemma geoR_sized : real_sized geoR 2.
Proof.
  split; [simpl; lia|]. split; [done|]. split; [done|]. split; [done|]. split.
  - intros f Hf. simpl in Hf. destruct f as [|f]; [|lia]. exists 0%nat, 1%nat. simpl. repeat split; lia.
  - intros b Hb. simpl in Hb. destruct b as [|b]; [|lia]. exists 0%nat. simpl. split; [done|lia].
Qed.
Lemma mag_5 : mag (rdiff (RVec 3 4 0) (RVec 0 0 0)) = 5.
Proof. apply Rsqr_inj; [apply mag_nonneg|lra|]. unfold Rsqr. rewrite mag_sqr. unfold rdot, rdiff. simpl. ring. Qed.
Example C41_delta_instance : exists dc' nc', surely (updateDeltaCoeffs geoR GPUExecutor [0; 0]) dc' /\ surely (updateNonOrthDeltaCoeffs geoR GPUExecutor [0; 0]) nc' /\
  dc' !! 0%nat = Some (1 / 5) /\ nc' !! 0%nat = Some (1 / 3).
Proof.
  destruct (C41_delta_coeffs GPUExecutor geoR 2 [0; 0] geoR_sized eq_refl) as (dc' & A & _ & P).
  destruct (C41_nonOrth_delta_coeffs GPUExecutor geoR 2 [0; 0] geoR_sized eq_refl) as (nc' & B & _ & Q).
  exists dc', nc'. split; [done|]. split; [done|].
  assert (Hd : delta_of geoR 0 (rdiff (RVec 3 4 0) (RVec 0 0 0))) by (left; exists 0%nat, 1%nat, (RVec 0 0 0), (RVec 3 4 0); split; [simpl; lia|done]).
  destruct (P 0%nat _ ltac:(lia) Hd) as (x & Ex & _ & Hx); [rewrite mag_5; lra|]. rewrite mag_5 in Hx.
  destruct (Q 0%nat _ (RVec 2 0 0) 2 ltac:(lia) Hd eq_refl eq_refl) as (y & Ey & _ & _ & Hy & _); [rewrite mag_5; lra|lra|]. rewrite mag_5 in Hy.
  unfold rdot, rdiff in Hy. simpl in Hy.
  rewrite Ex, Ey. split; f_equal; [lra|]. assert (y * 6 = 2) by (rewrite <- Hy by lra; ring). lra.
Qed.
