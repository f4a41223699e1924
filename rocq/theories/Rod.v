(** Facts about the uniform 1D mesh (used by Properties_Rod.v). *)
From Coq Require Import Reals Qreals Qcabs.
From Verif Require Import Base Par Exec Value Mesh MeshSpec MeshProofs Coeff FV FVSpec Sparsity SparsitySpec AssemblySpec Geometry Properties_Mesh QcLra.
Local Open Scope nat_scope.

(** What the generator guarantees, face by face (from C28). *)
Record rod (N : nat) (m : mesh) : Prop := {
  rod_pos : 1 <= N;
  rod_cells : nCells m = N;
  rod_int : nInternalFaces m = N - 1;
  rod_bnd : nBoundaryFaces m = 2;
  rod_faces : nFaces m = N + 1;
  rod_top : valid_topology m;
  rod_upper : upper_triangular m;
  rod_vol : forall c, c < N -> at0 (cellVolumes m) c = (1 / Qc_of_nat N)%Qc;
  rod_own : forall f, f < N - 1 -> atn (faceOwner m) f = f;
  rod_nei : forall f, f < N - 1 -> atn (faceNeighbour m) f = f + 1;
  rod_fc : bFaceCells (bmesh m) = [0; N - 1];
  rod_centre : forall c, c < N -> cellCentres m !! c = Some (Vec ((Qc_of_nat c + half) / Qc_of_nat N) 0 0);
  rod_area : forall f, f < N - 1 -> faceAreas m !! f = Some (Vec 1 0 0);
  rod_area_l : faceAreas m !! (N - 1) = Some (Vec (-(1)) 0 0);
  rod_area_r : faceAreas m !! N = Some (Vec 1 0 0);
  rod_mag : forall f, f < N + 1 -> magFaceAreas m !! f = Some 1%Qc;
  rod_fcentre : forall f, f < N - 1 -> faceCentres m !! f = Some (Vec (Qc_of_nat (f + 1) / Qc_of_nat N) 0 0);
  rod_fcentre_l : faceCentres m !! (N - 1) = Some (Vec 0 0 0);
  rod_fcentre_r : faceCentres m !! N = Some (Vec 1 0 0);
  rod_lens : length (cellCentres m) = N /\ length (faceAreas m) = N + 1 /\ length (magFaceAreas m) = N + 1 /\ length (faceCentres m) = N + 1;
}.

Lemma atv_lookup l i v : i < length l -> atv l i = v -> l !! i = Some v.
Proof. intros Hl E. destruct (lookup_lt_is_Some_2 l i Hl) as [x Ex]. unfold atv in E. rewrite Ex in *. simpl in E. by subst. Qed.
Lemma at0_lookup l i v : i < length l -> at0 l i = v -> l !! i = Some v.
Proof. intros Hl E. destruct (lookup_lt_is_Some_2 l i Hl) as [x Ex]. unfold at0 in E. rewrite Ex in *. simpl in E. by subst. Qed.
Lemma Qc_sqr_one (x : Qc) : (0 < x)%Qc -> (x * x = 1)%Qc -> x = 1%Qc.
Proof.
  intros Hx E. assert ((x - 1) * (x + 1) = 0)%Qc as Z by (replace ((x - 1) * (x + 1))%Qc with (x * x - 1)%Qc by ring; rewrite E; ring).
  apply Qcmult_integral in Z as [Z|Z]; qc_lra.
Qed.

Lemma rod_of e N oj nj m : 1 <= N -> length oj = N + 1 -> length nj = N - 1 -> create1DUniformMesh e N oj nj (Some m) -> rod N m.
Proof.
  intros HN Ho Hn Hc.
  destruct (C28_uniform_1d_mesh e N oj nj (Some m) HN Ho Hn Hc) as (m' & [= <-] & HC & HI & HB & _ & Ht & Hg & Hb & _ & Hu & Hv & _ & Hcc & Hf & Hfc & HSf & HCf).
  pose proof (vt_faces _ Ht) as HF. rewrite HI, HB in HF. assert (HF' : nFaces m = N + 1) by lia.
  assert (L1 : length (faceAreas m) = N + 1) by (rewrite (vg_area_len _ Hg); done).
  assert (L2 : length (magFaceAreas m) = N + 1) by (rewrite (vg_mag_len _ Hg); done).
  assert (L3 : length (faceCentres m) = N + 1) by (rewrite (vg_fc_len _ Hg); done).
  assert (L4 : length (cellCentres m) = N) by (rewrite (vg_cc_len _ Hg); done).
  assert (A0 : faceAreas m !! (N - 1) = Some (Vec (-(1)) 0 0)).
  { apply atv_lookup; [lia|]. pose proof (vb_sf _ Hb 0) as E. rewrite HSf, HI, Nat.add_0_r in E. symmetry. apply E. lia. }
  assert (A1 : faceAreas m !! N = Some (Vec 1 0 0)).
  { apply atv_lookup; [lia|]. pose proof (vb_sf _ Hb 1) as E. rewrite HSf, HI in E. replace (N - 1 + 1) with N in E by lia. symmetry. apply E. lia. }
  split; try done.
  - intros c Hc'. unfold at0. by rewrite Hv.
  - intros f Hf'. unfold atn. by destruct (Hf f Hf') as (-> & _).
  - intros f Hf'. unfold atn. by destruct (Hf f Hf') as (_ & -> & _).
  - intros f Hf'. by apply Hf.
  - intros f Hf'. apply at0_lookup; [lia|]. destruct (vg_mag _ Hg f) as [P Q]; [lia|]. apply Qc_sqr_one; [done|]. rewrite Q.
    assert (atv (faceAreas m) f = Vec 1 0 0 \/ atv (faceAreas m) f = Vec (-(1)) 0 0) as [-> | ->]; [|unfold vec_dot; simpl; ring..].
    unfold atv. destruct (decide (f < N - 1)) as [H1|H1]; [left; destruct (Hf f H1) as (_ & _ & -> & _); done|].
    destruct (decide (f = N - 1)) as [->|H2]; [right; by rewrite A0|]. replace f with N by lia. left. by rewrite A1.
  - intros f Hf'. by apply Hf.
  - apply atv_lookup; [lia|]. pose proof (vb_cf _ Hb 0) as E. rewrite HCf, HI, Nat.add_0_r in E. symmetry. apply E. lia.
  - apply atv_lookup; [lia|]. pose proof (vb_cf _ Hb 1) as E. rewrite HCf, HI in E. replace (N - 1 + 1) with N in E by lia. symmetry. apply E. lia.
Qed.

(** The faces of cell c: on its left and on its right. *)
Lemma rod_balance {V} `{ValueLaws V} N m (g : nat -> V) c : rod N m -> c < N ->
  cell_balance m g c = vadd (if decide (c = N - 1) then g N else g c)
                            (if decide (c = 0) then g (N - 1) else vneg (g (c - 1))).
Proof.
  intros R Hc. pose proof (rod_pos _ _ R). unfold cell_balance. rewrite (rod_int _ _ R), (rod_bnd _ _ R), (rod_fc _ _ R).
  assert (E1 : vsum_over (N - 1) (fun f => if decide (atn (faceOwner m) f = c) then g f else vzero) =
          if decide (c = N - 1) then vzero else g c).
  { destruct (decide (c = N - 1)) as [->|Hne].
    - apply vsum_over_zero. intros f Hf. rewrite (rod_own _ _ R) by done. by rewrite decide_False by lia.
    - rewrite <- (vsum_over_single (N - 1) c (g c)) by lia. apply vsum_over_ext. intros f Hf. rewrite (rod_own _ _ R) by done.
      by destruct (decide (f = c)) as [->|]. }
  assert (E2 : vsum_over (N - 1) (fun f => if decide (atn (faceNeighbour m) f = c) then g f else vzero) =
          if decide (c = 0) then vzero else g (c - 1)).
  { destruct (decide (c = 0)) as [->|Hne].
    - apply vsum_over_zero. intros f Hf. rewrite (rod_nei _ _ R) by done. by rewrite decide_False by lia.
    - rewrite <- (vsum_over_single (N - 1) (c - 1) (g (c - 1))) by lia. apply vsum_over_ext. intros f Hf. rewrite (rod_nei _ _ R) by done.
      destruct (decide (f = c - 1)) as [->|]; [by rewrite decide_True by lia|by rewrite decide_False by lia]. }
  rewrite E1, E2. clear E1 E2.
  rewrite (vsum_over_S 1), (vsum_over_S 0), vsum_over_0, vadd_0_l.
  rewrite Nat.add_0_r. replace (N - 1 + 1) with N by lia.
  change (atn [0; N - 1] 0) with 0. change (atn [0; N - 1] 1) with (N - 1).
  unfold vsub. destruct (decide (c = N - 1)) as [Hr|Hr], (decide (c = 0)) as [Hl|Hl];
    rewrite ?(decide_True (P := 0 = c)), ?(decide_False (P := 0 = c)), ?(decide_True (P := N - 1 = c)), ?(decide_False (P := N - 1 = c)) by congruence;
    rewrite ?vneg_zero, ?vadd_0_l, ?vadd_0_r; try done; try apply vadd_comm.
Qed.

(** ** Rational geometry as real geometry *)
Definition QcR (q : Qc) : R := Q2R (this q).
Lemma QcR_add a b : QcR (a + b)%Qc = (QcR a + QcR b)%R.
Proof. unfold QcR. rewrite <- Q2R_plus. apply Qeq_eqR. simpl. apply Qred_correct. Qed.
Lemma QcR_opp a : QcR (- a)%Qc = (- QcR a)%R.
Proof. unfold QcR. rewrite <- Q2R_opp. apply Qeq_eqR. simpl. apply Qred_correct. Qed.
Lemma QcR_sub a b : QcR (a - b)%Qc = (QcR a - QcR b)%R.
Proof. unfold Qcminus. rewrite QcR_add, QcR_opp. reflexivity. Qed.
Lemma QcR_mul a b : QcR (a * b)%Qc = (QcR a * QcR b)%R.
Proof. unfold QcR. rewrite <- Q2R_mult. apply Qeq_eqR. simpl. apply Qred_correct. Qed.
Lemma QcR_0 : QcR 0%Qc = 0%R.
Proof. unfold QcR, Q2R. simpl. field. Qed.
Lemma QcR_1 : QcR 1%Qc = 1%R.
Proof. unfold QcR, Q2R. simpl. field. Qed.
Lemma QcR_inj a b : QcR a = QcR b -> a = b.
Proof. intros E. apply Qc_is_canon. by apply eqR_Qeq. Qed.
Lemma QcR_pos a : (0 < a)%Qc -> (0 < QcR a)%R.
Proof. intros Ha. rewrite <- QcR_0. unfold QcR. by apply Qlt_Rlt. Qed.

(** The arrays of the mesh that BasicGeometryScheme reads, as real numbers. *)
Definition real_vec (v : vec) : rvec := RVec (QcR (vx v)) (QcR (vy v)) (QcR (vz v)).
Definition geometry_of (m : mesh) : geometry :=
  Geometry (map real_vec (cellCentres m)) (map real_vec (faceCentres m)) (map real_vec (faceAreas m)) (map QcR (magFaceAreas m))
    (faceOwner m) (faceNeighbour m) (bFaceCells (bmesh m)) (nInternalFaces m).
Lemma real_vec_diff a b : rdiff (real_vec a) (real_vec b) = real_vec (diff a b).
Proof. unfold rdiff, real_vec, diff. simpl. by rewrite !QcR_sub. Qed.
Lemma real_vec_x k s : real_vec (Vec (k * s) 0 0) = rscale (QcR k) (real_vec (Vec s 0 0)).
Proof. unfold rscale, real_vec. simpl. rewrite QcR_mul, QcR_0. f_equal; ring. Qed.
