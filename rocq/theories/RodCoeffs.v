(** The coefficients BasicGeometryScheme computes for the uniform 1D mesh. *)
From Coq Require Import Reals Qreals Qcabs Lra.
From Verif Require Import Base Dict Par ParProofs Exec Reduce ReduceProofs Fields FieldsProofs Value Mesh MeshSpec MeshProofs Coeff FV FVSpec Sparsity SparsitySpec AssemblySpec DslSpec Geometry Properties_Mesh Properties_Geometry Rod QcLra.
Local Open Scope nat_scope.

(** Inverse distances: N between neighbouring cells, 2N to the ends. *)
Definition rod_dc (N : nat) : list Qc := replicate (N - 1) (Qc_of_nat N) ++ replicate 2 ((1 + 1) * Qc_of_nat N)%Qc.
(** Weights: 1/2 between cells, 1 at the ends. *)
Definition rod_weights (N : nat) : list Qc := replicate (N - 1) half ++ replicate 2 1%Qc.
Lemma rod_dc_length N : 1 <= N -> length (rod_dc N) = N + 1.
Proof. intros. unfold rod_dc. rewrite app_length, !replicate_length. lia. Qed.
Lemma rod_weights_length N : 1 <= N -> length (rod_weights N) = N + 1.
Proof. intros. unfold rod_weights. rewrite app_length, !replicate_length. lia. Qed.
Lemma rod_dc_int N f : f < N - 1 -> rod_dc N !! f = Some (Qc_of_nat N).
Proof. intros. unfold rod_dc. rewrite lookup_app_l by (rewrite replicate_length; lia). by apply lookup_replicate_2. Qed.
Lemma rod_dc_bnd N f : N - 1 <= f < N + 1 -> 1 <= N -> rod_dc N !! f = Some ((1 + 1) * Qc_of_nat N)%Qc.
Proof. intros. unfold rod_dc. rewrite lookup_app_r by (rewrite replicate_length; lia). apply lookup_replicate_2. rewrite replicate_length. lia. Qed.
Lemma rod_weights_int N f : f < N - 1 -> rod_weights N !! f = Some half.
Proof. intros. unfold rod_weights. rewrite lookup_app_l by (rewrite replicate_length; lia). by apply lookup_replicate_2. Qed.
Lemma rod_weights_bnd N f : N - 1 <= f < N + 1 -> 1 <= N -> rod_weights N !! f = Some 1%Qc.
Proof. intros. unfold rod_weights. rewrite lookup_app_r by (rewrite replicate_length; lia). apply lookup_replicate_2. rewrite replicate_length. lia. Qed.

Lemma Qc_of_nat_add a b : Qc_of_nat (a + b) = (Qc_of_nat a + Qc_of_nat b)%Qc.
Proof. induction a as [|a IH]; simpl; [rewrite Qc_of_nat_0; ring|]. rewrite !Qc_of_nat_S, IH. ring. Qed.
Lemma half_nz : (half + half = 1)%Qc.
Proof. apply Qc_is_canon. vm_compute. reflexivity. Qed.

Lemma Qc_pos_reg (y x : Qc) : (0 < x)%Qc -> (0 < y * x)%Qc -> (0 < y)%Qc.
Proof.
  intros Hx Hyx. destruct (Qclt_le_dec 0 y) as [|Hy]; [done|]. exfalso.
  pose proof (Qcmult_le_compat_r y 0 x Hy (Qclt_le_weak _ _ Hx)) as H. rewrite Qcmult_0_l in H. apply (Qclt_not_le _ _ Hyx H).
Qed.
Lemma Qc_mul_reg (x a b : Qc) : x <> 0%Qc -> (a * x = b * x)%Qc -> a = b.
Proof. intros Hx Hab. apply (f_equal (fun z => z * / x)%Qc) in Hab. by rewrite <- !Qcmult_assoc, !Qcmult_inv_r, !Qcmult_1_r in Hab by done. Qed.

Section rod.
  Context (N : nat) (m : mesh) (Hrod : rod N m).
  Let Hpos : 1 <= N := rod_pos _ _ Hrod.
  Let HNpos : (0 < Qc_of_nat N)%Qc := Qc_of_nat_pos N Hpos.
  Let HN : Qc_of_nat N <> 0%Qc := Qc_of_nat_nz N Hpos.
  Notation X := (Qc_of_nat N).

  Lemma rod_sized : real_sized (geometry_of m) (N + 1).
  Proof.
    destruct (rod_lens _ _ Hrod) as (L1 & L2 & L3 & L4). unfold real_sized, geometry_of; cbn [g_nInternal g_faceCentres g_faceAreas g_magFaceAreas g_owner g_neighbour g_cellCentres g_faceCells].
    rewrite !map_length, L1, L2, L3, L4, (rod_int _ _ Hrod). split; [lia|]. split; [done|]. split; [done|]. split; [done|].
    pose proof (rod_top _ _ Hrod) as Ht. split.
    - intros f Hf. pose proof (vt_owner_len _ Ht). pose proof (vt_nei_len _ Ht). pose proof (rod_faces _ _ Hrod). pose proof (rod_int _ _ Hrod).
      destruct (lookup_lt_is_Some_2 (faceOwner m) f) as [o Eo]; [lia|]. destruct (lookup_lt_is_Some_2 (faceNeighbour m) f) as [n En]; [lia|].
      pose proof (rod_own _ _ Hrod f Hf) as E1. pose proof (rod_nei _ _ Hrod f Hf) as E2. unfold atn in E1, E2. rewrite Eo in E1. rewrite En in E2. simpl in *.
      exists o, n. repeat split; try done; lia.
    - intros b Hb. rewrite (rod_fc _ _ Hrod). assert (b = 0 \/ b = 1) as [-> | ->] by lia; simpl; eexists; (split; [done|lia]).
  Qed.

  (** Face f: signed unit normal, and distance vector. *)
  Lemma rod_delta f : f < N + 1 -> exists (s k : Qc),
    (s * s = 1)%Qc /\ (0 < k)%Qc /\ faceAreas m !! f = Some (Vec s 0 0) /\
    delta_of (geometry_of m) f (real_vec (Vec (k * s) 0 0)) /\ (k * at0 (rod_dc N) f = 1)%Qc.
  Proof.
    intros Hf. pose proof (rod_top _ _ Hrod) as Ht. pose proof (vt_owner_len _ Ht) as Lo. pose proof (vt_nei_len _ Ht) as Ln.
    pose proof (rod_faces _ _ Hrod) as HF. pose proof (rod_int _ _ Hrod) as HI. rewrite HF in Lo. rewrite HI in Ln.
    destruct (decide (f < N - 1)) as [Hi|Hi].
    - exists 1%Qc, (1 / X)%Qc. split; [ring|]. split; [apply (Qc_pos_reg _ X HNpos); replace (1 / X * X)%Qc with 1%Qc by (field; done); reflexivity|].
      split; [by apply (rod_area _ _ Hrod)|]. split.
      + left. destruct (lookup_lt_is_Some_2 (faceOwner m) f) as [o Eo]; [lia|]. destruct (lookup_lt_is_Some_2 (faceNeighbour m) f) as [n En]; [lia|].
        pose proof (rod_own _ _ Hrod f Hi) as E1. pose proof (rod_nei _ _ Hrod f Hi) as E2. unfold atn in E1, E2. rewrite Eo in E1. rewrite En in E2. simpl in *. subst o n.
        exists f, (f + 1), (real_vec (Vec ((Qc_of_nat f + half) / X) 0 0)), (real_vec (Vec ((Qc_of_nat (f + 1) + half) / X) 0 0)).
        cbn [geometry_of g_nInternal g_owner g_neighbour g_cellCentres]. rewrite HI. split; [done|]. split; [done|]. split; [done|].
        change (map real_vec (cellCentres m)) with (real_vec <$> cellCentres m). rewrite !list_lookup_fmap, !(rod_centre _ _ Hrod) by lia. split; [done|]. split; [done|].
        rewrite real_vec_diff. f_equal. unfold diff. simpl. rewrite Qc_of_nat_add. f_equal; [|ring..]. change (Qc_of_nat 1) with 1%Qc. field. done.
      + unfold at0. rewrite rod_dc_int by done. simpl. field. done.
    - assert (Hk : (half / X * ((1 + 1) * X) = 1)%Qc) by (replace (half / X * ((1 + 1) * X))%Qc with (half + half)%Qc by (field; done); apply half_nz).
      assert (Hkp : (0 < half / X)%Qc).
      { apply (Qc_pos_reg _ X HNpos). replace (half / X * X)%Qc with half by (field; done). reflexivity. }
      destruct (decide (f = N - 1)) as [->|Hne].
      + exists (-(1))%Qc, (half / X)%Qc. split; [ring|]. split; [done|]. split; [apply (rod_area_l _ _ Hrod)|]. split.
        * right. exists 0, (real_vec (Vec ((Qc_of_nat 0 + half) / X) 0 0)), (real_vec (Vec 0 0 0)). cbn [geometry_of g_nInternal g_faceCells g_faceCentres g_cellCentres].
          rewrite HI, Nat.sub_diag, (rod_fc _ _ Hrod). split; [done|]. split; [done|].
          change (map real_vec (cellCentres m)) with (real_vec <$> cellCentres m). change (map real_vec (faceCentres m)) with (real_vec <$> faceCentres m).
          rewrite !list_lookup_fmap, (rod_centre _ _ Hrod), (rod_fcentre_l _ _ Hrod) by lia. split; [done|]. split; [done|].
          rewrite real_vec_diff. f_equal. unfold diff. simpl. rewrite Qc_of_nat_0. f_equal; [|ring..]. field. done.
        * unfold at0. rewrite rod_dc_bnd by lia. simpl. exact Hk.
      + assert (f = N) as -> by lia. exists 1%Qc, (half / X)%Qc. split; [ring|]. split; [done|]. split; [apply (rod_area_r _ _ Hrod)|]. split.
        * right. exists (N - 1), (real_vec (Vec ((Qc_of_nat (N - 1) + half) / X) 0 0)), (real_vec (Vec 1 0 0)). cbn [geometry_of g_nInternal g_faceCells g_faceCentres g_cellCentres].
          rewrite HI, (rod_fc _ _ Hrod). replace (N - (N - 1)) with 1 by lia. split; [lia|]. split; [done|].
          change (map real_vec (cellCentres m)) with (real_vec <$> cellCentres m). change (map real_vec (faceCentres m)) with (real_vec <$> faceCentres m).
          rewrite !list_lookup_fmap, (rod_centre _ _ Hrod), (rod_fcentre_r _ _ Hrod) by lia. split; [done|]. split; [done|].
          rewrite real_vec_diff. f_equal. unfold diff. simpl. f_equal; [|ring..].
          assert (E : X = (Qc_of_nat (N - 1) + 1)%Qc) by (rewrite <- Qc_of_nat_S; f_equal; lia).
          apply (Qc_mul_reg X); [done|].
          replace (half / X * 1 * X)%Qc with half by (field; done). replace ((1 - (Qc_of_nat (N - 1) + half) / X) * X)%Qc with (X - Qc_of_nat (N - 1) - half)%Qc by (field; done).
          rewrite E. rewrite <- half_nz. ring.
        * unfold at0. rewrite rod_dc_bnd by lia. simpl. exact Hk.
  Qed.

  Lemma mag_unit s : (s * s = 1)%Qc -> mag (real_vec (Vec s 0 0)) = 1%R.
  Proof.
    intros Hs. unfold mag, real_vec. simpl. rewrite QcR_0, <- QcR_mul, Hs, QcR_1.
    replace (1 + 0 * 0 + 0 * 0)%R with 1%R by ring. apply R_sqrt.sqrt_1.
  Qed.
  Lemma rod_entry f x (k : Qc) : (0 < k)%Qc -> (k * at0 (rod_dc N) f = 1)%Qc -> (x * QcR k = 1)%R -> x = QcR (at0 (rod_dc N) f).
  Proof.
    intros Hk E Hx. pose proof (QcR_pos _ Hk) as Hkr. apply (Rmult_eq_reg_r (QcR k)); [|lra].
    rewrite Hx, <- QcR_mul, Qcmult_comm, E, QcR_1. done.
  Qed.

  Lemma rod_list (l : list R) : length l = N + 1 ->
    (forall f, f < N + 1 -> l !! f = Some (QcR (at0 (rod_dc N) f))) -> l = map QcR (rod_dc N).
  Proof.
    intros L H. apply list_eq. intros f. change (map QcR (rod_dc N)) with (QcR <$> rod_dc N). rewrite list_lookup_fmap. destruct (decide (f < N + 1)) as [Hf|Hf].
    - rewrite H by done. destruct (lookup_lt_is_Some_2 (rod_dc N) f) as [y Ey]; [rewrite rod_dc_length by done; lia|]. unfold at0. by rewrite Ey.
    - rewrite (proj2 (lookup_ge_None l f)) by lia. rewrite (proj2 (lookup_ge_None (rod_dc N) f)); [done|]. rewrite rod_dc_length by done. lia.
  Qed.

  Lemma rod_deltas e dc : length dc = N + 1 -> surely (updateDeltaCoeffs (geometry_of m) e dc) (map QcR (rod_dc N)).
  Proof.
    intros L. destruct (C41_delta_coeffs e (geometry_of m) (N + 1) dc rod_sized L) as (dc' & A & L' & P).
    rewrite <- (rod_list dc'); [done|done|]. intros f Hf. destruct (rod_delta f Hf) as (s & k & Hs & Hk & _ & Hd & E).
    assert (Hm : mag (real_vec (Vec (k * s) 0 0)) = QcR k).
    { rewrite real_vec_x. rewrite mag_scale by (apply Rlt_le, QcR_pos; done). rewrite mag_unit by done. ring. }
    destruct (P f _ Hf Hd) as (x & Ex & _ & Hx); [rewrite Hm; by apply QcR_pos|]. rewrite Ex. f_equal. apply (rod_entry f x k Hk E). by rewrite <- Hm.
  Qed.
  Lemma rod_nonOrth e dc : length dc = N + 1 -> surely (updateNonOrthDeltaCoeffs (geometry_of m) e dc) (map QcR (rod_dc N)).
  Proof.
    intros L. destruct (C41_nonOrth_delta_coeffs e (geometry_of m) (N + 1) dc rod_sized L) as (dc' & A & L' & P).
    rewrite <- (rod_list dc'); [done|done|]. intros f Hf. destruct (rod_delta f Hf) as (s & k & Hs & Hk & Hsf & Hd & E).
    assert (Hm : mag (real_vec (Vec (k * s) 0 0)) = QcR k).
    { rewrite real_vec_x. rewrite mag_scale by (apply Rlt_le, QcR_pos; done). rewrite mag_unit by done. ring. }
    destruct (P f _ (real_vec (Vec s 0 0)) (QcR 1%Qc) Hf Hd) as (x & Ex & _ & _ & _ & _ & Hx).
    - cbn [geometry_of g_faceAreas]. change (map real_vec (faceAreas m)) with (real_vec <$> faceAreas m). rewrite list_lookup_fmap, Hsf. done.
    - cbn [geometry_of g_magFaceAreas]. change (map QcR (magFaceAreas m)) with (QcR <$> magFaceAreas m). rewrite list_lookup_fmap, (rod_mag _ _ Hrod) by done. done.
    - rewrite Hm. by apply QcR_pos.
    - rewrite QcR_1. lra.
    - rewrite Ex. f_equal. apply (rod_entry f x k Hk E). rewrite <- Hm. apply (Hx ltac:(rewrite QcR_1, mag_unit by done; done) (QcR k)); [by apply QcR_pos|apply real_vec_x].
  Qed.

  Lemma rod_geometry_sized : geometry_sized m.
  Proof.
    destruct (rod_lens _ _ Hrod) as (L1 & L2 & L3 & L4). split; [apply (rod_top _ _ Hrod)|]. rewrite L1, L2, L4, (rod_cells _ _ Hrod), (rod_faces _ _ Hrod). done.
  Qed.
  Lemma rod_weights_run e w : length w = N + 1 -> surely (updateWeights e m w) (rod_weights N).
  Proof.
    intros L. destruct (C41_weights e m w rod_geometry_sized) as (w' & A & L' & P & B); [by rewrite (rod_faces _ _ Hrod)|].
    enough (w' = rod_weights N) as <- by done. rewrite (rod_faces _ _ Hrod) in L', B. rewrite (rod_int _ _ Hrod) in B. apply list_eq. intros f.
    destruct (decide (f < N - 1)) as [Hf|Hf].
    - rewrite rod_weights_int by done.
      destruct (P f (Vec 1 0 0) (Vec (Qc_of_nat (f + 1) / X) 0 0) (Vec ((Qc_of_nat f + half) / X) 0 0) (Vec ((Qc_of_nat (f + 1) + half) / X) 0 0)) as (x & Ex & _ & H1 & H2).
      { split; [by rewrite (rod_int _ _ Hrod)|]. split; [by apply (rod_area _ _ Hrod)|]. split; [by apply (rod_fcentre _ _ Hrod)|].
        rewrite (rod_own _ _ Hrod), (rod_nei _ _ Hrod) by done. split; apply (rod_centre _ _ Hrod); lia. }
      rewrite Ex. f_equal.
      assert (D1 : dist_own (Vec 1 0 0) (Vec (Qc_of_nat (f + 1) / X) 0 0) (Vec ((Qc_of_nat f + half) / X) 0 0) = (half / X)%Qc).
      { unfold dist_own. assert (dot (Vec 1 0 0) (diff (Vec (Qc_of_nat (f + 1) / X) 0 0) (Vec ((Qc_of_nat f + half) / X) 0 0)) = half / X)%Qc as ->.
        { unfold dot, diff. simpl. rewrite Qc_of_nat_add. change (Qc_of_nat 1) with 1%Qc. transitivity ((1 - half) / X)%Qc; [field; done|]. by f_equal. }
        apply Qcabs_pos. apply Qcmult_lt_0_le_reg_r with (z := X); [done|]. replace (half / X * X)%Qc with half by (field; done). rewrite Qcmult_0_l. discriminate. }
      assert (D2 : dist_nei (Vec 1 0 0) (Vec (Qc_of_nat (f + 1) / X) 0 0) (Vec ((Qc_of_nat (f + 1) + half) / X) 0 0) = (half / X)%Qc).
      { unfold dist_nei. assert (dot (Vec 1 0 0) (diff (Vec ((Qc_of_nat (f + 1) + half) / X) 0 0) (Vec (Qc_of_nat (f + 1) / X) 0 0)) = half / X)%Qc as ->.
        { unfold dot, diff. simpl. field. done. }
        apply Qcabs_pos. apply Qcmult_lt_0_le_reg_r with (z := X); [done|]. replace (half / X * X)%Qc with half by (field; done). rewrite Qcmult_0_l. discriminate. }
      rewrite D1, D2 in H1, H2. destruct (Qclt_le_dec ROOTVSMALL (half / X + half / X)) as [H|H].
      + specialize (H1 H). assert (half / X <> 0)%Qc.
        { intros Z. rewrite Z in H. discriminate H. }
        assert ((x + x) * (half / X) = 1 * (half / X))%Qc as E by (rewrite Qcmult_1_l; rewrite <- H1 at 2; ring).
        apply (f_equal (fun z => z * / (half / X))%Qc) in E. rewrite <- !Qcmult_assoc, !Qcmult_inv_r, !Qcmult_1_r in E by done.
        assert (half + half = 1)%Qc by apply half_nz. qc_lra.
      + rewrite H2 by done. apply Qc_is_canon. vm_compute. reflexivity.
    - destruct (decide (f < N + 1)) as [Hf2|Hf2].
      + rewrite rod_weights_bnd by lia. apply B. lia.
      + rewrite (proj2 (lookup_ge_None w' f)) by lia. symmetry. apply lookup_ge_None. rewrite rod_weights_length by done. lia.
  Qed.
End rod.
