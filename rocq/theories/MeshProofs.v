From Coq Require Import Qcabs.
From Verif Require Import Base Par ParProofs Exec ExecProofs Value Mesh MeshSpec.

(** ** Patch slices *)
Lemma extract_ok {A} (l : list A) offs i s t :
  offs !! i = Some s -> offs !! (i + 1) = Some t -> s <= t -> t <= length l ->
  exists p, extractSubSpan l offs i = Ok p /\ length p = t - s /\
    forall k, k < t - s -> p !! k = l !! (s + k).
Proof.
  intros Hs Ht Hst Htl. unfold extractSubSpan. rewrite Hs, Ht.
  rewrite !bool_decide_true by done. simpl.
  exists (take (t - s) (drop s l)). split; [done|]. split.
  - rewrite take_length, drop_length. lia.
  - intros k Hk. rewrite lookup_take by done. by rewrite lookup_drop.
Qed.

Lemma offsets_mono (offs : list nat) :
  (forall i s t, offs !! i = Some s -> offs !! (i + 1) = Some t -> s <= t) ->
  forall j i s t, i <= j -> offs !! i = Some s -> offs !! j = Some t -> s <= t.
Proof.
  intros Hm. induction j as [|j IH]; intros i s t Hij Hi Hj.
  - assert (i = 0) by lia. subst. simplify_eq. lia.
  - destruct (decide (i = S j)) as [->|]; [simplify_eq; lia|].
    destruct (lookup_lt_is_Some_2 offs j) as [u Hu].
    { apply lookup_lt_Some in Hj. lia. }
    assert (s <= u) by (eapply (IH i); eauto; lia).
    assert (u <= t); [|lia]. eapply (Hm j); eauto. by rewrite Nat.add_1_r.
Qed.

(** The slices of the patches, concatenated, are the whole array. *)
Lemma slices_cover {A} (l : list A) (offs : list nat) n :
  length offs = n + 1 -> offs !! 0 = Some 0 -> offs !! n = Some (length l) ->
  (forall i s t, offs !! i = Some s -> offs !! (i + 1) = Some t -> s <= t) ->
  exists ps, length ps = n /\
    (forall i p, ps !! i = Some p -> extractSubSpan l offs i = Ok p) /\
    concat ps = l.
Proof.
  intros Hlen H0 Hn Hm.
  assert (forall k u, k <= n -> offs !! k = Some u ->
    exists ps, length ps = k /\
    (forall i p, ps !! i = Some p -> extractSubSpan l offs i = Ok p) /\
    concat ps = take u l) as Hgen.
  { induction k as [|k IH]; intros u Hk Hu.
    - exists []. split; [done|]. split; [done|]. rewrite H0 in Hu. injection Hu as <-. done.
    - destruct (lookup_lt_is_Some_2 offs k) as [w Hw]; [lia|].
      destruct (IH w) as (ps & Hpl & Hps & Hc); [lia|done|].
      assert (w <= u). { eapply (Hm k); [done|]. by rewrite Nat.add_1_r. }
      assert (u <= length l). { eapply (offsets_mono offs Hm n (S k)); [lia|done|done]. }
      destruct (extract_ok l offs k w u) as (p & Hp & Hpl' & Hpk);
        [done|by rewrite Nat.add_1_r|done|done|].
      exists (ps ++ [p]). split; [rewrite app_length; simpl; lia|]. split.
      + intros i q Hq. destruct (decide (i < length ps)).
        * rewrite lookup_app_l in Hq by done. by apply Hps.
        * rewrite lookup_app_r in Hq by lia.
          assert (i = k) as ->. { apply lookup_lt_Some in Hq. simpl in Hq. lia. }
          rewrite Hpl, Nat.sub_diag in Hq. simpl in Hq. congruence.
      + rewrite concat_app, Hc. simpl. rewrite app_nil_r.
        unfold extractSubSpan in Hp. rewrite Hw, Nat.add_1_r, Hu in Hp.
        rewrite !bool_decide_true in Hp by done. simpl in Hp. injection Hp as <-.
        rewrite <- (take_drop w (take u l)) at 1. rewrite take_take, Nat.min_l by lia.
        by rewrite skipn_firstn_comm. }
  destruct (Hgen n (length l)) as (ps & Hl & Hps & Hc); [done..|].
  exists ps. rewrite firstn_all in Hc. done.
Qed.

Lemma slice_index {A} (l : list A) offs i s t k :
  offs !! i = Some s -> offs !! (i + 1) = Some t -> s <= t -> t <= length l -> k < t - s ->
  exists p, extractSubSpan l offs i = Ok p /\ p !! k = l !! (s + k).
Proof.
  intros H1 H2 H3 H4 H5. destruct (extract_ok l offs i s t) as (p & ? & ? & Hk); [done..|]. eauto.
Qed.

(** ** create1DUniformMesh *)
Lemma rbind_iff {A B} (p : option A -> Prop) (k : A -> option B -> Prop) a r :
  (forall r, p r <-> r = Some a) -> rbind p k r <-> k a r.
Proof.
  intros Hp. unfold rbind. split.
  - intros [[Hx _]|(a' & Hx & Hk)]; apply Hp in Hx; [discriminate|congruence].
  - intros Hk. right. exists a. split; [by apply Hp|done].
Qed.

Lemma rmw_exec_iff {V} (f : nat -> V -> option V) e start stop s :
  start <= stop -> stop <= length s ->
  (forall i v, start <= i -> i < stop -> is_Some (f i v)) ->
  exists s', (forall r, exec_result e (iterations start stop (rmw_kernel f)) s r <-> r = Some s') /\
    length s' = length s /\
    forall j, s' !! j = if decide (start <= j < stop) then s !! j ≫= f j else s !! j.
Proof.
  intros H1 H2 H3. destruct (rmw_exec_exists f e start stop s) as [s' Hs']; [done..|].
  destruct (rmw_exec f e start stop s _ H1 H2 H3 Hs') as (s2 & Heq & Hl & Hp).
  injection Heq as <-. exists s'. split; [|done]. intros r. split; [|by intros ->].
  intros Hr. destruct (rmw_exec f e start stop s _ H1 H2 H3 Hr) as (s3 & -> & Hl3 & Hp3).
  f_equal. apply list_eq. intros j. by rewrite Hp3, Hp.
Qed.

Lemma connect_facts n k :
  all_total (fun s => k <= length s.1 /\ n = length s.1 /\ k <= length s.2) (iterations 0 k connect_kernel) /\
  all_commute (fun s => k <= length s.1 /\ n = length s.1 /\ k <= length s.2) (iterations 0 k connect_kernel).
Proof.
  split.
  - intros i th a Hi Ha. apply lookup_iterations in Hi as [-> Hlt].
    simpl in Ha. rewrite !elem_of_cons, elem_of_nil in Ha.
    intros [so sn] l (H1 & H2 & H3). simpl in *.
    destruct (lookup_lt_is_Some_2 so i) as [v Hv]; [lia|].
    destruct (lookup_lt_is_Some_2 sn i) as [w Hw]; [lia|].
    destruct Ha as [->|[->|[]]]; simpl; rewrite ?Hv, ?Hw;
      eexists _, _; (split; [done|]); simpl; rewrite ?insert_length; done.
  - intros i j ti tj a b Hij Hi Hj Ha Hb.
    apply lookup_iterations in Hi as [-> Hi]. apply lookup_iterations in Hj as [-> Hj].
    simpl in Ha, Hb. rewrite !elem_of_cons, elem_of_nil in Ha, Hb.
    intros [so sn] la lb (H1 & H2 & H3). simpl in *.
    destruct (lookup_lt_is_Some_2 so i) as [v Hv]; [lia|].
    destruct (lookup_lt_is_Some_2 sn i) as [w Hw]; [lia|].
    destruct (lookup_lt_is_Some_2 so j) as [v' Hv']; [lia|].
    destruct (lookup_lt_is_Some_2 sn j) as [w' Hw']; [lia|].
    destruct Ha as [->|[->|[]]], Hb as [->|[->|[]]]; simpl; rewrite ?Hv, ?Hw, ?Hv', ?Hw';
      do 5 eexists; split_and!; try reflexivity; simpl;
      rewrite ?list_lookup_insert_ne by lia; rewrite ?Hv, ?Hw, ?Hv', ?Hw'; try reflexivity;
      by rewrite list_insert_commute by lia.
Qed.

Lemma connect_serial : forall k so sn,
  k <= length so -> k <= length sn ->
  exists so' sn', run_serial (map connect_kernel (seq 0 k)) (so, sn) = Some (so', sn') /\
    length so' = length so /\ length sn' = length sn /\
    (forall j, so' !! j = if decide (j < k) then Some j else so !! j) /\
    (forall j, sn' !! j = if decide (j < k) then Some (j + 1) else sn !! j).
Proof.
  induction k as [|k IH]; intros so sn H1 H2.
  - exists so, sn. split; [reflexivity|]. split; [done|]. split; [done|].
    split; intros j; rewrite decide_False by lia; done.
  - destruct (IH so sn) as (so' & sn' & Hr & Hl1 & Hl2 & Ho & Hn); [lia..|].
    destruct (lookup_lt_is_Some_2 so' k) as [v Hv]; [lia|].
    destruct (lookup_lt_is_Some_2 sn' k) as [w Hw]; [lia|].
    exists (<[k := k]> so'), (<[k := k + 1]> sn').
    split.
    { rewrite seq_S, map_app. simpl.
      rewrite run_serial_app, Hr. simpl. rewrite Hv. simpl. rewrite Hw. done. }
    rewrite !insert_length. split; [done|]. split; [done|].
    split; intros j; (destruct (decide (j = k)) as [->|];
      [rewrite list_lookup_insert by lia; by rewrite decide_True by lia|
       rewrite list_lookup_insert_ne by done; rewrite ?Ho, ?Hn;
       destruct (decide (j < k)), (decide (j < S k)); lia || done]).
Qed.

Lemma connect_iff e k so sn :
  k <= length so -> k <= length sn ->
  exists so' sn', (forall r, exec_result e (iterations 0 k connect_kernel) (so, sn) r <-> r = Some (so', sn')) /\
    length so' = length so /\ length sn' = length sn /\
    (forall j, so' !! j = if decide (j < k) then Some j else so !! j) /\
    (forall j, sn' !! j = if decide (j < k) then Some (j + 1) else sn !! j).
Proof.
  intros H1 H2. destruct (connect_serial k so sn H1 H2) as (so' & sn' & Hr & Hrest).
  exists so', sn'. split; [|done].
  destruct (connect_facts (length so) k) as [Ht Hc].
  assert (run_serial (iterations 0 k connect_kernel) (so, sn) = Some (so', sn')) as Hs.
  { unfold iterations. by rewrite Nat.sub_0_r. }
  intros r. split.
  - intros Hx. apply (exec_result_det _ _ _ _ _ Ht Hc) in Hx; [congruence|]. done.
  - intros ->. by apply exec_result_exists.
Qed.

Definition hx (n : nat) : Qc := (1 / Qc_of_nat n)%Qc.

(** The mesh the generator returns, array by array. *)
Record is_1d_mesh (n : nat) (m : mesh) : Prop := {
  d_nCells : nCells m = n;
  d_nInt : nInternalFaces m = n - 1;
  d_nB : nBoundaryFaces m = 2;
  d_nBs : nBoundaries m = 2;
  d_nF : nFaces m = n + 1;
  d_vol : cellVolumes m = replicate n (hx n);
  d_cc_len : length (cellCentres m) = n;
  d_cc : forall i, i < n -> cellCentres m !! i = Some (Vec ((Qc_of_nat i + half) * hx n) 0 0);
  d_area : faceAreas m = <[n - 1 := Vec (-(1)) 0 0]> (replicate (n + 1) (Vec 1 0 0));
  d_mag : magFaceAreas m = replicate (n + 1) 1%Qc;
  d_fc_len : length (faceCentres m) = n + 1;
  d_fc : forall i, i < n - 1 -> faceCentres m !! i = Some (Vec (Qc_of_nat (i + 1) * hx n) 0 0);
  d_fc_l : faceCentres m !! (n - 1) = Some (Vec 0 0 0);
  d_fc_r : faceCentres m !! n = Some (Vec 1 0 0);
  d_pts : points m = faceCentres m;
  d_own_len : length (faceOwner m) = n + 1;
  d_own : forall i, i < n - 1 -> faceOwner m !! i = Some i;
  d_own_l : faceOwner m !! (n - 1) = Some 0;
  d_own_r : faceOwner m !! n = Some (n - 1);
  d_nei_len : length (faceNeighbour m) = n - 1;
  d_nei : forall i, i < n - 1 -> faceNeighbour m !! i = Some (i + 1);
  d_b : bmesh m = BoundaryMesh [0; n - 1] [Vec 0 0 0; Vec 1 0 0]
          [Vec (half * hx n) 0 0; Vec ((Qc_of_nat (n - 1) + half) * hx n) 0 0]
          [Vec (-(1)) 0 0; Vec 1 0 0] [1; 1]%Qc [Vec (-(1)) 0 0; Vec 1 0 0]
          [Vec (- (half * hx n)) 0 0; Vec (half * hx n) 0 0] [1; 1]%Qc
          [(1 + 1) * Qc_of_nat n; (1 + 1) * Qc_of_nat n]%Qc [0; 1; 2];
}.

Lemma Qc_of_nat_S n : Qc_of_nat (S n) = (Qc_of_nat n + 1)%Qc.
Proof.
  unfold Qc_of_nat. apply Qc_is_canon. simpl. rewrite !Qred_correct.
  rewrite Nat2Z.inj_succ. unfold Z.succ. rewrite inject_Z_plus. reflexivity.
Qed.
Lemma Qc_of_nat_0 : Qc_of_nat 0 = 0%Qc.
Proof. reflexivity. Qed.
Lemma Qc_of_nat_pos n : 0 < n -> (0 < Qc_of_nat n)%Qc.
Proof.
  intros Hn. unfold Qclt, Qc_of_nat. simpl. rewrite !Qred_correct. unfold Qlt. simpl. lia.
Qed.
Lemma Qc_of_nat_nz n : 0 < n -> Qc_of_nat n <> 0%Qc.
Proof. intros Hn Heq. apply Qc_of_nat_pos in Hn. rewrite Heq in Hn. by apply Qclt_not_eq in Hn. Qed.

Lemma half_2 : (half + half = 1)%Qc.
Proof. apply Qc_is_canon. reflexivity. Qed.
Lemma half_pos : (0 < half)%Qc.
Proof. reflexivity. Qed.
Lemma two_half : ((1 + 1) * half = 1)%Qc.
Proof. apply Qc_is_canon. reflexivity. Qed.

Lemma hx_n n : 0 < n -> (Qc_of_nat n * hx n = 1)%Qc.
Proof. intros Hn. unfold hx. field. by apply Qc_of_nat_nz. Qed.
Lemma hx_pos n : 0 < n -> (0 < hx n)%Qc.
Proof.
  intros Hn. unfold hx, Qcdiv. rewrite Qcmult_1_l.
  pose proof (Qc_of_nat_pos n Hn) as Hp. pose proof (Qc_of_nat_nz n Hn) as Hz.
  destruct (Qclt_le_dec 0 (/ Qc_of_nat n)) as [H|H]; [done|exfalso].
  assert (Qc_of_nat n * (/ Qc_of_nat n) <= 0)%Qc as Hx.
  { rewrite <- (Qcmult_0_r (Qc_of_nat n)). rewrite !(Qcmult_comm (Qc_of_nat n)).
    apply Qcmult_le_compat_r; [done|]. by apply Qclt_le_weak. }
  rewrite Qcmult_inv_r in Hx by done. by apply Qcle_not_lt in Hx.
Qed.

Lemma Qcmult_pos a b : (0 < a -> 0 < b -> 0 < a * b)%Qc.
Proof. intros Ha Hb. rewrite <- (Qcmult_0_l b). by apply Qcmult_lt_compat_r. Qed.

Lemma half_inv : (/ half = 1 + 1)%Qc.
Proof. apply Qc_is_canon. reflexivity. Qed.
Lemma half_nz : half <> 0%Qc.
Proof. done. Qed.

Theorem create1D_iff e n ownJunk neiJunk :
  0 < n -> length ownJunk = n + 1 -> length neiJunk = n - 1 ->
  exists m, (forall r, create1DUniformMesh e n ownJunk neiJunk r <-> r = Some m) /\ is_1d_mesh n m.
Proof.
  intros Hn Ho Hne. unfold create1DUniformMesh.
  destruct (decide (n = 0)) as [|_]; [lia|]. cbv zeta. cbn [vx vy vz].
  set (h := ((1 - 0) / Qc_of_nat n)%Qc).
  assert (h = hx n) as Hh by (unfold h, hx; f_equal; ring).
  set (pts0 := <[n := Vec 1 0 0]> (<[n - 1 := Vec 0 0 0]> (replicate (n + 1) (Vec 0 0 0)))).
  assert (length pts0 = n + 1) as Hlp.
  { unfold pts0. by rewrite !insert_length, replicate_length. }
  destruct (rmw_exec_iff (set_x (fun i => 0 + Qc_of_nat (i + 1) * h)%Qc) e 0 (n - 1) pts0)
    as (pts & Hpts & Hptsl & Hptsp); [lia|lia|unfold set_x; eauto|].
  destruct (rmw_exec_iff (set_x (fun i => half * h + h * Qc_of_nat i)%Qc) e 0 n (replicate n (Vec 0 0 0)))
    as (cs & Hcs & Hcsl & Hcsp); [lia|rewrite replicate_length; lia|unfold set_x; eauto|].
  rewrite replicate_length in Hcsl.
  destruct (connect_iff e (n - 1) (<[n := n - 1]> (<[n - 1 := 0]> ownJunk)) neiJunk)
    as (so & sn & Hon & Hsol & Hsnl & Hso & Hsn).
  { rewrite !insert_length. lia. } { lia. }
  rewrite !insert_length in Hsol.
  assert (forall i, i < n -> cs !! i = Some (Vec ((Qc_of_nat i + half) * hx n) 0 0)) as Hc.
  { intros i Hi. rewrite Hcsp, decide_True by lia. rewrite lookup_replicate_2 by lia. simpl.
    unfold set_x. simpl. rewrite Hh. do 2 f_equal. ring. }
  assert (mag_x (Vec (0 - half * hx n) 0 0) = (half * hx n)%Qc) as Hm0.
  { unfold mag_x. simpl. replace (0 - half * hx n)%Qc with (- (half * hx n))%Qc by ring.
    rewrite Qcabs_opp. apply Qcabs_pos. apply Qclt_le_weak, Qcmult_pos; [apply half_pos|by apply hx_pos]. }
  assert ((1 - (Qc_of_nat (n - 1) + half) * hx n) = half * hx n)%Qc as Hd1.
  { rewrite <- (hx_n n Hn) at 1. replace n with (S (n - 1)) at 1 by lia. rewrite Qc_of_nat_S.
    replace 1%Qc with (half + half)%Qc by apply half_2. ring. }
  assert ((1 / (half * hx n)) = (1 + 1) * Qc_of_nat n)%Qc as Hdc.
  { unfold hx. rewrite <- half_inv. field. split; [apply half_nz|by apply Qc_of_nat_nz]. }
  eexists (Mesh pts (replicate n h) cs
      (<[n - 1 := Vec (-(1)) 0 0]> (replicate (n + 1) (Vec 1 0 0))) pts
      (replicate (n + 1) 1%Qc) so sn n (n - 1) 2 2 (n + 1) _).
  split.
  - intros r. rewrite (rbind_iff _ _ pts r) by exact Hpts.
    rewrite (rbind_iff _ _ cs r) by exact Hcs.
    rewrite (rbind_iff _ _ (so, sn) r) by exact Hon. simpl.
    rewrite (Hc 0) by lia. rewrite (Hc (n - 1)) by lia. reflexivity.
  - constructor; simpl; try reflexivity; try lia; try exact Hc.
    + intros i Hi. rewrite Hptsp, decide_True by lia. unfold pts0.
      rewrite !list_lookup_insert_ne by lia. rewrite lookup_replicate_2 by lia. simpl.
      unfold set_x. simpl. rewrite Hh. do 2 f_equal. ring.
    + rewrite Hptsp, decide_False by lia. unfold pts0. rewrite list_lookup_insert_ne by lia.
      rewrite list_lookup_insert; [done|]. rewrite replicate_length. lia.
    + rewrite Hptsp, decide_False by lia. unfold pts0. rewrite list_lookup_insert; [done|].
      rewrite insert_length, replicate_length. lia.
    + intros i Hi. rewrite Hso. by rewrite decide_True by lia.
    + rewrite Hso, decide_False by lia. rewrite list_lookup_insert_ne by lia.
      rewrite list_lookup_insert by lia. done.
    + rewrite Hso, decide_False by lia. rewrite list_lookup_insert; [done|].
      rewrite insert_length. lia.
    + intros i Hi. rewrite Hsn. by rewrite decide_True by lia.
    + rewrite Qc_of_nat_0, Qcplus_0_l. rewrite Hd1, Hm0.
      replace (mag_x (Vec (half * hx n) 0 0)) with (half * hx n)%Qc.
      2: { unfold mag_x. simpl. symmetry. apply Qcabs_pos.
           apply Qclt_le_weak, Qcmult_pos; [apply half_pos|by apply hx_pos]. }
      rewrite Hdc. f_equal. f_equal. f_equal. ring.
Qed.

Section valid1d.
  Context (n : nat) (m : mesh) (Hn : 0 < n) (H : is_1d_mesh n m).

  Lemma d_owner_at f : f < n - 1 -> atn (faceOwner m) f = f.
  Proof. intros Hf. unfold atn. by rewrite (d_own n m H). Qed.
  Lemma d_nei_at f : f < n - 1 -> atn (faceNeighbour m) f = f + 1.
  Proof. intros Hf. unfold atn. by rewrite (d_nei n m H). Qed.
  Lemma d_cc_at c : c < n -> atv (cellCentres m) c = Vec ((Qc_of_nat c + half) * hx n) 0 0.
  Proof. intros Hf. unfold atv. by rewrite (d_cc n m H). Qed.
  Lemma d_area_int f : f < n - 1 -> atv (faceAreas m) f = Vec 1 0 0.
  Proof.
    intros Hf. unfold atv. rewrite (d_area n m H), list_lookup_insert_ne by lia.
    by rewrite lookup_replicate_2 by lia.
  Qed.
  Lemma d_area_l : atv (faceAreas m) (n - 1) = Vec (-(1)) 0 0.
  Proof.
    unfold atv. rewrite (d_area n m H), list_lookup_insert; [done|]. rewrite replicate_length. lia.
  Qed.
  Lemma d_area_r : atv (faceAreas m) n = Vec 1 0 0.
  Proof.
    unfold atv. rewrite (d_area n m H), list_lookup_insert_ne by lia.
    by rewrite lookup_replicate_2 by lia.
  Qed.
  Lemma d_fcc b : b < 2 -> atn (bFaceCells (bmesh m)) b = if decide (b = 0) then 0 else n - 1.
  Proof. intros Hb. rewrite (d_b n m H). destruct b as [|[|]]; [done|done|lia]. Qed.
  Lemma d_vol_at c : c < n -> at0 (cellVolumes m) c = hx n.
  Proof. intros Hc. unfold at0. rewrite (d_vol n m H). by rewrite lookup_replicate_2. Qed.

  Lemma valid_topology_1d : valid_topology m.
  Proof.
    split.
    - by rewrite (d_own_len n m H), (d_nF n m H).
    - by rewrite (d_nei_len n m H), (d_nInt n m H).
    - rewrite (d_nF n m H), (d_nInt n m H), (d_nB n m H). lia.
    - by rewrite (d_vol n m H), replicate_length, (d_nCells n m H).
    - by rewrite (d_b n m H), (d_nB n m H).
    - rewrite (d_nInt n m H). intros f Hf. rewrite d_owner_at, d_nei_at by done. lia.
    - rewrite (d_nInt n m H), (d_nCells n m H). intros f Hf. rewrite d_nei_at by done. lia.
    - rewrite (d_nB n m H), (d_nCells n m H). intros b Hb. rewrite d_fcc by done.
      destruct (decide (b = 0)); lia.
    - rewrite (d_nB n m H), (d_nInt n m H). intros b Hb. rewrite d_fcc by done. unfold atn.
      destruct (decide (b = 0)) as [->|].
      + by rewrite Nat.add_0_r, (d_own_l n m H).
      + assert (b = 1) by lia. subst b. replace (n - 1 + 1) with n by lia.
        by rewrite (d_own_r n m H).
    - rewrite (d_nCells n m H). intros c Hc. rewrite d_vol_at by done. by apply hx_pos.
  Qed.

  Lemma d_mag_at f : f < n + 1 -> at0 (magFaceAreas m) f = 1%Qc.
  Proof. intros Hf. unfold at0. rewrite (d_mag n m H). by rewrite lookup_replicate_2. Qed.

  Lemma d_fc_at b : b < 2 -> atv (faceCentres m) (n - 1 + b) = if decide (b = 0) then Vec 0 0 0 else Vec 1 0 0.
  Proof.
    intros Hb. unfold atv. destruct (decide (b = 0)) as [->|].
    - by rewrite Nat.add_0_r, (d_fc_l n m H).
    - assert (b = 1) by lia. subst b. replace (n - 1 + 1) with n by lia. by rewrite (d_fc_r n m H).
  Qed.
  Lemma d_area_b b : b < 2 -> atv (faceAreas m) (n - 1 + b) = if decide (b = 0) then Vec (-(1)) 0 0 else Vec 1 0 0.
  Proof.
    intros Hb. destruct (decide (b = 0)) as [->|].
    - by rewrite Nat.add_0_r, d_area_l.
    - assert (b = 1) by lia. subst b. replace (n - 1 + 1) with n by lia. by rewrite d_area_r.
  Qed.

  Lemma last_gap : (1 - (Qc_of_nat (n - 1) + half) * hx n = half * hx n)%Qc.
  Proof.
    rewrite <- (hx_n n Hn) at 1. replace n with (S (n - 1)) at 1 by lia. rewrite Qc_of_nat_S.
    replace 1%Qc with (half + half)%Qc by apply half_2. ring.
  Qed.

  Lemma closed_1d c : c < n -> outward_area m c = vec_zero.
  Proof.
    intros Hc. unfold outward_area, cell_balance. rewrite (d_nInt n m H), (d_nB n m H).
    assert (vsum_over (n - 1) (fun f => if decide (atn (faceOwner m) f = c) then atv (faceAreas m) f else vzero)
      = if decide (c < n - 1) then Vec 1 0 0 else vzero) as ->.
    { destruct (decide (c < n - 1)) as [Hlt|Hge].
      - rewrite <- (vsum_over_single (n - 1) c (Vec 1 0 0)) by done.
        apply vsum_over_ext. intros f Hf. rewrite d_owner_at by done.
        destruct (decide (f = c)); [|done]. by apply d_area_int.
      - apply vsum_over_zero. intros f Hf. rewrite d_owner_at, decide_False by lia. done. }
    assert (vsum_over (n - 1) (fun f => if decide (atn (faceNeighbour m) f = c) then atv (faceAreas m) f else vzero)
      = if decide (0 < c) then Vec 1 0 0 else vzero) as ->.
    { destruct (decide (0 < c)) as [Hlt|Hge].
      - rewrite <- (vsum_over_single (n - 1) (c - 1) (Vec 1 0 0)) by lia.
        apply vsum_over_ext. intros f Hf. rewrite d_nei_at by done.
        destruct (decide (f + 1 = c)), (decide (f = c - 1)); try lia; [|done]. by apply d_area_int.
      - apply vsum_over_zero. intros f Hf. rewrite d_nei_at, decide_False by lia. done. }
    unfold vsum_over. simpl. rewrite !d_fcc, !d_area_b by lia. simpl.
    destruct (decide (c < n - 1)), (decide (0 < c)), (decide (0 = c)), (decide (n - 1 = c)); try lia;
      unfold vsub; simpl; unfold vec_add, vec_neg, vec_zero; simpl; f_equal; ring.
  Qed.

  Lemma valid_geometry_1d : valid_geometry m.
  Proof.
    split.
    - by rewrite (d_area n m H), insert_length, replicate_length, (d_nF n m H).
    - by rewrite (d_mag n m H), replicate_length, (d_nF n m H).
    - by rewrite (d_fc_len n m H), (d_nF n m H).
    - by rewrite (d_cc_len n m H), (d_nCells n m H).
    - rewrite (d_nF n m H). intros f Hf. rewrite d_mag_at by done. split; [done|].
      destruct (decide (f < n - 1)).
      { rewrite d_area_int by done. by apply Qc_is_canon. }
      destruct (decide (f = n - 1)) as [->|].
      { rewrite d_area_l. by apply Qc_is_canon. }
      replace f with n by lia. rewrite d_area_r. by apply Qc_is_canon.
    - rewrite (d_nInt n m H). intros f Hf.
      rewrite d_area_int, d_owner_at, d_nei_at, !d_cc_at by lia.
      replace (vec_dot _ _) with (hx n); [by apply hx_pos|].
      unfold vec_dot. simpl. rewrite Nat.add_1_r, Qc_of_nat_S. ring.
    - rewrite (d_nInt n m H), (d_nB n m H). intros b Hb.
      rewrite d_area_b, d_fc_at, d_fcc by done.
      pose proof (Qcmult_pos _ _ half_pos (hx_pos n Hn)) as Hpos.
      destruct (decide (b = 0)).
      + rewrite d_cc_at by lia. unfold vec_dot; simpl. rewrite Qc_of_nat_0.
        replace (_ + _)%Qc with (half * hx n)%Qc by ring. done.
      + rewrite d_cc_at by lia. unfold vec_dot; simpl. rewrite last_gap.
        replace (_ + _)%Qc with (half * hx n)%Qc by ring. done.
    - rewrite (d_nCells n m H). apply closed_1d.
  Qed.

  Lemma valid_boundary_1d : valid_boundary m.
  Proof.
    pose proof (Qcmult_pos _ _ half_pos (hx_pos n Hn)) as Hpos.
    split.
    - intros k. rewrite (d_nB n m H), (d_b n m H). intros ->. done.
    - rewrite (d_nB n m H), (d_nInt n m H). intros b Hb. rewrite d_fc_at by done.
      rewrite (d_b n m H). destruct b as [|[|]]; [done|done|lia].
    - rewrite (d_nB n m H), (d_nInt n m H). intros b Hb. rewrite d_area_b by done.
      rewrite (d_b n m H). destruct b as [|[|]]; [done|done|lia].
    - rewrite (d_nB n m H), (d_nInt n m H). intros b Hb. rewrite d_mag_at by lia.
      rewrite (d_b n m H). destruct b as [|[|]]; [done|done|lia].
    - rewrite (d_nB n m H), (d_b n m H). intros b Hb.
      destruct b as [|[|]]; [| |lia]; unfold atv, at0, vec_scale; simpl; f_equal; ring.
    - rewrite (d_nB n m H), (d_nInt n m H). intros b Hb. rewrite d_fc_at, d_fcc by done.
      destruct (decide (b = 0)) as [->|].
      + rewrite d_cc_at by lia. rewrite (d_b n m H). unfold atv, vec_sub. simpl.
        rewrite Qc_of_nat_0. f_equal; ring.
      + assert (b = 1) by lia. subst b. rewrite d_cc_at by lia.
        rewrite (d_b n m H). unfold atv, vec_sub. simpl. rewrite last_gap. f_equal; ring.
    - rewrite (d_nB n m H), (d_b n m H). intros b Hb.
      assert (0 < (1 + 1) * Qc_of_nat n)%Qc as Hp2.
      { apply Qcmult_pos; [done|]. by apply Qc_of_nat_pos. }
      assert (((1 + 1) * Qc_of_nat n) * (half * hx n) = 1)%Qc as Hinv.
      { transitivity (((1 + 1) * half) * (Qc_of_nat n * hx n))%Qc; [ring|].
        rewrite hx_n by done. rewrite two_half. ring. }
      destruct b as [|[|]]; [| |lia]; unfold at0, atv, vec_dot; simpl; (split; [done|]);
        (transitivity ((((1 + 1) * Qc_of_nat n) * (half * hx n)) *
           (((1 + 1) * Qc_of_nat n) * (half * hx n)))%Qc; [ring|]); rewrite Hinv; ring.
    - rewrite (d_nB n m H), (d_b n m H). intros b Hb. destruct b as [|[|]]; [done|done|lia].
    - by rewrite (d_b n m H), (d_nBs n m H).
    - by rewrite (d_b n m H).
    - by rewrite (d_b n m H), (d_nBs n m H), (d_nB n m H).
    - rewrite (d_b n m H). simpl. intros i s t.
      destruct i as [|[|[|]]]; simpl; intros; simplify_eq; lia.
  Qed.

  Lemma cn_1d : boundary_cn_is_cell_centre m.
  Proof.
    unfold boundary_cn_is_cell_centre. rewrite (d_nB n m H). intros b Hb. rewrite d_fcc by done.
    destruct (decide (b = 0)) as [->|].
    - rewrite d_cc_at by lia. rewrite (d_b n m H). unfold atv. simpl. rewrite Qc_of_nat_0. f_equal; ring.
    - assert (b = 1) by lia. subst b. rewrite d_cc_at by lia. by rewrite (d_b n m H).
  Qed.

  Lemma upper_triangular_1d : upper_triangular m.
  Proof.
    intros f g Hfg Hg. rewrite (d_nInt n m H) in Hg. left. rewrite !d_owner_at by lia. done.
  Qed.
End valid1d.

Lemma single_cell_valid :
  valid_topology createSingleCellMesh /\ valid_geometry createSingleCellMesh /\
  valid_boundary createSingleCellMesh /\ upper_triangular createSingleCellMesh.
Proof.
  assert (forall P : nat -> Prop, P 0 -> P 1 -> P 2 -> P 3 -> forall b, b < 4 -> P b) as H4.
  { intros P ???? b Hb. destruct b as [|[|[|[|]]]]; [done..|lia]. }
  split; [|split; [|split]].
  - split; simpl.
    all: first
      [ done
      | intros f Hf; lia
      | apply H4; first [done | unfold atn; simpl; lia
                        | split; [done|]; by apply Qc_is_canon
                        | vm_compute; f_equal; by apply Qc_is_canon ]
      | intros [|c] Hc; [first [done | vm_compute; f_equal; by apply Qc_is_canon]|lia]
      | intros k ->; done
      | intros i s t; destruct i as [|[|[|[|[|]]]]]; simpl; intros; simplify_eq; lia ].
  - split; simpl.
    all: first
      [ done
      | intros f Hf; lia
      | apply H4; first [done | unfold atn; simpl; lia
                        | split; [done|]; by apply Qc_is_canon
                        | vm_compute; f_equal; by apply Qc_is_canon ]
      | intros [|c] Hc; [first [done | vm_compute; f_equal; by apply Qc_is_canon]|lia]
      | intros k ->; done
      | intros i s t; destruct i as [|[|[|[|[|]]]]]; simpl; intros; simplify_eq; lia ].
  - split; simpl.
    all: first
      [ done
      | intros f Hf; lia
      | apply H4; first [done | unfold atn; simpl; lia
                        | split; [done|]; by apply Qc_is_canon
                        | vm_compute; f_equal; by apply Qc_is_canon ]
      | intros [|c] Hc; [first [done | vm_compute; f_equal; by apply Qc_is_canon]|lia]
      | intros k ->; done
      | intros i s t; destruct i as [|[|[|[|[|]]]]]; simpl; intros; simplify_eq; lia ].
  - intros f g Hfg Hg. simpl in Hg. lia.
Qed.

Lemma single_cell_cn_refuted : ~ boundary_cn_is_cell_centre createSingleCellMesh.
Proof. intros H. specialize (H 0 ltac:(simpl; lia)). by vm_compute in H. Qed.

Lemma create1D_zero_ub e ownJunk neiJunk r : create1DUniformMesh e 0 ownJunk neiJunk r <-> r = None.
Proof. unfold create1DUniformMesh. by rewrite decide_True. Qed.

Lemma vsum_replicate (n : nat) (x : Qc) : vsum (replicate n x) = (Qc_of_nat n * x)%Qc.
Proof.
  induction n as [|n IH]; simpl; [rewrite Qc_of_nat_0; ring|].
  rewrite IH, Qc_of_nat_S. ring.
Qed.

Theorem create1D_spec e n ownJunk neiJunk r :
  1 <= n -> length ownJunk = n + 1 -> length neiJunk = n - 1 ->
  create1DUniformMesh e n ownJunk neiJunk r ->
  exists m, r = Some m /\
    nCells m = n /\ nInternalFaces m = n - 1 /\ nBoundaryFaces m = 2 /\ nBoundaries m = 2 /\
    valid_topology m /\ valid_geometry m /\ valid_boundary m /\
    boundary_cn_is_cell_centre m /\ upper_triangular m /\
    (forall c, c < n -> cellVolumes m !! c = Some (1 / Qc_of_nat n)%Qc) /\
    vsum (cellVolumes m) = 1%Qc /\
    (forall c, c < n -> cellCentres m !! c = Some (Vec ((Qc_of_nat c + half) / Qc_of_nat n) 0 0)) /\
    (forall f, f < n - 1 ->
       faceOwner m !! f = Some f /\ faceNeighbour m !! f = Some (f + 1) /\
       faceAreas m !! f = Some (Vec 1 0 0) /\
       faceCentres m !! f = Some (Vec (Qc_of_nat (f + 1) / Qc_of_nat n) 0 0)) /\
    bFaceCells (bmesh m) = [0; n - 1] /\
    bSf (bmesh m) = [Vec (-(1)) 0 0; Vec 1 0 0] /\
    bCf (bmesh m) = [Vec 0 0 0; Vec 1 0 0].
Proof.
  intros Hn Ho Hne Hr. destruct (create1D_iff e n ownJunk neiJunk) as (m & Hiff & H); [lia|done|done|].
  exists m. split; [by apply Hiff|].
  assert (forall x, (x * hx n = x / Qc_of_nat n)%Qc) as Hx.
  { intros x. unfold hx. field. apply Qc_of_nat_nz. lia. }
  split_and!.
  - apply (d_nCells n m H).
  - apply (d_nInt n m H).
  - apply (d_nB n m H).
  - apply (d_nBs n m H).
  - by eapply valid_topology_1d.
  - by eapply valid_geometry_1d.
  - by eapply valid_boundary_1d.
  - by eapply cn_1d.
  - by eapply upper_triangular_1d.
  - intros c Hc. rewrite (d_vol n m H). by rewrite lookup_replicate_2.
  - rewrite (d_vol n m H), vsum_replicate. by apply hx_n.
  - intros c Hc. rewrite (d_cc n m H) by done. by rewrite Hx.
  - intros f Hf. split_and!.
    + by apply (d_own n m H).
    + by apply (d_nei n m H).
    + rewrite (d_area n m H), list_lookup_insert_ne by lia. by rewrite lookup_replicate_2 by lia.
    + rewrite (d_fc n m H) by done. by rewrite Hx.
  - by rewrite (d_b n m H).
  - by rewrite (d_b n m H).
  - by rewrite (d_b n m H).
Qed.

Theorem create1D_defined e n ownJunk neiJunk :
  1 <= n -> length ownJunk = n + 1 -> length neiJunk = n - 1 ->
  exists m, create1DUniformMesh e n ownJunk neiJunk (Some m).
Proof.
  intros Hn Ho Hne. destruct (create1D_iff e n ownJunk neiJunk) as (m & Hiff & H); [lia|done|done|].
  exists m. by apply Hiff.
Qed.

(** The slices of two patches never share an index. *)
Lemma slices_disjoint (offs : list nat) i j si ti sj tj k :
  (forall i s t, offs !! i = Some s -> offs !! (i + 1) = Some t -> s <= t) ->
  i <> j ->
  offs !! i = Some si -> offs !! (i + 1) = Some ti ->
  offs !! j = Some sj -> offs !! (j + 1) = Some tj ->
  si <= k < ti -> sj <= k < tj -> False.
Proof.
  intros Hm Hij Hi Hi1 Hj Hj1 Hk1 Hk2.
  destruct (decide (i < j)).
  - assert (ti <= sj) by (eapply (offsets_mono offs Hm j (i + 1)); eauto; lia). lia.
  - assert (tj <= si) by (eapply (offsets_mono offs Hm i (j + 1)); eauto; lia). lia.
Qed.

Lemma patch_accessors m i s t :
  valid_boundary m ->
  length (bFaceCells (bmesh m)) = nBoundaryFaces m ->
  bOffset (bmesh m) !! i = Some s -> bOffset (bmesh m) !! (i + 1) = Some t ->
  patch_faceCells (bmesh m) i = Ok (take (t - s) (drop s (bFaceCells (bmesh m)))) /\
  patch_cf (bmesh m) i = Ok (take (t - s) (drop s (bCf (bmesh m)))) /\
  patch_cn (bmesh m) i = Ok (take (t - s) (drop s (bCn (bmesh m)))) /\
  patch_sf (bmesh m) i = Ok (take (t - s) (drop s (bSf (bmesh m)))) /\
  patch_magSf (bmesh m) i = Ok (take (t - s) (drop s (bMagSf (bmesh m)))) /\
  patch_nf (bmesh m) i = Ok (take (t - s) (drop s (bNf (bmesh m)))) /\
  patch_delta (bmesh m) i = Ok (take (t - s) (drop s (bDelta (bmesh m)))) /\
  patch_weights (bmesh m) i = Ok (take (t - s) (drop s (bWeights (bmesh m)))) /\
  patch_deltaCoeffs (bmesh m) i = Ok (take (t - s) (drop s (bDeltaCoeffs (bmesh m)))).
Proof.
  intros Hv Hfc Hs Ht.
  assert (s <= t) by (eapply (vb_off_mono _ Hv); eauto).
  assert (t <= nBoundaryFaces m).
  { apply (offsets_mono _ (vb_off_mono _ Hv) (nBoundaries m) (i + 1) t); [|done|apply (vb_off_end _ Hv)].
    apply lookup_lt_Some in Ht. rewrite (vb_off_len _ Hv) in Ht. lia. }
  destruct (vb_len _ Hv _ eq_refl) as (L1 & L2 & L3 & L4 & L5 & L6 & L7 & L8).
  unfold patch_faceCells, patch_cf, patch_cn, patch_sf, patch_magSf, patch_nf, patch_delta,
    patch_weights, patch_deltaCoeffs, extractSubSpan.
  rewrite Hs, Ht. rewrite !bool_decide_true by lia. done.
Qed.
