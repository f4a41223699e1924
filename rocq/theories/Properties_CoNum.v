(** C50: the Courant number. *)
From Coq Require Import QArith.Qcabs.
From Verif Require Import Base Par ParProofs Exec ExecProofs Value Kernel KernelProofs Mesh MeshSpec FV FVSpec FVProofs Reduce ReduceProofs
  Dict Boundary BoundaryProofs ExampleMesh Properties_Assembly Properties_Boundary CoNum.

(** * Specification *)
(** Sum of |flux| over all faces of cell [c]: those it owns, those it is the
    neighbour of, and its boundary faces. *)
Definition flux_through (m : mesh) (flux : list Qc) (c : nat) : Qc :=
  (vsum_over (nInternalFaces m) (fun f => if decide (atn (faceOwner m) f = c) then Qcabs (at0 flux f) else 0) +
   vsum_over (nInternalFaces m) (fun f => if decide (atn (faceNeighbour m) f = c) then Qcabs (at0 flux f) else 0) +
   vsum_over (nBoundaryFaces m) (fun b => if decide (atn (bFaceCells (bmesh m)) b = c) then Qcabs (at0 flux (nInternalFaces m + b)) else 0))%Qc.
(** Courant number of cell [c]. *)
Definition cell_courant (m : mesh) (flux : list Qc) (dt : Qc) (c : nat) : Qc :=
  (dt / Q2Qc 2 * (flux_through m flux c / at0 (cellVolumes m) c))%Qc.
(** Domain average. *)
Definition mean_courant (m : mesh) (flux : list Qc) (dt : Qc) : Qc :=
  (dt / Q2Qc 2 * (vsum_over (nCells m) (flux_through m flux) / vsum_over (nCells m) (at0 (cellVolumes m))))%Qc.
Definition is_largest (n : nat) (f : nat -> Qc) (x : Qc) : Prop :=
  (forall c, c < n -> (f c <= x)%Qc) /\ exists c, c < n /\ x = f c.

(** * Proofs *)
Lemma root_abs f : root_of_square f = Qcabs f.
Proof.
  unfold root_of_square. destruct (Qclt_le_dec f 0) as [H|H]; symmetry.
  - apply Qcabs_neg. by apply Qclt_le_weak.
  - by apply Qcabs_pos.
Qed.
(** [root_of_square f] is the square root of f*f. *)
Lemma root_of_square_sqrt f : (0 <= root_of_square f /\ root_of_square f * root_of_square f = f * f)%Qc.
Proof.
  unfold root_of_square. destruct (Qclt_le_dec f 0) as [H|H]; (split; [|ring || done]); [|done].
  apply Qclt_le_weak in H. apply Qcopp_le_compat in H. by replace (- 0)%Qc with 0%Qc in H by ring.
Qed.

Lemma qmax_spec a b : (a <= qmax a b)%Qc /\ (b <= qmax a b)%Qc /\ (qmax a b = a \/ qmax a b = b).
Proof.
  unfold qmax. destruct (Qclt_le_dec a b) as [H|H].
  - split; [by apply Qclt_le_weak|]. split; [apply Qcle_refl|by right].
  - split; [apply Qcle_refl|]. split; [done|by left].
Qed.

Lemma fold_max f is : forall a, let x := fold_left (fun acc i => reduce_kernel qmax f i acc) is a in
  (a <= x)%Qc /\ (forall i, i ∈ is -> (f i <= x)%Qc) /\ (x = a \/ exists i, i ∈ is /\ x = f i).
Proof.
  induction is as [|i is IH]; intros a; simpl.
  { split; [apply Qcle_refl|]. split; [|by left]. intros i Hi. by apply elem_of_nil in Hi. }
  destruct (qmax_spec a (f i)) as (H1 & H2 & H3).
  destruct (IH (reduce_kernel qmax f i a)) as (I1 & I2 & I3).
  assert (Ek : reduce_kernel qmax f i a = qmax a (f i)) by done. rewrite Ek in *.
  split; [by eapply Qcle_trans|]. split.
  - intros j Hj. apply elem_of_cons in Hj as [->|Hj]; [by eapply Qcle_trans|by apply I2].
  - destruct I3 as [I3|(j & Hj & I3)]; [|right; exists j; split; [by constructor|done]].
    destruct H3 as [H3|H3]; [left; congruence|]. right. exists i. split; [by constructor|congruence].
Qed.

Lemma jeval_max lowest f t : let x := jeval qmax lowest f t in
  (lowest <= x)%Qc /\ (forall i, i ∈ jindices t -> (f i <= x)%Qc) /\ (x = lowest \/ exists i, i ∈ jindices t /\ x = f i).
Proof.
  induction t as [is|l IHl r IHr]; simpl; [apply fold_max|].
  destruct IHl as (L1 & L2 & L3), IHr as (R1 & R2 & R3).
  destruct (qmax_spec (jeval qmax lowest f l) (jeval qmax lowest f r)) as (H1 & H2 & H3).
  split; [by eapply Qcle_trans|]. split.
  - intros i Hi. apply elem_of_app in Hi as [Hi|Hi]; [apply (Qcle_trans _ _ _ (L2 i Hi)), H1|apply (Qcle_trans _ _ _ (R2 i Hi)), H2].
  - destruct H3 as [-> | ->].
    + destruct L3 as [->|(i & Hi & ->)]; [by left|]. right. exists i. split; [|done]. apply elem_of_app. by left.
    + destruct R3 as [->|(i & Hi & ->)]; [by left|]. right. exists i. split; [|done]. apply elem_of_app. by right.
Qed.

(** Largest of non-negative contributions, whatever the executor. *)
Lemma reduce_largest lowest f e n x : (lowest <= 0)%Qc -> 0 < n -> (forall c, c < n -> (0 <= f c)%Qc) ->
  parallelReduce qmax lowest f e 0 n 0%Qc x -> is_largest n f x.
Proof.
  intros Hlow Hn Hpos Hr.
  assert (Hx : exists a, (a <= 0)%Qc /\ (forall i, i < n -> (f i <= x)%Qc) /\ (x = a \/ exists i, i < n /\ x = f i)).
  { assert (Hk : reduce_kokkos qmax lowest f 0 n x -> exists a, (a <= 0)%Qc /\ (forall i, i < n -> (f i <= x)%Qc) /\ (x = a \/ exists i, i < n /\ x = f i)).
    { intros (t & Ht & ->). exists lowest. split; [done|]. destruct (jeval_max lowest f t) as (_ & H2 & H3). rewrite Nat.sub_0_r in Ht. split.
      - intros i Hi. apply H2. rewrite Ht. apply elem_of_seq. lia.
      - destruct H3 as [H3|(i & Hi & H3)]; [by left|]. right. exists i. split; [|done]. rewrite Ht in Hi. apply elem_of_seq in Hi. lia. }
    destruct e; [|by apply Hk|by apply Hk]. simpl in Hr. subst x. unfold reduce_serial. rewrite Nat.sub_0_r.
    exists 0%Qc. split; [apply Qcle_refl|]. destruct (fold_max f (seq 0 n) 0%Qc) as (_ & H2 & H3). split.
    - intros i Hi. apply H2. apply elem_of_seq. lia.
    - destruct H3 as [H3|(i & Hi & H3)]; [by left|]. right. exists i. split; [|done]. apply elem_of_seq in Hi. lia. }
  destruct Hx as (a & Ha & H2 & H3). split; [done|]. destruct H3 as [->|H3]; [|done].
  exists 0. split; [done|]. apply Qcle_antisym; [|by apply H2]. eapply Qcle_trans; [done|]. by apply Hpos.
Qed.
Lemma reduce_max_exists lowest f e n : exists x, parallelReduce qmax lowest f e 0 n 0%Qc x.
Proof.
  destruct e; [by eexists| |]; exists (jeval qmax lowest f (Piece (seq 0 (n - 0)))); by exists (Piece (seq 0 (n - 0))).
Qed.
Lemma is_largest_unique n f x y : is_largest n f x -> is_largest n f y -> x = y.
Proof. intros [Hx (c & Hc & ->)] [Hy (d & Hd & ->)]. apply Qcle_antisym; auto. Qed.

Lemma reduce_sum f e n x : parallelReduce Qcplus 0%Qc f e 0 n 0%Qc x <-> x = vsum_over n f.
Proof.
  assert (Hs : forall is a, fold_left (fun acc i => reduce_kernel Qcplus f i acc) is a = (a + vsum (map f is))%Qc).
  { induction is as [|i is IH]; intros a; simpl; [by rewrite Qcplus_0_r|]. rewrite IH. unfold reduce_kernel. change (@vadd Qc _) with Qcplus. ring. }
  assert (Hser : reduce_serial Qcplus f 0 n 0%Qc = vsum_over n f).
  { unfold reduce_serial. rewrite Hs, Nat.sub_0_r. unfold vsum_over. apply Qcplus_0_l. }
  assert (Hk : reduce_kokkos Qcplus 0%Qc f 0 n x <-> x = vsum_over n f).
  { split.
    - intros Hr. apply kokkos_serial in Hr; [congruence|intros; ring|intros; ring|intros; ring].
    - intros ->. rewrite <- Hser. apply kokkos_exists. }
  destruct e; simpl; [|done|done]. by rewrite Hser.
Qed.

Section proof.
  Context (m : mesh) (Hm : valid_topology m) (flux : list Qc) (Hflux : length flux = nFaces m).

  Lemma flux_nonneg c : (0 <= flux_through m flux c)%Qc.
  Proof using.
    assert (H : forall n g, (forall i, 0 <= g i)%Qc -> (0 <= vsum_over n g)%Qc).
    { induction n as [|n IH]; intros g Hg; [rewrite vsum_over_0; apply Qcle_refl|]. rewrite vsum_over_S.
      replace 0%Qc with (0 + 0)%Qc by ring. apply Qcplus_le_compat; auto. }
    unfold flux_through. replace 0%Qc with (0 + 0 + 0)%Qc at 1 by ring.
    repeat apply Qcplus_le_compat; apply H; intros i; (destruct (decide _); [apply Qcabs_nonneg|apply Qcle_refl]).
  Qed.

  Lemma accumulated e junk : length junk = nCells m -> exists volPhi, length volPhi = nCells m /\
    (forall r, co_accumulate e m flux junk r <-> r = Some [volPhi]) /\
    forall c, c < nCells m -> volPhi !! c = Some (flux_through m flux c).
  Proof using Hm Hflux.
    intros Hj. destruct (set_pass e 0 (length junk) co_fill_kernel (fun _ => 0%Qc) junk) as (z & Hz & Hlz & Hz0 & _); [lia|lia|done|].
    destruct (face_accumulate m Hm e (co_internal_kernel m flux) (co_boundary_kernel m flux)
      (fun f => Qcabs (at0 flux f)) (fun f => Qcabs (at0 flux f)) (fun b => Qcabs (at0 flux (nInternalFaces m + b))) z)
      as (v & Hl & Hq & Hv); [lia| | |].
    - intros f Hf. unfold co_internal_kernel. rewrite (lookup_at0 flux f) by (rewrite Hflux, (vt_faces m Hm); lia). simpl.
      rewrite owner_lookup by done. simpl. rewrite nei_lookup by done. simpl. rewrite root_abs. eexists _, _. split; [done|].
      split; (split; [done|]; split; [done|]; split; [done|by right]).
    - intros b Hb. unfold co_boundary_kernel. rewrite Nat.add_comm, Nat.add_sub, Nat.add_comm.
      rewrite fc_lookup by done. simpl. rewrite (lookup_at0 flux (nInternalFaces m + b)) by (rewrite Hflux, (vt_faces m Hm); lia). simpl.
      rewrite root_abs. eexists _. split; [done|]. split; [done|]. split; [done|]. split; [done|by right].
    - exists v. split; [done|]. split.
      + intros r. unfold co_accumulate. rewrite (pseq_iff _ _ [junk] [z] r) by done.
        rewrite Hflux, (vt_faces m Hm).
        specialize (Hq (fun mm r => r = Some mm) r). rewrite <- Hq.
        destruct (acc_pass e 0 (nInternalFaces m) (co_internal_kernel m flux) (fun i => default [] (co_internal_kernel m flux i)) z)
          as (z1 & Hz1 & _ & _); [lia| |].
        { intros f Hf. unfold co_internal_kernel. rewrite (lookup_at0 flux f) by (rewrite Hflux, (vt_faces m Hm); lia). simpl.
          rewrite owner_lookup by (done || lia). simpl. rewrite nei_lookup by (done || lia). simpl. split; [done|].
          constructor; [|constructor; [|done]]; eexists; (split; [done|]; split; [|by split; [|right]]).
          - rewrite Hlz, Hj. apply owner_lt; [done|lia].
          - rewrite Hlz, Hj. apply vt_nei; [done|lia]. }
        rewrite !(pseq_iff _ _ [z] [z1] _) by done.
        unfold pseq. split.
        * intros Hr. destruct r as [mm|]; [right; by exists mm|left; by split].
        * intros [[Hr ->]|(mm & Hr & ->)]; done.
      + intros c Hc. rewrite Hv by done. f_equal. unfold atV. rewrite Hz0 by lia. simpl.
        unfold flux_through. change (@vadd Qc _) with Qcplus. change (@vzero Qc _) with 0%Qc. ring.
  Qed.
End proof.

Definition half_dt (dt : Qc) : Qc := (dt / Q2Qc 2)%Qc.

(** computeCoNum always returns, for every executor and schedule and whatever
    the uninitialised memory held, the largest cell Courant number (and logs the
    mean one). *)
Theorem C50_courant : forall m lowest flux dt, valid_topology m -> offsets_ok m -> length flux = nFaces m ->
  0 < nCells m -> (0 <= dt)%Qc -> (lowest < 0)%Qc ->
  exists co, is_largest (nCells m) (cell_courant m flux dt) co /\ (0 <= co)%Qc /\
    forall e junk bv br bf bg, length junk = nCells m ->
      forall o, computeCoNum lowest e m flux dt junk bv br bf bg o <-> o = Ok (co, mean_courant m flux dt).
Proof.
  intros m lowest flux dt Hm Ho Hflux Hn Hdt Hlow.
  destruct (C43_calculated m Ho) as (ps & _ & _ & Hbcs & _ & _ & Hnop).
  set (f := fun c => (flux_through m flux c / at0 (cellVolumes m) c)%Qc).
  assert (Hf : forall c, c < nCells m -> (0 <= f c)%Qc).
  { intros c Hc. unfold f, Qcdiv. replace 0%Qc with (0 * / at0 (cellVolumes m) c)%Qc by ring.
    apply Qcmult_le_compat_r; [apply flux_nonneg|]. pose proof (vt_vol m Hm c Hc) as Hv.
    apply Qclt_le_weak. destruct (Qclt_le_dec 0 (/ at0 (cellVolumes m) c)) as [|Hle]; [done|exfalso].
    apply (Qcmult_le_compat_r _ _ (at0 (cellVolumes m) c)) in Hle; [|by apply Qclt_le_weak].
    rewrite Qcmult_0_l, Qcmult_comm, Qcmult_inv_r in Hle; [by apply Hle|].
    intros E. rewrite E in Hv. by apply (Qclt_not_eq _ _ Hv). }
  destruct (reduce_max_exists lowest f SerialExecutor (nCells m)) as (mx & Hmx).
  apply reduce_largest in Hmx; [|by apply Qclt_le_weak|done|done].
  assert (Hdt2 : (0 <= dt / Q2Qc 2)%Qc).
  { unfold Qcdiv. replace 0%Qc with (0 * / Q2Qc 2)%Qc by ring. apply Qcmult_le_compat_r; [done|]. apply Qclt_le_weak. reflexivity. }
  exists (dt / Q2Qc 2 * mx)%Qc.
  assert (Hlg : is_largest (nCells m) (cell_courant m flux dt) (dt / Q2Qc 2 * mx)%Qc).
  { destruct Hmx as [H1 (c & Hc & ->)]. split; [|by exists c]. intros d Hd. unfold cell_courant. fold (f d).
    rewrite (Qcmult_comm (dt / Q2Qc 2) (f d)), (Qcmult_comm (dt / Q2Qc 2) (f c)). apply Qcmult_le_compat_r; [by apply H1|done]. }
  split; [done|]. split.
  { destruct Hmx as [H1 (c & Hc & ->)]. replace 0%Qc with (0 * f c)%Qc by ring. apply Qcmult_le_compat_r; [done|by apply Hf]. }
  intros e junk bv br bf bg Hj o. unfold computeCoNum. rewrite Hbcs.
  destruct (accumulated m Hm flux Hflux e junk Hj) as (vp & Hl & Hacc & Hvp).
  assert (Hat : forall c, c < nCells m -> default 0%Qc (vp !! c) = flux_through m flux c).
  { intros c Hc. by rewrite Hvp. }
  assert (Hred : forall o, co_reduce lowest e m vp dt o <-> o = Ok ((dt / Q2Qc 2 * mx)%Qc, mean_courant m flux dt)).
  { intros o'. unfold co_reduce. rewrite decide_True by (rewrite Hl, (vt_vol_len m Hm); lia).
    assert (Ehalf : forall x y, (x * (1 / (1 + 1)) * y = y / Q2Qc 2 * x)%Qc).
    { intros x y. replace (1 + 1)%Qc with (Q2Qc 2) by (apply Qc_is_canon; reflexivity). unfold Qcdiv. ring. }
    assert (Emax : forall a, parallelReduce qmax lowest (fun c => (default 0 (vp !! c) / default 0 (cellVolumes m !! c))%Qc) e 0 (nCells m) 0%Qc a -> a = mx).
    { intros a Ha. assert (Hext : forall c, c < nCells m -> (default 0 (vp !! c) / default 0 (cellVolumes m !! c))%Qc = f c).
      { intros c Hc. by rewrite Hat. }
      apply reduce_largest in Ha; [|by apply Qclt_le_weak|done|intros c Hc; rewrite Hext by done; by apply Hf].
      apply (is_largest_unique (nCells m) f); [|done]. destruct Ha as [H1 (c & Hc & ->)]. split.
      - intros d Hd. rewrite <- Hext by done. by apply H1.
      - exists c. split; [done|by apply Hext]. }
    assert (Esum : vsum_over (nCells m) (fun c => default 0%Qc (vp !! c)) = vsum_over (nCells m) (flux_through m flux)).
    { apply vsum_over_ext. intros c Hc. by apply Hat. }
    assert (Emean : forall a b, ((1 / (1 + 1)) * (a / b) * dt = dt / Q2Qc 2 * (a / b))%Qc).
    { intros a b. rewrite (Qcmult_comm (1 / (1 + 1))). apply Ehalf. }
    split.
    - intros (a & s & v & Ha & Hs & Hv & ->). apply Emax in Ha as ->. apply reduce_sum in Hs as ->. apply reduce_sum in Hv as ->.
      rewrite Ehalf, Emean, Esum. done.
    - intros ->. destruct (reduce_max_exists lowest (fun c => (default 0 (vp !! c) / default 0 (cellVolumes m !! c))%Qc) e (nCells m)) as (a & Ha).
      exists a, (vsum_over (nCells m) (fun c => default 0%Qc (vp !! c))), (vsum_over (nCells m) (fun c => default 0%Qc (cellVolumes m !! c))).
      split; [done|]. split; [by apply reduce_sum|]. split; [by apply reduce_sum|].
      apply Emax in Ha as ->. rewrite Ehalf, Emean, Esum. done. }
  split.
  - intros [[Hr _]|(v & Hv & [[Hr _]|(p & Hp & Hr)])].
    + by apply Hacc in Hr.
    + by apply Hnop in Hr.
    + apply Hacc in Hv. injection Hv as ->. apply Hnop in Hp. injection Hp as ->. simpl in Hr. by apply Hred.
  - intros ->. right. exists vp. split; [by apply Hacc|]. right. eexists. split; [by apply Hnop|]. simpl. by apply Hred.
Qed.
Print Assumptions C50_courant.

(** Linear in the time step, and independent of the sign of the fluxes. *)
Theorem C50_linear : forall m lowest lowest' flux flux' dt k e e' junk junk' bv br bf bg bv' br' bf' bg' co mean co' mean',
  valid_topology m -> offsets_ok m -> length flux = nFaces m -> length flux' = nFaces m -> 0 < nCells m ->
  (0 <= dt)%Qc -> (0 <= k)%Qc -> (lowest < 0)%Qc -> (lowest' < 0)%Qc -> length junk = nCells m -> length junk' = nCells m ->
  (forall i, i < nFaces m -> at0 flux' i = at0 flux i \/ at0 flux' i = (- at0 flux i)%Qc) ->
  computeCoNum lowest e m flux dt junk bv br bf bg (Ok (co, mean)) ->
  computeCoNum lowest' e' m flux' (k * dt)%Qc junk' bv' br' bf' bg' (Ok (co', mean')) ->
  co' = (k * co)%Qc /\ mean' = (k * mean)%Qc.
Proof.
  intros m lowest lowest' flux flux' dt k e e' junk junk' bv br bf bg bv' br' bf' bg' co mean co' mean'
    Hm Ho Hf Hf' Hn Hdt Hk Hl Hl' Hj Hj' Hsign H1 H2.
  assert (Hkdt : (0 <= k * dt)%Qc). { replace 0%Qc with (0 * dt)%Qc by ring. by apply Qcmult_le_compat_r. }
  destruct (C50_courant m lowest flux dt) as (a & La & _ & Ha); try done. apply Ha in H1; [|done]. injection H1 as -> ->.
  destruct (C50_courant m lowest' flux' (k * dt)%Qc) as (b & Lb & _ & Hb); try done. apply Hb in H2; [|done]. injection H2 as -> ->.
  assert (Habs : forall i, i < nFaces m -> Qcabs (at0 flux' i) = Qcabs (at0 flux i)).
  { intros i Hi. destruct (Hsign i Hi) as [-> | ->]; [done|]. apply Qcabs_opp. }
  assert (Eft : forall c, flux_through m flux' c = flux_through m flux c).
  { intros c. unfold flux_through. rewrite (vt_faces m Hm) in Habs. f_equal; [f_equal|]; apply vsum_over_ext; intros i Hi; (rewrite Habs by lia); done. }
  split.
  - apply (is_largest_unique (nCells m) (cell_courant m flux' (k * dt)%Qc)); [done|].
    destruct La as [H1 (c & Hc & ->)].
    assert (E : forall d, cell_courant m flux' (k * dt)%Qc d = (k * cell_courant m flux dt d)%Qc).
    { intros d. unfold cell_courant. rewrite Eft. unfold Qcdiv. ring. }
    split.
    + intros d Hd. rewrite E, (Qcmult_comm k), (Qcmult_comm k). apply Qcmult_le_compat_r; [by apply H1|done].
    + exists c. split; [done|by rewrite E].
  - unfold mean_courant. rewrite (vsum_over_ext _ (flux_through m flux') (flux_through m flux)) by done. unfold Qcdiv. ring.
Qed.
Print Assumptions C50_linear.

(** On a mesh without cells the Kokkos executors return the identity of the
    maximum, a negative number, where the serial executor returns 0. *)
Definition mesh0 : mesh := Mesh [] [] [] [] [] [] [] [] 0 0 0 0 0 (BoundaryMesh [] [] [] [] [] [] [] [] [] [0]).
Theorem C88_no_cells_refuted : ~ forall m lowest flux dt e junk bv br bf bg co mean,
  valid_topology m -> offsets_ok m -> length flux = nFaces m -> (0 <= dt)%Qc -> (lowest < 0)%Qc -> length junk = nCells m ->
  computeCoNum lowest e m flux dt junk bv br bf bg (Ok (co, mean)) -> (0 <= co)%Qc.
Proof.
  intros H. specialize (H mesh0 (-(1))%Qc [] 1%Qc CPUExecutor [] [] [] [] [] (-(1) * (1 / (1 + 1)) * 1)%Qc ((1 / (1 + 1)) * (0 / 0) * 1)%Qc).
  assert (Hno : (0 <= -(1) * (1 / (1 + 1)) * 1)%Qc -> False) by (intros Hx; by apply Hx).
  apply Hno, H; clear H Hno; try done.
  - split; try done; intros f Hf; simpl in Hf; lia.
  - split; try done. intros i Hi. simpl in Hi. lia.
  - unfold computeCoNum. simpl. right. exists []. split.
    + assert (Hp : forall k, @pfor Qc _ CPUExecutor 0 0 k [[]] (Some [[]])).
      { intros k. unfold pfor. simpl. exists [], []. split; [reflexivity|constructor]. }
      right. exists [[]]. split; [apply Hp|]. right. exists [[]]. split; apply Hp.
    + right. eexists. split; [done|]. unfold co_reduce. rewrite decide_True by (simpl; lia).
      exists (-(1))%Qc, 0%Qc, 0%Qc. split; [by exists (Piece [])|]. split; [by exists (Piece [])|]. split; [by exists (Piece [])|]. done.
Qed.
Print Assumptions C88_no_cells_refuted.

(** A case: one cell, fluxes -3 and 3, dt = 1: Courant number 3. *)
Example C50_instance : forall e o, computeCoNum (-(1))%Qc e cell1 [Q2Qc (-3); Q2Qc 3] 1%Qc [Q2Qc 7] [] [] [] [] o <-> o = Ok (Q2Qc 3, Q2Qc 3).
Proof.
  intros e o. destruct (C50_courant cell1 (-(1))%Qc [Q2Qc (-3); Q2Qc 3] 1%Qc) as (co & Hco & _ & H); try done.
  - apply cell1_topology.
  - split; try done. intros [|[|i]] Hi; simpl in Hi; try lia; vm_compute; lia.
  - simpl. lia.
  - rewrite (H e [Q2Qc 7] [] [] [] [] eq_refl o).
    assert (co = Q2Qc 3) as ->. { destruct Hco as [_ (c & Hc & ->)]. assert (c = 0) as -> by (simpl in Hc; lia). apply Qc_is_canon. vm_compute. reflexivity. }
    assert (mean_courant cell1 [Q2Qc (-3); Q2Qc 3] 1 = Q2Qc 3) as -> by (apply Qc_is_canon; vm_compute; reflexivity). done.
Qed.
