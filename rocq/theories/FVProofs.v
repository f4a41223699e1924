(** Explicit finite-volume operators: exact results for every executor and
    schedule. *)
From Verif Require Import Base Par ParProofs Exec ExecProofs Value Kernel KernelProofs
  Mesh MeshSpec MeshProofs Coeff FV FVSpec.

Lemma lookup_atV {V} `{ValueType V} (l : list V) i : i < length l -> l !! i = Some (atV l i).
Proof.
  intros Hi. destruct (lookup_lt_is_Some_2 l i Hi) as [x Hx]. unfold atV. by rewrite Hx.
Qed.
Lemma lookup_at0 (l : list Qc) i : i < length l -> l !! i = Some (at0 l i).
Proof.
  intros Hi. destruct (lookup_lt_is_Some_2 l i Hi) as [x Hx]. unfold at0, atv. by rewrite Hx.
Qed.
Lemma lookup_atv (l : list vec) i : i < length l -> l !! i = Some (atv l i).
Proof.
  intros Hi. destruct (lookup_lt_is_Some_2 l i Hi) as [x Hx]. unfold at0, atv. by rewrite Hx.
Qed.
Lemma lookup_atn (l : list nat) i : i < length l -> l !! i = Some (atn l i).
Proof.
  intros Hi. destruct (lookup_lt_is_Some_2 l i Hi) as [x Hx]. unfold atn. by rewrite Hx.
Qed.

Section topo.
  Context (m : mesh) (Hm : valid_topology m).
  Lemma owner_lookup f : f < nInternalFaces m -> faceOwner m !! f = Some (atn (faceOwner m) f).
  Proof.
    intros Hf. apply lookup_atn. rewrite (vt_owner_len _ Hm), (vt_faces _ Hm). lia.
  Qed.
  Lemma nei_lookup f : f < nInternalFaces m -> faceNeighbour m !! f = Some (atn (faceNeighbour m) f).
  Proof. intros Hf. apply lookup_atn. by rewrite (vt_nei_len _ Hm). Qed.
  Lemma fc_lookup b : b < nBoundaryFaces m ->
    bFaceCells (bmesh m) !! b = Some (atn (bFaceCells (bmesh m)) b).
  Proof. intros Hf. apply lookup_atn. by rewrite (vt_fc_len _ Hm). Qed.
  Lemma owner_lt f : f < nInternalFaces m -> atn (faceOwner m) f < nCells m.
  Proof.
    intros Hf. pose proof (vt_owner _ Hm f Hf). pose proof (vt_nei _ Hm f Hf). lia.
  Qed.
  Lemma vol_lookup c : c < nCells m -> cellVolumes m !! c = Some (at0 (cellVolumes m) c).
  Proof. intros Hc. apply lookup_at0. by rewrite (vt_vol_len _ Hm). Qed.
  Lemma vol_nz c : c < nCells m -> at0 (cellVolumes m) c <> 0%Qc.
  Proof. intros Hc Heq. pose proof (vt_vol _ Hm c Hc) as Hp. rewrite Heq in Hp. by apply Qclt_not_eq in Hp. Qed.
End topo.

Section proofs.
  Context {V : Type} `{HL : ValueLaws V}.
  Notation mem := (list (list V)).

  Lemma shape1 (l : list V) : shape [l] = [length l].
  Proof. done. Qed.
  Lemma shape1_inv (m' : mem) n : shape m' = [n] -> exists l, m' = [l] /\ length l = n.
  Proof.
    unfold shape. destruct m' as [|l [|]]; intros Heq; try done.
    exists l. split; [done|]. simpl in Heq. congruence.
  Qed.
  Lemma mget1 (l : list V) i : mget [l] (0, i) = l !! i.
  Proof. done. Qed.
  Lemma in_shape1 n i : i < n -> in_shape [n] (0, i).
  Proof. intros Hi. exists n. done. Qed.

  (** What an accumulating statement adds. *)
  Definition stmt_delta (s : stmt V) : V :=
    match s with
    | SAtomicAdd _ v | SAdd _ v => v
    | SAtomicSub _ v | SSub _ v => vneg v
    | _ => vzero
    end.

  Lemma contrib_delta a s : contrib a s = if decide (stmt_addr s = a) then stmt_delta s else vzero.
  Proof. unfold contrib. destruct (decide _); [|done]. by destruct s. Qed.

  Definition acc_stmt (e : executor) (s : stmt V) (ad : nat * nat) (v : V) : Prop :=
    stmt_addr s = ad /\ additive s = true /\ stmt_delta s = v /\
    (e = SerialExecutor \/ stmt_atomic s = true).

  Lemma pair0_dec (x c : nat) (v : V) :
    (if decide ((0, x) = (0, c)) then v else vzero) = if decide (x = c) then v else vzero.
  Proof. destruct (decide ((0, x) = (0, c))), (decide (x = c)); congruence. Qed.

  (** A pass over [start,stop) whose iteration i performs one or two accumulating
      statements on array 0. *)
  Lemma acc_pass e start stop (k : kernel V) (body : nat -> list (stmt V)) (res : list V) :
    start <= stop ->
    (forall i, start <= i < stop -> k i = Some (body i) /\
       Forall (fun s => exists c, stmt_addr s = (0, c) /\ c < length res /\ additive s = true /\
                        (e = SerialExecutor \/ stmt_atomic s = true)) (body i)) ->
    exists res', (forall r, pfor e start stop k [res] r <-> r = Some [res']) /\
      length res' = length res /\
      forall c, c < length res ->
        res' !! c = Some (vadd (atV res c)
          (vsum_over (stop - start) (fun i => vsum (map (contrib (0, c)) (body (start + i)))))).
  Proof.
    intros Hle Hk.
    assert (kernel_ok (shape [res]) start stop k) as Hok.
    { intros i Hi. destruct (Hk i Hi) as [Hki Hf]. exists (body i). split; [done|].
      eapply Forall_impl; [exact Hf|]. intros s (c & -> & Hc & _). by apply in_shape1. }
    assert (kernel_additive start stop k) as Hadd.
    { intros i s Hi Hs. destruct (Hk i Hi) as [Hki Hf]. unfold stmts_of in Hs. rewrite Hki in Hs.
      rewrite Forall_forall in Hf. destruct (Hf s Hs) as (c & _ & _ & Ha & _). done. }
    assert (exists m', (forall r, pfor e start stop k [res] r <-> r = Some m') /\
      shape m' = shape [res] /\
      forall a, mget m' a = (fun x => vadd x (vsum_over (stop - start)
            (fun i => vsum (map (contrib a) (stmts_of k (start + i)))))) <$> mget [res] a)
      as (m' & Hr & Hsh & Hg).
    { destruct (decide (e = SerialExecutor)) as [->|Hne].
      - by apply pfor_additive_serial.
      - apply pfor_additive; [done| |done].
        intros i j s t Hi Hj Hij Hs Ht _.
        destruct (Hk i Hi) as [Hki Hfi]. destruct (Hk j Hj) as [Hkj Hfj].
        unfold stmts_of in Hs, Ht. rewrite Hki in Hs. rewrite Hkj in Ht.
        rewrite Forall_forall in Hfi, Hfj.
        destruct (Hfi s Hs) as (? & _ & _ & _ & [?|?]); [done|].
        destruct (Hfj t Ht) as (? & _ & _ & _ & [?|?]); done. }
    rewrite shape1 in Hsh. apply shape1_inv in Hsh as (res' & -> & Hlen).
    exists res'. split; [done|]. split; [done|].
    intros c Hc. specialize (Hg (0, c)). rewrite !mget1 in Hg. rewrite Hg.
    rewrite (lookup_atV res c Hc). simpl. do 2 f_equal.
    apply vsum_over_ext. intros i Hi. unfold stmts_of.
    destruct (Hk (start + i)) as [-> _]; [lia|]. done.
  Qed.

  Section faces.
    Context (m : mesh) (Hm : valid_topology m).

    Lemma face_accumulate e (k1 k2 : kernel V) (x y z : nat -> V) (res : list V) :
      length res = nCells m ->
      (forall f, f < nInternalFaces m -> exists s t, k1 f = Some [s; t] /\
         acc_stmt e s (0, atn (faceOwner m) f) (x f) /\
         acc_stmt e t (0, atn (faceNeighbour m) f) (y f)) ->
      (forall b, b < nBoundaryFaces m -> exists s, k2 (nInternalFaces m + b) = Some [s] /\
         acc_stmt e s (0, atn (bFaceCells (bmesh m)) b) (z b)) ->
      exists res', length res' = nCells m /\
        (forall q r, pseq (pfor e 0 (nInternalFaces m) k1)
            (pseq (pfor e (nInternalFaces m) (nInternalFaces m + nBoundaryFaces m) k2) q) [res] r
            <-> q [res'] r) /\
        forall c, c < nCells m -> res' !! c = Some (vadd (atV res c)
          (vadd (vadd (vsum_over (nInternalFaces m) (fun f => if decide (atn (faceOwner m) f = c) then x f else vzero))
                      (vsum_over (nInternalFaces m) (fun f => if decide (atn (faceNeighbour m) f = c) then y f else vzero)))
                (vsum_over (nBoundaryFaces m) (fun b => if decide (atn (bFaceCells (bmesh m)) b = c) then z b else vzero)))).
    Proof.
      intros Hlen H1 H2.
      destruct (acc_pass e 0 (nInternalFaces m) k1 (fun i => default [] (k1 i)) res)
        as (res1 & Hr1 & Hl1 & Hc1); [lia| |].
      { intros f Hf. destruct (H1 f) as (s & t & -> & (Hs1 & Hs2 & Hs3 & Hs4) & (Ht1 & Ht2 & Ht3 & Ht4)); [lia|].
        split; [done|]. simpl. repeat constructor.
        - exists (atn (faceOwner m) f). split_and!; try done. rewrite Hlen. apply owner_lt; [done|lia].
        - exists (atn (faceNeighbour m) f). split_and!; try done. rewrite Hlen. apply vt_nei; [done|lia]. }
      destruct (acc_pass e (nInternalFaces m) (nInternalFaces m + nBoundaryFaces m) k2
                 (fun i => default [] (k2 i)) res1) as (res2 & Hr2 & Hl2 & Hc2); [lia| |].
      { intros f Hf. replace f with (nInternalFaces m + (f - nInternalFaces m)) by lia.
        destruct (H2 (f - nInternalFaces m)) as (s & -> & (Hs1 & Hs2 & Hs3 & Hs4)); [lia|].
        split; [done|]. simpl. repeat constructor.
        exists (atn (bFaceCells (bmesh m)) (f - nInternalFaces m)). split_and!; try done.
        rewrite Hl1, Hlen. apply vt_fc; [done|lia]. }
      exists res2. split; [lia|]. split.
      - intros q r. rewrite (pseq_iff _ _ [res] [res1] r) by exact Hr1.
        by rewrite (pseq_iff _ _ [res1] [res2] r) by exact Hr2.
      - intros c Hc. rewrite Hc2 by lia. f_equal.
        assert (atV res1 c = vadd (atV res c)
          (vsum_over (nInternalFaces m - 0) (fun i => vsum (map (contrib (0, c)) (default [] (k1 (0 + i)))))))
          as ->. { unfold atV at 1. rewrite Hc1 by lia. done. }
        rewrite <- vadd_assoc. f_equal.
        replace (nInternalFaces m - 0) with (nInternalFaces m) by lia.
        replace (nInternalFaces m + nBoundaryFaces m - nInternalFaces m) with (nBoundaryFaces m) by lia.
        rewrite <- vsum_over_add. f_equal.
        + apply vsum_over_ext. intros f Hf. simpl.
          destruct (H1 f Hf) as (s & t & -> & (Hs1 & Hs2 & Hs3 & Hs4) & (Ht1 & Ht2 & Ht3 & Ht4)).
          simpl. rewrite !contrib_delta, Hs1, Ht1, Hs3, Ht3, !pair0_dec. by rewrite vadd_0_r.
        + apply vsum_over_ext. intros b Hb.
          destruct (H2 b Hb) as (s & -> & (Hs1 & Hs2 & Hs3 & Hs4)).
          simpl. rewrite contrib_delta, Hs1, Hs3, pair0_dec. by rewrite vadd_0_r.
    Qed.

    (** The + / - form. *)
    Lemma face_balance e (k1 k2 : kernel V) (flux : nat -> V) (res : list V) :
      length res = nCells m ->
      (forall f, f < nInternalFaces m -> exists s t, k1 f = Some [s; t] /\
         acc_stmt e s (0, atn (faceOwner m) f) (flux f) /\
         acc_stmt e t (0, atn (faceNeighbour m) f) (vneg (flux f))) ->
      (forall b, b < nBoundaryFaces m -> exists s, k2 (nInternalFaces m + b) = Some [s] /\
         acc_stmt e s (0, atn (bFaceCells (bmesh m)) b) (flux (nInternalFaces m + b))) ->
      exists res', length res' = nCells m /\
        (forall q r, pseq (pfor e 0 (nInternalFaces m) k1)
            (pseq (pfor e (nInternalFaces m) (nInternalFaces m + nBoundaryFaces m) k2) q) [res] r
            <-> q [res'] r) /\
        forall c, c < nCells m -> res' !! c = Some (vadd (atV res c) (cell_balance m flux c)).
    Proof.
      intros Hlen H1 H2.
      destruct (face_accumulate e k1 k2 flux (fun f => vneg (flux f))
                  (fun b => flux (nInternalFaces m + b)) res Hlen H1 H2) as (res' & Hl & Hq & Hc).
      exists res'. split; [done|]. split; [done|]. intros c Hcc. rewrite (Hc c Hcc).
      do 2 f_equal. unfold cell_balance, vsub. f_equal. f_equal.
      rewrite <- vsum_over_neg. apply vsum_over_ext. intros f Hf.
      destruct (decide _); [done|]. by rewrite vneg_zero.
    Qed.
  End faces.

  (** Scaling pass. *)
  Lemma scale_pass e n (k : kernel V) (g : nat -> Qc) (res : list V) :
    length res = n ->
    (forall c, c < n -> k c = Some [SScale (0, c) (g c)]) ->
    exists res', (forall r, pfor e 0 n k [res] r <-> r = Some [res']) /\ length res' = n /\
      forall c, c < n -> res' !! c = Some (vscale (g c) (atV res c)).
  Proof.
    intros Hlen Hk.
    destruct (own_slot_iff (fun i => (0, i)) (fun i => SScale (0, i) (g i)) e 0 n [res] k)
      as (m' & Hr & Hsh & Hin & Hout).
    - intros i Hi. apply Hk. lia.
    - intros i Hi. split; [done|]. rewrite shape1. apply in_shape1. lia.
    - intros i j Hi Hj Heq. congruence.
    - rewrite shape1 in Hsh. apply shape1_inv in Hsh as (res' & -> & Hlen').
      exists res'. split; [done|]. split; [lia|]. intros c Hc.
      specialize (Hin c). rewrite !mget1 in Hin. rewrite Hin by lia.
      rewrite (lookup_atV res c) by lia. done.
  Qed.

  Lemma set_pass e start stop (k : kernel V) (g : nat -> V) (dst : list V) :
    start <= stop -> stop <= length dst ->
    (forall i, start <= i < stop -> k i = Some [SSet (0, i) (g i)]) ->
    exists dst', (forall r, pfor e start stop k [dst] r <-> r = Some [dst']) /\
      length dst' = length dst /\
      (forall i, start <= i < stop -> dst' !! i = Some (g i)) /\
      (forall i, ~ (start <= i < stop) -> dst' !! i = dst !! i).
  Proof.
    intros Hle Hlen Hk.
    destruct (own_slot_iff (fun i => (0, i)) (fun i => SSet (0, i) (g i)) e start stop [dst] k)
      as (m' & Hr & Hsh & Hin & Hout).
    - intros i Hi. apply Hk. lia.
    - intros i Hi. split; [done|]. rewrite shape1. apply in_shape1. lia.
    - intros i j Hi Hj Heq. congruence.
    - rewrite shape1 in Hsh. apply shape1_inv in Hsh as (res' & -> & Hlen').
      exists res'. split; [done|]. split; [done|]. split.
      + intros i Hi. specialize (Hin i Hi). rewrite !mget1 in Hin. rewrite Hin.
        rewrite (lookup_atV dst i) by lia. done.
      + intros i Hi. specialize (Hout (0, i)). rewrite !mget1 in Hout. apply Hout.
        intros j Hj Heq. assert (j = i) by congruence. lia.
  Qed.

  Lemma coeff_lookup c n i : coeff_ok c n -> i < n -> coeff_at c i = Some (coeff_val c i).
  Proof.
    unfold coeff_ok, coeff_val, coeff_at. destruct (view_ c) as [l|]; [|done].
    intros Hl Hi. by rewrite (lookup_at0 l i) by lia.
  Qed.

  Section ops.
    Context (m : mesh) (Hm : valid_topology m).
    Notation nF := (nInternalFaces m + nBoundaryFaces m).

    (** *** computeDiv *)
    Theorem computeDiv_result e faceFlux phiF res scaling :
      length faceFlux = nFaces m -> length phiF = nFaces m -> length res = nCells m ->
      coeff_ok scaling (nCells m) ->
      exists res', (forall r, computeDiv e (nInternalFaces m) (nBoundaryFaces m) (faceNeighbour m)
          (faceOwner m) (bFaceCells (bmesh m)) faceFlux phiF (cellVolumes m) res scaling r
          <-> r = Some [res']) /\
        length res' = nCells m /\
        forall c, c < nCells m -> res' !! c = Some
          (vscale (coeff_val scaling c / at0 (cellVolumes m) c)%Qc
             (vadd (atV res c) (cell_balance m (fun f => vscale (at0 faceFlux f) (atV phiF f)) c))).
    Proof.
      intros Hfl Hph Hres Hco.
      pose proof (vt_faces _ Hm) as HnF.
      assert (Hnorm : forall l, length l = nCells m ->
        exists res', (forall r, pfor e 0 (length (cellVolumes m)) (normalize_kernel (cellVolumes m) scaling) [l] r <-> r = Some [res']) /\
        length res' = nCells m /\
        forall c, c < nCells m -> res' !! c = Some (vscale (coeff_val scaling c / at0 (cellVolumes m) c)%Qc (atV l c))).
      { intros l Hl. rewrite (vt_vol_len _ Hm). apply scale_pass; [done|].
        intros c Hc. unfold normalize_kernel. rewrite (coeff_lookup _ (nCells m)) by done.
        simpl. by rewrite vol_lookup. }
      assert (Hend : forall res1 k1 k2,
        length res1 = nCells m ->
        (forall q r, pseq (pfor e 0 (nInternalFaces m) k1) (pseq (pfor e (nInternalFaces m) nF k2) q) [res] r <-> q [res1] r) ->
        (forall c, c < nCells m -> res1 !! c = Some (vadd (atV res c) (cell_balance m (fun f => vscale (at0 faceFlux f) (atV phiF f)) c))) ->
        exists res', (forall r, pseq (pfor e 0 (nInternalFaces m) k1) (pseq (pfor e (nInternalFaces m) nF k2)
            (pfor e 0 (length (cellVolumes m)) (normalize_kernel (cellVolumes m) scaling))) [res] r <-> r = Some [res']) /\
          length res' = nCells m /\
          forall c, c < nCells m -> res' !! c = Some
          (vscale (coeff_val scaling c / at0 (cellVolumes m) c)%Qc
             (vadd (atV res c) (cell_balance m (fun f => vscale (at0 faceFlux f) (atV phiF f)) c)))).
      { intros res1 k1 k2 Hl1 Hq Hc1. destruct (Hnorm res1 Hl1) as (res' & Hr & Hl & Hc).
        exists res'. split; [intros r; rewrite Hq; apply Hr|]. split; [done|].
        intros c Hcc. rewrite (Hc c Hcc). unfold atV at 1. by rewrite (Hc1 c Hcc). }
      destruct e.
      - destruct (face_balance m Hm SerialExecutor
          (div_internal_serial (faceNeighbour m) (faceOwner m) faceFlux phiF)
          (div_boundary_serial (nInternalFaces m) (bFaceCells (bmesh m)) faceFlux phiF)
          (fun f => vscale (at0 faceFlux f) (atV phiF f)) res Hres) as (res1 & Hl1 & Hq & Hc1).
        + intros f Hf. unfold div_internal_serial.
          rewrite (lookup_at0 faceFlux f), (lookup_atV phiF f), (owner_lookup m Hm), (nei_lookup m Hm) by lia.
          simpl. do 2 eexists. split; [reflexivity|].
          split; (split; [done|]; split; [done|]; split; [done|]; by left).
        + intros b Hb. unfold div_boundary_serial. rewrite Nat.add_comm, Nat.add_sub, Nat.add_comm.
          rewrite (fc_lookup m Hm), (lookup_at0 faceFlux), (lookup_atV phiF) by lia. simpl.
          eexists. split; [reflexivity|]. split; [done|]; split; [done|]; split; [done|]; by left.
        + by apply (Hend res1).
      - destruct (face_balance m Hm CPUExecutor
          (div_internal_atomic (faceNeighbour m) (faceOwner m) faceFlux phiF)
          (div_boundary_atomic (nInternalFaces m) (bFaceCells (bmesh m)) faceFlux phiF)
          (fun f => vscale (at0 faceFlux f) (atV phiF f)) res Hres) as (res1 & Hl1 & Hq & Hc1).
        + intros f Hf. unfold div_internal_atomic.
          rewrite (lookup_at0 faceFlux f), (lookup_atV phiF f), (owner_lookup m Hm), (nei_lookup m Hm) by lia.
          simpl. do 2 eexists. split; [reflexivity|].
          split; (split; [done|]; split; [done|]; split; [done|]; by right).
        + intros b Hb. unfold div_boundary_atomic. rewrite Nat.add_comm, Nat.add_sub, Nat.add_comm.
          rewrite (fc_lookup m Hm), (lookup_at0 faceFlux), (lookup_atV phiF) by lia. simpl.
          eexists. split; [reflexivity|]. split; [done|]; split; [done|]; split; [done|]; by right.
        + by apply (Hend res1).
      - destruct (face_balance m Hm GPUExecutor
          (div_internal_atomic (faceNeighbour m) (faceOwner m) faceFlux phiF)
          (div_boundary_atomic (nInternalFaces m) (bFaceCells (bmesh m)) faceFlux phiF)
          (fun f => vscale (at0 faceFlux f) (atV phiF f)) res Hres) as (res1 & Hl1 & Hq & Hc1).
        + intros f Hf. unfold div_internal_atomic.
          rewrite (lookup_at0 faceFlux f), (lookup_atV phiF f), (owner_lookup m Hm), (nei_lookup m Hm) by lia.
          simpl. do 2 eexists. split; [reflexivity|].
          split; (split; [done|]; split; [done|]; split; [done|]; by right).
        + intros b Hb. unfold div_boundary_atomic. rewrite Nat.add_comm, Nat.add_sub, Nat.add_comm.
          rewrite (fc_lookup m Hm), (lookup_at0 faceFlux), (lookup_atV phiF) by lia. simpl.
          eexists. split; [reflexivity|]. split; [done|]; split; [done|]; split; [done|]; by right.
        + by apply (Hend res1).
    Qed.

    (** *** Interpolation *)
    Theorem linear_result e (phi : volField V) weights (dst : list V) :
      field_ok m phi -> length weights = nFaces m -> length dst = nFaces m ->
      exists phif, (forall r, computeLinearInterpolation e m phi weights dst r <-> r = Some [phif]) /\
        length phif = nFaces m /\
        (forall f, f < nInternalFaces m -> phif !! f = Some
           (vadd (vscale (at0 weights f) (atV (vf_int phi) (atn (faceOwner m) f)))
                 (vscale (1 - at0 weights f)%Qc (atV (vf_int phi) (atn (faceNeighbour m) f))))) /\
        (forall b, b < nBoundaryFaces m -> phif !! (nInternalFaces m + b) = Some
           (vscale (at0 weights (nInternalFaces m + b)) (atV (vf_value phi) b))).
    Proof.
      intros [Hi Hb] Hw Hd. pose proof (vt_faces _ Hm) as HnF.
      destruct (set_pass e 0 (length dst) (linear_kernel m phi weights) (fun facei =>
        if decide (facei < nInternalFaces m) then
           (vadd (vscale (at0 weights facei) (atV (vf_int phi) (atn (faceOwner m) facei)))
                 (vscale (1 - at0 weights facei)%Qc (atV (vf_int phi) (atn (faceNeighbour m) facei))))
        else vscale (at0 weights facei) (atV (vf_value phi) (facei - nInternalFaces m))) dst)
        as (phif & Hr & Hl & Hin & _); [lia|lia| |].
      { intros i Hi'. unfold linear_kernel. destruct (decide (i < nInternalFaces m)).
        - rewrite (owner_lookup m Hm), (nei_lookup m Hm), (lookup_at0 weights i) by lia. simpl.
          rewrite !(lookup_atV (vf_int phi)); [done|..]; rewrite Hi.
          all: first [apply vt_nei; [done|lia] | apply owner_lt; [done|lia]].
        - rewrite (lookup_at0 weights i) by lia. simpl.
          rewrite (lookup_atV (vf_value phi)) by lia. done. }
      exists phif. split; [exact Hr|]. split; [lia|]. split.
      - intros f Hf. rewrite Hin by lia. by rewrite decide_True by done.
      - intros b Hb'. rewrite Hin by lia. rewrite decide_False by lia. do 3 f_equal. lia.
    Qed.

    Theorem upwind_result e (phi : volField V) flux weights (dst : list V) :
      field_ok m phi -> length flux = nFaces m -> length weights = nFaces m -> length dst = nFaces m ->
      exists phif, (forall r, computeUpwindInterpolation e m phi flux weights dst r <-> r = Some [phif]) /\
        length phif = nFaces m /\
        (forall f, f < nInternalFaces m -> (0 <= at0 flux f)%Qc ->
           phif !! f = Some (atV (vf_int phi) (atn (faceOwner m) f))) /\
        (forall f, f < nInternalFaces m -> (at0 flux f < 0)%Qc ->
           phif !! f = Some (atV (vf_int phi) (atn (faceNeighbour m) f))) /\
        (forall b, b < nBoundaryFaces m -> phif !! (nInternalFaces m + b) = Some
           (vscale (at0 weights (nInternalFaces m + b)) (atV (vf_value phi) b))).
    Proof.
      intros [Hi Hb] Hfl Hw Hd. pose proof (vt_faces _ Hm) as HnF.
      destruct (set_pass e 0 (length dst) (upwind_kernel m phi flux weights) (fun facei =>
        if decide (facei < nInternalFaces m) then
           if Qclt_le_dec (at0 flux facei) 0 then (atV (vf_int phi) (atn (faceNeighbour m) facei))
           else (atV (vf_int phi) (atn (faceOwner m) facei))
        else vscale (at0 weights facei) (atV (vf_value phi) (facei - nInternalFaces m))) dst)
        as (phif & Hr & Hl & Hin & _); [lia|lia| |].
      { intros i Hi'. unfold upwind_kernel. destruct (decide (i < nInternalFaces m)).
        - rewrite (lookup_at0 flux i) by lia. simpl.
          destruct (Qclt_le_dec (at0 flux i) 0).
          + rewrite (nei_lookup m Hm) by lia. simpl.
            rewrite !(lookup_atV (vf_int phi)); [done|]; rewrite Hi. by apply vt_nei.
          + rewrite (owner_lookup m Hm) by lia. simpl.
            rewrite !(lookup_atV (vf_int phi)); [done|]; rewrite Hi. by apply owner_lt.
        - rewrite (lookup_at0 weights i) by lia. simpl.
          rewrite (lookup_atV (vf_value phi)) by lia. done. }
      exists phif. split; [exact Hr|]. split; [lia|]. split; [|split].
      - intros f Hf Hs. rewrite Hin by lia. rewrite decide_True by done.
        destruct (Qclt_le_dec (at0 flux f) 0) as [Hlt|]; [|done].
        by apply Qclt_not_le in Hlt.
      - intros f Hf Hs. rewrite Hin by lia. rewrite decide_True by done.
        destruct (Qclt_le_dec (at0 flux f) 0) as [Hlt|Hge]; [done|].
        by apply Qclt_not_le in Hs.
      - intros b Hb'. rewrite Hin by lia. rewrite decide_False by lia. do 3 f_equal. lia.
    Qed.

    (** *** Face-normal gradient *)
    Theorem fng_result e (phi : volField V) dc (dst : list V) :
      field_ok m phi -> length dc = nFaces m -> length dst = nFaces m ->
      exists g, (forall r, computeFaceNormalGrad e m phi dc dst r <-> r = Some [g]) /\
        length g = nFaces m /\
        (forall f, f < nInternalFaces m -> g !! f = Some
           (vscale (at0 dc f) (vsub (atV (vf_int phi) (atn (faceNeighbour m) f))
                                    (atV (vf_int phi) (atn (faceOwner m) f))))) /\
        (forall b, b < nBoundaryFaces m -> g !! (nInternalFaces m + b) = Some
           (vscale (at0 dc (nInternalFaces m + b))
              (vsub (atV (vf_value phi) b) (atV (vf_int phi) (atn (bFaceCells (bmesh m)) b))))).
    Proof.
      intros [Hi Hb] Hw Hd. pose proof (vt_faces _ Hm) as HnF.
      destruct (set_pass e 0 (nInternalFaces m) (fng_internal_kernel m phi dc) (fun f =>
           (vscale (at0 dc f) (vsub (atV (vf_int phi) (atn (faceNeighbour m) f))
                                    (atV (vf_int phi) (atn (faceOwner m) f))))) dst)
        as (g1 & Hr1 & Hl1 & Hin1 & Hout1); [lia|lia| |].
      { intros f Hf. unfold fng_internal_kernel.
        rewrite (lookup_at0 dc f), (owner_lookup m Hm), (nei_lookup m Hm) by lia. simpl.
        rewrite !(lookup_atV (vf_int phi)); [done|..]; rewrite Hi.
        all: first [apply vt_nei; [done|lia] | apply owner_lt; [done|lia]]. }
      destruct (set_pass e (nInternalFaces m) (length dst) (fng_boundary_kernel m phi dc) (fun f =>
           (vscale (at0 dc f) (vsub (atV (vf_value phi) (f - nInternalFaces m))
                 (atV (vf_int phi) (atn (bFaceCells (bmesh m)) (f - nInternalFaces m)))))) g1)
        as (g & Hr & Hl & Hin & Hout); [lia|lia| |].
      { intros f Hf. unfold fng_boundary_kernel.
        rewrite (fc_lookup m Hm), (lookup_at0 dc f) by lia. simpl.
        rewrite (lookup_atV (vf_value phi)) by lia. simpl.
        rewrite !(lookup_atV (vf_int phi)); [done|]; rewrite Hi. apply vt_fc; [done|lia]. }
      exists g. split.
      { intros r. unfold computeFaceNormalGrad.
        rewrite (pseq_iff _ _ [dst] [g1] r) by exact Hr1. apply Hr. }
      split; [lia|]. split.
      - intros f Hf. rewrite Hout by lia. by rewrite Hin1 by lia.
      - intros b Hb'. rewrite Hin by lia. replace (nInternalFaces m + b - nInternalFaces m) with b by lia. done.
    Qed.

    (** *** surfaceIntegrate *)
    Theorem surfaceIntegrate_result e flux res scaling :
      length flux = nFaces m -> length res = nCells m -> coeff_ok scaling (nCells m) ->
      exists res', (forall r, surfaceIntegrate e (nInternalFaces m) (faceNeighbour m)
          (faceOwner m) (bFaceCells (bmesh m)) flux (cellVolumes m) res scaling r
          <-> r = Some [res']) /\
        length res' = nCells m /\
        forall c, c < nCells m -> res' !! c = Some
          (vscale (coeff_val scaling c / at0 (cellVolumes m) c)%Qc
             (vadd (atV res c) (cell_balance m (atV flux) c))).
    Proof.
      intros Hfl Hres Hco. pose proof (vt_faces _ Hm) as HnF.
      destruct (face_balance m Hm e
        (si_internal_kernel (faceNeighbour m) (faceOwner m) flux)
        (si_boundary_kernel (nInternalFaces m) (bFaceCells (bmesh m)) flux)
        (atV flux) res Hres) as (res1 & Hl1 & Hq & Hc1).
      { intros f Hf. unfold si_internal_kernel.
        rewrite (lookup_atV flux f), (owner_lookup m Hm), (nei_lookup m Hm) by lia.
        simpl. do 2 eexists. split; [reflexivity|].
        split; (split; [done|]; split; [done|]; split; [done|]; by right). }
      { intros b Hb. unfold si_boundary_kernel. rewrite Nat.add_comm, Nat.add_sub, Nat.add_comm.
        rewrite (fc_lookup m Hm), (lookup_atV flux) by lia. simpl.
        eexists. split; [reflexivity|]. split; [done|]; split; [done|]; split; [done|]; by right. }
      destruct (scale_pass e (nCells m) (normalize_kernel (cellVolumes m) scaling)
        (fun c => coeff_val scaling c / at0 (cellVolumes m) c)%Qc res1 Hl1) as (res' & Hr & Hl & Hc).
      { intros c Hc. unfold normalize_kernel. rewrite (coeff_lookup _ (nCells m)) by done.
        simpl. by rewrite vol_lookup. }
      exists res'. split; [|split; [done|]].
      - intros r. unfold surfaceIntegrate. rewrite (vt_fc_len _ Hm), (vt_vol_len _ Hm), Hq. apply Hr.
      - intros c Hcc. rewrite (Hc c Hcc). unfold atV at 1. by rewrite (Hc1 c Hcc).
    Qed.

    (** *** computeLaplacianExp *)
    Notation lap_flux phi dc := (fun f => vscale (at0 (magFaceAreas m) f) (normal_gradient m phi dc f)).

    Theorem laplacianExp_result e (phi : volField V) dc gamma junk res scaling :
      field_ok m phi -> length dc = nFaces m -> length junk = nFaces m ->
      length (magFaceAreas m) = nFaces m -> length res = nCells m -> coeff_ok scaling (nCells m) ->
      exists res', (forall r, computeLaplacianExp e m dc gamma phi junk res scaling r <-> r = Some [res']) /\
        length res' = nCells m /\
        forall c, c < nCells m -> res' !! c = Some
          (vscale (coeff_val scaling c / at0 (cellVolumes m) c)%Qc
             (vadd (atV res c) (cell_balance m (lap_flux phi dc) c))).
    Proof.
      intros Hphi Hdc Hj Hmag Hres Hco. pose proof (vt_faces _ Hm) as HnF.
      destruct (fng_result e phi dc junk Hphi Hdc Hj) as (g & Hg & Hgl & Hgi & Hgb).
      destruct (face_balance m Hm e (lap_internal_kernel m g) (lap_boundary_kernel m g)
        (lap_flux phi dc) res Hres) as (res1 & Hl1 & Hq & Hc1).
      { intros f Hf. unfold lap_internal_kernel.
        rewrite (lookup_at0 (magFaceAreas m) f), Hgi, (owner_lookup m Hm), (nei_lookup m Hm) by lia.
        unfold normal_gradient, at_owner, at_neighbour, at_face_cell. rewrite decide_True by done.
        simpl. do 2 eexists. split; [reflexivity|].
        split; (split; [done|]; split; [done|]; split; [done|]; by right). }
      { intros b Hb. unfold lap_boundary_kernel.
        replace (nInternalFaces m + b - nInternalFaces m) with b by lia.
        rewrite (fc_lookup m Hm), (lookup_at0 (magFaceAreas m)), Hgb by lia. simpl.
        unfold normal_gradient, at_owner, at_neighbour, at_face_cell. rewrite decide_False by lia.
        replace (nInternalFaces m + b - nInternalFaces m) with b by lia.
        eexists. split; [reflexivity|]. split; [done|]; split; [done|]; split; [done|]; by right. }
      destruct (scale_pass e (nCells m) (normalize_kernel (cellVolumes m) scaling)
        (fun c => coeff_val scaling c / at0 (cellVolumes m) c)%Qc res1 Hl1) as (res' & Hr & Hl & Hc).
      { intros c Hc. unfold normalize_kernel. rewrite (coeff_lookup _ (nCells m)) by done.
        simpl. by rewrite vol_lookup. }
      exists res'. split; [|split; [done|]].
      - intros r. unfold computeLaplacianExp. split.
        + intros [[Hx _]|(g' & Hx & Hx2)]; apply Hg in Hx; [done|]. injection Hx as ->.
          rewrite Hgl, HnF, Hq in Hx2. by apply Hr.
        + intros ->. right. exists g. split; [by apply Hg|]. rewrite Hgl, HnF, Hq. by apply Hr.
      - intros c Hcc. rewrite (Hc c Hcc). unfold atV at 1. by rewrite (Hc1 c Hcc).
    Qed.

    (** *** computeDivExp: face values *)
    Lemma interpolate_result s e (phi : volField V) flux weights (dst : list V) :
      field_ok m phi -> length flux = nFaces m -> length weights = nFaces m -> length dst = nFaces m ->
      exists phif, (forall r, interpolate s e m flux phi weights dst r <-> r = Some [phif]) /\
        length phif = nFaces m /\
        forall f, f < nFaces m -> phif !! f = Some (face_value m s phi flux weights f).
    Proof.
      intros Hphi Hfl Hw Hd. pose proof (vt_faces _ Hm) as HnF.
      destruct s.
      - destruct (linear_result e phi weights dst Hphi Hw Hd) as (phif & Hr & Hl & Hi & Hb).
        exists phif. split; [exact Hr|]. split; [done|]. intros f Hf. unfold face_value, at_owner, at_neighbour.
        destruct (decide (f < nInternalFaces m)); [by apply Hi|].
        replace f with (nInternalFaces m + (f - nInternalFaces m)) at 1 by lia.
        rewrite Hb by lia. do 3 f_equal. lia.
      - destruct (upwind_result e phi flux weights dst Hphi Hfl Hw Hd) as (phif & Hr & Hl & Hi & Hi' & Hb).
        exists phif. split; [exact Hr|]. split; [done|]. intros f Hf. unfold face_value, at_owner, at_neighbour.
        destruct (decide (f < nInternalFaces m)).
        + destruct (Qclt_le_dec (at0 flux f) 0); [by apply Hi'|by apply Hi].
        + replace f with (nInternalFaces m + (f - nInternalFaces m)) at 1 by lia.
          rewrite Hb by lia. do 3 f_equal. lia.
    Qed.

    Lemma cell_balance_ext (x y : nat -> V) c :
      (forall f, f < nFaces m -> x f = y f) -> cell_balance m x c = cell_balance m y c.
    Proof.
      intros Hxy. pose proof (vt_faces _ Hm) as HnF. unfold cell_balance.
      f_equal; [f_equal|]; apply vsum_over_ext; intros f Hf; rewrite Hxy by lia; done.
    Qed.

    Theorem divExp_result s e (phi : volField V) flux weights junk res scaling :
      field_ok m phi -> length flux = nFaces m -> length weights = nFaces m ->
      length junk = nFaces m -> length res = nCells m -> coeff_ok scaling (nCells m) ->
      exists res', (forall r, computeDivExp e m flux phi s weights junk res scaling r <-> r = Some [res']) /\
        length res' = nCells m /\
        forall c, c < nCells m -> res' !! c = Some
          (vscale (coeff_val scaling c / at0 (cellVolumes m) c)%Qc
             (vadd (atV res c)
               (cell_balance m (fun f => vscale (at0 flux f) (face_value m s phi flux weights f)) c))).
    Proof.
      intros Hphi Hfl Hw Hj Hres Hco.
      destruct (interpolate_result s e phi flux weights junk Hphi Hfl Hw Hj) as (phif & Hi & Hil & Hif).
      destruct (computeDiv_result e flux phif res scaling Hfl Hil Hres Hco) as (res' & Hr & Hl & Hc).
      exists res'. split; [|split; [done|]].
      - intros r. unfold computeDivExp. split.
        + intros [[Hx _]|(g' & Hx & Hx2)]; apply Hi in Hx; [done|]. injection Hx as ->. by apply Hr.
        + intros ->. right. exists phif. split; [by apply Hi|]. by apply Hr.
      - intros c Hcc. rewrite (Hc c Hcc). do 3 f_equal. apply cell_balance_ext.
        intros f Hf. unfold atV. rewrite (Hif f Hf). done.
    Qed.

    (** *** Conservation: the balances of all cells add up to the boundary. *)
    Theorem balance_total (flux : nat -> V) :
      vsum_over (nCells m) (cell_balance m flux)
      = vsum_over (nBoundaryFaces m) (fun b => flux (nInternalFaces m + b)).
    Proof.
      unfold cell_balance. rewrite vsum_over_add. unfold vsub at 1.
      rewrite vsum_over_add, vsum_over_neg.
      assert (forall (g : nat -> nat) (n : nat) (x : nat -> V), (forall f, f < n -> g f < nCells m) ->
        vsum_over (nCells m) (fun c => vsum_over n (fun f => if decide (g f = c) then x f else vzero))
        = vsum_over n x) as Hsum.
      { intros g n x Hg. rewrite vsum_over_exchange. apply vsum_over_ext. intros f Hf.
        etransitivity; [|apply (vsum_over_single (nCells m) (g f) (x f)); by apply Hg].
        apply vsum_over_ext. intros c Hc. destruct (decide (g f = c)), (decide (c = g f)); congruence. }
      rewrite (Hsum (atn (faceOwner m))) by (intros; by apply owner_lt).
      rewrite (Hsum (atn (faceNeighbour m))) by (intros; by apply vt_nei).
      rewrite (Hsum (atn (bFaceCells (bmesh m)))  (nBoundaryFaces m)
                 (fun b => flux (nInternalFaces m + b))) by (intros; by apply vt_fc).
      by rewrite vadd_neg, vadd_0_l.
    Qed.

    Lemma balance_scale k (flux : nat -> V) c :
      cell_balance m (fun f => vscale k (flux f)) c = vscale k (cell_balance m flux c).
    Proof.
      unfold cell_balance, vsub. rewrite !vscale_add, vscale_neg, <- !vsum_over_scale.
      f_equal; [f_equal; [|f_equal]|]; apply vsum_over_ext; intros f Hf;
        (destruct (decide _); [done|by rewrite vscale_0_r]).
    Qed.

    (** Explicit operation through a zero-filled temporary adds the operator
        value. *)
    Lemma add_tmp_result (op : list V -> option mem -> Prop) (val : nat -> V) (source : list V) :
      length source = nCells m ->
      (exists t, (forall r, op (replicate (nCells m) vzero) r <-> r = Some [t]) /\
         length t = nCells m /\ forall c, c < nCells m -> t !! c = Some (val c)) ->
      exists s', (forall r, add_tmp op source r <-> r = Some s') /\ length s' = nCells m /\
        forall c, c < nCells m -> s' !! c = Some (vadd (atV source c) (val c)).
    Proof.
      intros Hs (t & Ht & Htl & Htc). exists (zip_with vadd source t). split; [|split].
      - intros r. unfold add_tmp. rewrite Hs. split.
        + intros [[Hx _]|(g' & Hx & ->)]; apply Ht in Hx; [done|]. by injection Hx as ->.
        + intros ->. right. exists t. split; [by apply Ht|done].
      - rewrite zip_with_length. lia.
      - intros c Hc. rewrite lookup_zip_with. rewrite (lookup_atV source c) by lia.
        simpl. by rewrite (Htc c Hc).
    Qed.

    Lemma atV_zero n c : atV (replicate n (vzero : V)) c = vzero.
    Proof.
      unfold atV. destruct (decide (c < n)).
      - by rewrite lookup_replicate_2.
      - rewrite lookup_ge_None_2; [done|]. rewrite replicate_length. lia.
    Qed.
  End ops.
End proofs.
