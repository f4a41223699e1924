(** SparsityPattern::update() computes the pattern, on every executor. *)
From Verif Require Import Base Par ParProofs Exec ExecProofs Kernel KernelProofs
  Reduce ReduceProofs Ticket TicketProofs Mesh MeshSpec Sparsity SparsitySpec SparsityProofs.

Section sp.
  Context (m : mesh) (Hcn : connectivity m).
  Notation nC := (nCells m).
  Notation nI := (nInternalFaces m).
  Notation own := (atn (faceOwner m)).
  Notation nei := (atn (faceNeighbour m)).
  Definition nU c := cntif (fun f => bool_decide (own f = c)) nI.
  Definition nL c := cntif (fun f => bool_decide (nei f = c)) nI.
  Definition rlen c := 1 + nU c + nL c.
  Definition rptr := psum rlen.
  Definition nnz := nC + 2 * nI.

  Lemma own_lt f : f < nI -> own f < nC.
  Proof using Hcn. intros H. destruct (cn_owner m Hcn f H) as (c & E & Hc). unfold atn. by rewrite E. Qed.
  Lemma nei_lt f : f < nI -> nei f < nC.
  Proof using Hcn. intros H. destruct (cn_nei m Hcn f H) as (c & E & Hc). unfold atn. by rewrite E. Qed.
  Lemma own_lookup f : f < nI -> faceOwner m !! f = Some (own f).
  Proof using Hcn. intros H. destruct (cn_owner m Hcn f H) as (c & E & Hc). unfold atn. by rewrite E. Qed.
  Lemma nei_lookup f : f < nI -> faceNeighbour m !! f = Some (nei f).
  Proof using Hcn. intros H. destruct (cn_nei m Hcn f H) as (c & E & Hc). unfold atn. by rewrite E. Qed.

  Lemma sum_cells (g : nat -> nat) : (forall f, f < nI -> g f < nC) ->
    sum_list (map (fun c => cntif (fun f => bool_decide (g f = c)) nI) (seq 0 nC)) = nI.
  Proof using.
    intros Hg. unfold cntif. rewrite (sum_list_swap (fun c f => if bool_decide (g f = c) then 1 else 0)).
    rewrite (sum_list_map_ext _ (fun _ => 1)).
    - rewrite sum_list_map_const, seq_length. lia.
    - intros f Hf. apply elem_of_seq in Hf. apply sum_indicator. specialize (Hg f). lia.
  Qed.

  Lemma rptr_end : rptr nC = nnz.
  Proof using Hcn.
    unfold rptr, psum, rlen, nnz. rewrite !sum_list_map_add.
    rewrite sum_list_map_const, seq_length. unfold nU, nL.
    rewrite !sum_cells by (auto using own_lt, nei_lt). lia.
  Qed.
  Lemma rptr_rows c c' : c < c' -> c' < nC -> rptr c + rlen c <= rptr c'.
  Proof using. intros H _. by apply psum_rows. Qed.
  Lemma rptr_nnz c : c < nC -> rptr c + rlen c <= nnz.
  Proof using Hcn. intros H. rewrite <- rptr_end. by apply psum_rows. Qed.

  (** The row lengths are those of the specification. *)
  Lemma rlen_spec c : rlen c = length (row_spec m c).
  Proof using.
    unfold rlen, nU, nL, row_spec. cbn [length]. rewrite app_length, !map_length.
    rewrite (cntif_filter (fun f => own f = c)), (cntif_filter (fun f => nei f = c)). done.
  Qed.

  (** Slots within the row. *)
  Definition wslot (tkL tkU : nat -> nat) (l : loc) : nat :=
    match l with Diag c => nL c | Upper f => tkU f | Lower f => tkL f end.

  Record sp_post (e : executor) (p : sparsity) (tkL tkU : nat -> nat) : Prop := {
    po_rp : forall k, k <= nC -> sp_rowPtrs p !! k = Some (rptr k);
    po_rp_len : length (sp_rowPtrs p) = nC + 1;
    po_cols_len : length (sp_colIdxs p) = nnz;
    po_own_len : length (sp_ownerOffset p) = nI;
    po_nei_len : length (sp_neighbourOffset p) = nI;
    po_diag_len : length (sp_diagOffset p) = nC;
    po_own : forall f, f < nI -> sp_ownerOffset p !! f = Some (uint8 (tkU f));
    po_nei : forall f, f < nI -> sp_neighbourOffset p !! f = Some (uint8 (tkL f));
    po_diag : forall c, c < nC -> sp_diagOffset p !! c = Some (uint8 (nL c));
    po_L : forall f, f < nI -> tkL f < nL (nei f);
    po_U : forall f, f < nI -> nL (own f) + 1 <= tkU f < rlen (own f);
    po_L_inj : forall f f', f < nI -> f' < nI -> f <> f' -> nei f = nei f' -> tkL f <> tkL f';
    po_U_inj : forall f f', f < nI -> f' < nI -> f <> f' -> own f = own f' -> tkU f <> tkU f';
    po_col : forall l, loc_valid m l ->
      sp_colIdxs p !! (rptr (loc_row m l) + wslot tkL tkU l) = Some (loc_col m l);
    po_L_serial : e = SerialExecutor -> forall f f', f < f' -> f' < nI -> nei f = nei f' -> tkL f < tkL f';
    po_U_serial : e = SerialExecutor -> forall f f', f < f' -> f' < nI -> own f = own f' -> tkU f < tkU f';
  }.

  Record sp_sized (p : sparsity) : Prop := {
    sz_rp : length (sp_rowPtrs p) = nC + 1;
    sz_rp0 : sp_rowPtrs p !! 0 = Some 0;
    sz_cols : length (sp_colIdxs p) = nnz;
    sz_own : length (sp_ownerOffset p) = nI;
    sz_nei : length (sp_neighbourOffset p) = nI;
    sz_diag : length (sp_diagOffset p) = nC;
  }.

  Lemma shape5 (mm : imem) a b c d e : shape mm = [a; b; c; d; e] ->
    exists x0 x1 x2 x3 x4, mm = [x0; x1; x2; x3; x4] /\
      length x0 = a /\ length x1 = b /\ length x2 = c /\ length x3 = d /\ length x4 = e.
  Proof using.
    intros H. unfold shape in H. do 6 (destruct mm as [|? mm]; simpl in H; [try discriminate|]);
      try discriminate. injection H as <- <- <- <- <-. eauto 15.
  Qed.

  Theorem sp_update_good e p : sp_sized p ->
    good (sp_update e m p) (fun p' => exists tkL tkU, sp_post e p' tkL tkU).
  Proof using Hcn.
    intros Hp. unfold sp_update.
    eapply good_ubind.
    { apply (incr_phase e 0 nI _ (fun f => [TFetch (0, own f); TFetch (0, nei f)])).
      - intros f Hf. simpl. unfold sp_count_kernel.
        rewrite own_lookup, nei_lookup by lia. done.
      - intros f ins Hf Hin. apply elem_of_cons in Hin as [->|Hin].
        + eexists. split; [done|]. exists nC. simpl. rewrite replicate_length.
          split; [done|]. apply own_lt. lia.
        + apply elem_of_list_singleton in Hin as ->. eexists. split; [done|].
          exists nC. simpl. rewrite replicate_length. split; [done|]. apply nei_lt. lia. }
    intros m1 [Hsh1 Hm1]. cbv beta in *.
    assert (Hsh1' : shape m1 = sp_shape nC nI nnz).
    { rewrite Hsh1. unfold shape. cbn [fmap list_fmap]. rewrite replicate_length.
      rewrite (sz_nei p Hp), (sz_own p Hp), (sz_diag p Hp), (sz_cols p Hp). done. }
    destruct (shape5 m1 _ _ _ _ _ Hsh1') as (counts & nOff & oOff & dOff & cols & -> & L0 & L1 & L2 & L3 & L4).
    cbv beta iota.
    assert (Hcounts : counts = map rlen (seq 0 nC)).
    { apply list_eq. intros c. destruct (decide (c < nC)) as [Hc|Hc].
      - specialize (Hm1 (0, c)). unfold mget at 1 2 in Hm1. cbn [fst snd lookup list_lookup mbind option_bind] in Hm1.
        etransitivity; [exact Hm1|]. rewrite (lookup_replicate_2 _ _ _ Hc). cbn [fmap option_fmap option_map].
        change (map ?f ?l) with (f <$> l). rewrite list_lookup_fmap, lookup_seq_lt by done. simpl. f_equal.
        rewrite Nat.sub_0_r. transitivity (1 + (nU c + nL c)); [|unfold rlen; lia].
        unfold nU, nL, cntif. rewrite <- sum_list_map_add. change (S ?x) with (1 + x). f_equal.
        apply sum_list_map_ext. intros f _. rewrite cnt1_two. f_equal.
        + destruct (decide (own f = c)) as [->|]; [rewrite !bool_decide_true by done|rewrite !bool_decide_false by congruence]; done.
        + destruct (decide (nei f = c)) as [->|]; [rewrite !bool_decide_true by done|rewrite !bool_decide_false by congruence]; done.
      - rewrite !lookup_ge_None_2; [done| |lia]. rewrite map_length, seq_length. lia. }
    destruct (sp_rowPtrs p) as [|o0 offs] eqn:Erp; [pose proof (sz_rp p Hp) as E; rewrite Erp in E; simpl in E; lia|].
    assert (o0 = 0) as ->. { pose proof (sz_rp0 p Hp) as E. rewrite Erp in E. simpl in E. congruence. }
    assert (Hoffs : length offs = length counts).
    { pose proof (sz_rp p Hp) as E. rewrite Erp in E. simpl in E. lia. }
    (* the scan *)
    assert (Hscan : forall chunks order, scan_plan (length counts) chunks order ->
       exists offs', segmentsFromIntervals counts (0 :: offs) chunks order = Ok (sum_list counts, 0 :: offs') /\
         length (0 :: offs') = nC + 1 /\
         forall k, k <= nC -> (0 :: offs') !! k = Some (rptr k)).
    { intros chunks order Hpl. destruct (segments_ok counts 0 offs chunks order Hpl Hoffs) as (offs' & E & Hl & Ho).
      exists offs'. split; [done|]. split; [simpl; lia|]. intros [|k] Hk; simpl; [done|].
      rewrite Ho by lia. rewrite Hcounts, psum_take by lia. done. }
    set (K := fun rowPtrs : list nat => ubind (ifill e 0 counts)
            (fun zeros =>
            ubind (tfor e 0 nI (sp_lower_kernel m rowPtrs) [zeros; nOff; oOff; dOff; cols])
            (fun m2 =>
            ubind (tfor e 0 (nCells m) (sp_diag_kernel rowPtrs) m2)
            (fun m3 =>
            ubind (tfor e 0 nI (sp_upper_kernel m rowPtrs) m3)
            (fun m4 r =>
              match m4 with
              | [_; nOff'; oOff'; dOff'; cols'] =>
                  r = Ok (Sparsity rowPtrs cols' oOff' nOff' dOff')
              | _ => r = UB
              end))))).
    assert (HK : forall rowPtrs, length rowPtrs = nC + 1 ->
       (forall k, k <= nC -> rowPtrs !! k = Some (rptr k)) ->
       good (K rowPtrs) (fun p' => exists tkL tkU, sp_post e p' tkL tkU)).
    { intros rowPtrs Hrl Hrp. unfold K.
      eapply good_ubind; [apply ifill_good|]. intros zeros ->. rewrite L0.
      set (mz := [replicate nC 0; nOff; oOff; dOff; cols]).
      assert (Hshz : shape mz = sp_shape nC nI nnz).
      { unfold mz, shape. cbn [fmap list_fmap]. rewrite replicate_length. rewrite L1, L2, L3, L4. done. }
      (* lower *)
      destruct (alloc_phase nC nI nnz rlen rptr rptr_rows rptr_nnz e mz 1 nei own (fun _ => 0)
                  (sp_lower_kernel m rowPtrs)) as [Hex1 Hall1].
      { done. } { auto. } { apply nei_lt. }
      { intros c Hc. unfold mz, mget. cbn [fst snd lookup list_lookup mbind option_bind].
        by apply lookup_replicate_2. }
      { intros c Hc. unfold rlen, nL. lia. }
      { intros f Hf. unfold sp_lower_kernel. rewrite nei_lookup, own_lookup by done.
        cbn [mbind option_bind]. rewrite Hrp by (pose proof (nei_lt f Hf); lia). done. }
      eapply (good_ubind _ _ (fun m2 => exists tkL, alloc_post nC nI rptr e mz m2 1 nei own (fun _ => 0) tkL)).
      { split; [done|]. intros x Hx. destruct (Hall1 x Hx) as (m2 & tk & -> & H). eauto. }
      intros m2 [tkL HL].
      assert (Hsh2 : shape m2 = sp_shape nC nI nnz) by (by rewrite (ap_shape _ _ _ _ _ _ _ _ _ _ _ HL)).
      (* diagonal *)
      eapply (good_ubind _ _ (fun m3 => diag_post nC rptr m2 m3 nL)).
      { apply (diag_phase nC nI nnz rlen rptr rptr_rows rptr_nnz).
        - done.
        - intros c Hc. rewrite (ap_count _ _ _ _ _ _ _ _ _ _ _ HL) by done. done.
        - intros c Hc. unfold rlen. lia.
        - intros c Hc. unfold sp_diag_kernel. rewrite Hrp by lia. done. }
      intros m3 HD.
      assert (Hsh3 : shape m3 = sp_shape nC nI nnz) by (by rewrite (dp_shape _ _ _ _ _ HD)).
      (* upper *)
      destruct (alloc_phase nC nI nnz rlen rptr rptr_rows rptr_nnz e m3 2 own nei (fun c => nL c + 1)
                  (sp_upper_kernel m rowPtrs)) as [Hex2 Hall2].
      { done. } { auto. } { apply own_lt. }
      { intros c Hc. by rewrite (dp_count _ _ _ _ _ HD). }
      { intros c Hc. unfold rlen, nU. lia. }
      { intros f Hf. unfold sp_upper_kernel. rewrite nei_lookup, own_lookup by done.
        cbn [mbind option_bind]. rewrite Hrp by (pose proof (own_lt f Hf); lia). done. }
      eapply (good_ubind _ _ (fun m4 => exists tkU, alloc_post nC nI rptr e m3 m4 2 own nei (fun c => nL c + 1) tkU)).
      { split; [done|]. intros x Hx. destruct (Hall2 x Hx) as (m4 & tk & -> & H). eauto. }
      intros m4 [tkU HU].
      assert (Hsh4 : shape m4 = sp_shape nC nI nnz) by (by rewrite (ap_shape _ _ _ _ _ _ _ _ _ _ _ HU)).
      destruct (shape5 m4 _ _ _ _ _ Hsh4) as (c4 & nOff4 & oOff4 & dOff4 & cols4 & E4 & K0 & K1 & K2 & K3 & K4).
      rewrite E4. cbv beta iota. split; [eauto|]. intros r ->. eexists. split; [done|].
      exists tkL, tkU.
      pose proof (ap_range _ _ _ _ _ _ _ _ _ _ _ HL) as RL.
      pose proof (ap_range _ _ _ _ _ _ _ _ _ _ _ HU) as RU.
      assert (RL' : forall f, f < nI -> tkL f < nL (nei f)).
      { intros f Hf. specialize (RL f Hf). cbv beta in RL. unfold nL. lia. }
      assert (RU' : forall f, f < nI -> nL (own f) + 1 <= tkU f < rlen (own f)).
      { intros f Hf. specialize (RU f Hf). cbv beta in RU. unfold rlen, nU. lia. }
      assert (Hg1 : forall x, mget m4 (1, x) = nOff4 !! x) by (intros x; by rewrite E4).
      assert (Hg2 : forall x, mget m4 (2, x) = oOff4 !! x) by (intros x; by rewrite E4).
      assert (Hg3 : forall x, mget m4 (3, x) = dOff4 !! x) by (intros x; by rewrite E4).
      assert (Hg4 : forall x, mget m4 (4, x) = cols4 !! x) by (intros x; by rewrite E4).
      constructor; cbn [sp_rowPtrs sp_colIdxs sp_ownerOffset sp_neighbourOffset sp_diagOffset]; auto.
      - intros f Hf. rewrite <- Hg2. by apply (ap_off _ _ _ _ _ _ _ _ _ _ _ HU).
      - intros f Hf. rewrite <- Hg1. rewrite (ap_other _ _ _ _ _ _ _ _ _ _ _ HU) by lia.
        rewrite (dp_other _ _ _ _ _ HD) by lia. by apply (ap_off _ _ _ _ _ _ _ _ _ _ _ HL).
      - intros c Hc. rewrite <- Hg3. rewrite (ap_other _ _ _ _ _ _ _ _ _ _ _ HU) by lia.
        by apply (dp_off _ _ _ _ _ HD).
      - apply (ap_inj _ _ _ _ _ _ _ _ _ _ _ HL).
      - apply (ap_inj _ _ _ _ _ _ _ _ _ _ _ HU).
      - intros l Hl. rewrite <- Hg4. destruct l as [c|f|f]; simpl in Hl |- *.
        + rewrite (ap_col_other _ _ _ _ _ _ _ _ _ _ _ HU).
          * by apply (dp_col _ _ _ _ _ HD).
          * intros f Hf E. specialize (RU' f Hf).
            destruct (row_inj nC rlen rptr rptr_rows c (own f) (nL c) (tkU f)) as [-> ?]; auto using own_lt.
            -- unfold rlen. lia.
            -- lia.
            -- lia.
        + by apply (ap_col _ _ _ _ _ _ _ _ _ _ _ HU).
        + specialize (RL' f Hl).
          rewrite (ap_col_other _ _ _ _ _ _ _ _ _ _ _ HU); cycle 1.
          { intros f' Hf' E. specialize (RU' f' Hf').
            destruct (row_inj nC rlen rptr rptr_rows (nei f) (own f') (tkL f) (tkU f')) as [E1 ?]; auto using own_lt, nei_lt.
            - unfold rlen. lia.
            - lia.
            - rewrite E1 in RL'. lia. }
          rewrite (dp_col_other _ _ _ _ _ HD); cycle 1.
          { intros c Hc E.
            destruct (row_inj nC rlen rptr rptr_rows (nei f) c (tkL f) (nL c)) as [E1 ?]; auto using own_lt, nei_lt.
            - unfold rlen. lia.
            - unfold rlen. lia.
            - subst c. lia. }
          by apply (ap_col _ _ _ _ _ _ _ _ _ _ _ HL).
      - apply (ap_serial _ _ _ _ _ _ _ _ _ _ _ HL).
      - apply (ap_serial _ _ _ _ _ _ _ _ _ _ _ HU). }
    split.
    - destruct (Hscan _ _ (serial_plan (length counts))) as (offs' & E & Hl & Ho).
      destruct (HK (0 :: offs') Hl Ho) as [[b Hb] _]. exists b.
      exists [seq 0 (length counts)], [0]. split; [apply serial_plan|]. rewrite E. exact Hb.
    - intros r (chunks & order & Hpl & Hr).
      destruct (Hscan _ _ Hpl) as (offs' & E & Hl & Ho). rewrite E in Hr.
      by apply (HK (0 :: offs') Hl Ho).
  Qed.

  Lemma created_sized :
    sp_sized (Sparsity (replicate (nC + 1) 0) (replicate (nC + 2 * nI) 0)
                (replicate nI 0) (replicate nI 0) (replicate nC 0)).
  Proof using.
    constructor; cbn [sp_rowPtrs sp_colIdxs sp_ownerOffset sp_neighbourOffset sp_diagOffset];
      rewrite ?replicate_length; try done. apply lookup_replicate_2. lia.
  Qed.

  Theorem sp_create_good e :
    good (sp_create e m) (fun p => exists tkL tkU, sp_post e p tkL tkU).
  Proof using Hcn. apply sp_update_good, created_sized. Qed.
End sp.
