From Verif Require Import Base Exec Reduce.

Section reduce.
  Context {T : Type} (join : T -> T -> T) (ident : T) (contrib : nat -> T).
  Context (join_assoc : forall a b c, join a (join b c) = join (join a b) c).
  Context (join_comm : forall a b, join a b = join b a).
  Context (join_id : forall a, join ident a = a).

  Notation K := (fun acc i => reduce_kernel join contrib i acc).

  Lemma fold_shift is : forall a b,
    fold_left K is (join a b) = join a (fold_left K is b).
  Proof.
    induction is as [|i is IH]; intros a b; simpl; [done|].
    unfold reduce_kernel at 2 4. by rewrite <- IH, join_assoc.
  Qed.

  Lemma fold_from is a : fold_left K is a = join a (fold_left K is ident).
  Proof.
    rewrite <- fold_shift. f_equal. by rewrite join_comm, join_id.
  Qed.

  Lemma fold_perm is1 is2 : is1 ≡ₚ is2 -> forall a, fold_left K is1 a = fold_left K is2 a.
  Proof.
    induction 1 as [|i l1 l2 H IH|i j l|l1 l2 l3 H1 IH1 H2 IH2]; intros a; simpl; auto.
    - f_equal. unfold reduce_kernel.
      rewrite <- !join_assoc. f_equal. apply join_comm.
    - by rewrite IH1.
  Qed.

  Lemma jeval_flat t : jeval join ident contrib t = fold_left K (jindices t) ident.
  Proof.
    induction t as [is|l IHl r IHr]; simpl; [done|].
    rewrite fold_left_app, IHl, IHr. by rewrite (fold_from (jindices r) (fold_left K (jindices l) ident)).
  Qed.

  Lemma kokkos_serial start stop r :
    reduce_kokkos join ident contrib start stop r ->
    r = reduce_serial join contrib start stop ident.
  Proof.
    intros (t & Ht & ->). rewrite jeval_flat. by apply fold_perm.
  Qed.

  Lemma kokkos_exists start stop :
    reduce_kokkos join ident contrib start stop (reduce_serial join contrib start stop ident).
  Proof. exists (Piece (seq start (stop - start))). done. Qed.

  Lemma reduce_same e1 e2 start stop r1 r2 :
    parallelReduce join ident contrib e1 start stop ident r1 ->
    parallelReduce join ident contrib e2 start stop ident r2 -> r1 = r2.
  Proof.
    intros H1 H2.
    assert (forall e r, parallelReduce join ident contrib e start stop ident r ->
                   r = reduce_serial join contrib start stop ident) as H.
    { intros [] r; simpl; auto using kokkos_serial. }
    by rewrite (H _ _ H1), (H _ _ H2).
  Qed.

  (** For any starting value. *)
  Lemma reduce_init start stop v :
    reduce_serial join contrib start stop v =
    join v (reduce_serial join contrib start stop ident).
  Proof. apply fold_from. Qed.
End reduce.

(** * Scans *)
Lemma sum_list_app (l1 l2 : list nat) : sum_list (l1 ++ l2) = sum_list l1 + sum_list l2.
Proof. induction l1 as [|x l1 IH]; simpl; lia. Qed.

Lemma scan_chunk_false inp offs : forall k st u,
  st + k <= length inp ->
  scan_chunk inp false (seq st k) (u, offs) = Some (u + sum_list (take k (drop st inp)), offs).
Proof.
  induction k as [|k IH]; intros st u Hk; simpl.
  - f_equal. f_equal. lia.
  - destruct (lookup_lt_is_Some_2 inp st) as [v Hv]; [lia|]. rewrite Hv.
    rewrite IH by lia. rewrite (drop_S inp v st) by done. simpl. f_equal. f_equal. lia.
Qed.

(** Writes of one chunk in the final pass. *)
Lemma scan_chunk_true inp : forall k st u offs,
  length offs = length inp -> st + k <= length inp ->
  exists offs', scan_chunk inp true (seq st k) (u, offs)
     = Some (u + sum_list (take k (drop st inp)), offs') /\
    length offs' = length offs /\
    forall j, offs' !! j = if decide (st <= j < st + k)
                           then Some (u + sum_list (take (S j - st) (drop st inp)))
                           else offs !! j.
Proof.
  induction k as [|k IH]; intros st u offs Hl Hk; simpl.
  - exists offs. split; [f_equal; f_equal; lia|]. split; [done|].
    intros j. by rewrite decide_False by lia.
  - destruct (lookup_lt_is_Some_2 inp st) as [v Hv]; [lia|]. rewrite Hv.
    destruct (lookup_lt_is_Some_2 offs st) as [w Hw]; [lia|]. rewrite Hw.
    destruct (IH (S st) (u + v) (<[st := u + v]> offs)) as (offs' & Hr & Hl' & Hp).
    { rewrite insert_length. done. }
    { lia. }
    exists offs'. rewrite Hr. rewrite insert_length in Hl'.
    rewrite (drop_S inp v st) by done. simpl.
    split; [f_equal; f_equal; lia|]. split; [done|].
    intros j. rewrite Hp. destruct (decide (j = st)) as [->|Hne].
    + rewrite decide_False by lia. rewrite decide_True by lia.
      rewrite list_lookup_insert by lia. replace (S st - st) with 1 by lia. simpl.
      destruct (drop (S st) inp); simpl; f_equal; lia.
    + rewrite list_lookup_insert_ne by done.
      destruct (decide (S st <= j < S st + k)), (decide (st <= j < st + S k)); try lia; [|done].
      destruct (S j - st) as [|q] eqn:Eq; [lia|]. simpl.
      replace (j - st) with q by lia. f_equal. lia.
Qed.

Lemma seq_app_inv (c rest : list nat) st n :
  c ++ rest = seq st n ->
  length c <= n /\ c = seq st (length c) /\ rest = seq (st + length c) (n - length c).
Proof.
  intros H. assert (length c + length rest = n) as Hl.
  { rewrite <- app_length, H, seq_length. done. }
  replace n with (length c + (n - length c)) in H by lia.
  rewrite seq_app in H.
  apply app_inj_1 in H as [H1 H2]; [|by rewrite seq_length].
  repeat split; auto; lia.
Qed.

(** The k-th chunk of a partition of [st, st+n). *)
Lemma chunk_seq chunks : forall st n k c,
  concat chunks = seq st n -> chunks !! k = Some c ->
  let b := st + length (concat (take k chunks)) in
  c = seq b (length c) /\ b + length c <= st + n.
Proof.
  induction chunks as [|c0 cs IH]; intros st n k c Hc Hk; [done|].
  simpl in Hc. apply seq_app_inv in Hc as (Hl & H0 & Hr).
  destruct k as [|k]; simpl in Hk.
  - injection Hk as <-. simpl. rewrite Nat.add_0_r. split; [done|lia].
  - specialize (IH (st + length c0) (n - length c0) k c Hr Hk).
    simpl. rewrite app_length.
    replace (st + (length c0 + length (concat (take k cs))))
      with (st + length c0 + length (concat (take k cs))) by lia.
    destruct IH as [IH1 IH2]. split; [done|lia].
Qed.

Lemma prefix_split (inp : list nat) b q :
  sum_list (take b inp) + sum_list (take q (drop b inp)) = sum_list (take (b + q) inp).
Proof.
  rewrite <- sum_list_app. f_equal.
  rewrite <- (take_drop b (take (b + q) inp)). rewrite take_take, Nat.min_l by lia.
  f_equal. rewrite skipn_firstn_comm. f_equal. lia.
Qed.

Lemma chunk_totals_ok inp offs chunks : forall st n,
  concat chunks = seq st n -> st + n <= length inp ->
  exists ts, chunk_totals inp chunks offs = Some ts /\ length ts = length chunks /\
    (forall k, k <= length chunks ->
       sum_list (take k ts) = sum_list (take (length (concat (take k chunks))) (drop st inp))).
Proof.
  induction chunks as [|c cs IH]; intros st n Hc Hn; simpl.
  - exists []. split; [done|]. split; [done|]. intros k _. by rewrite !take_nil.
  - simpl in Hc. apply seq_app_inv in Hc as (Hl & H0 & Hr).
    rewrite H0, scan_chunk_false by lia.
    destruct (IH (st + length c) (n - length c) Hr) as (ts & -> & Hlt & Hk); [lia|].
    eexists. split; [done|]. split; [simpl; lia|].
    intros [|k] Hle; [done|]. cbn [take sum_list foldr concat].
    simpl in Hle.
    change (sum_list (_ :: take k ts)) with (0 + sum_list (take (length c) (drop st inp)) + sum_list (take k ts)).
    rewrite Hk by lia. rewrite app_length, <- prefix_split.
    rewrite <- H0, drop_drop.
    unfold id; lia.
Qed.


Lemma scan_pass2_ok inp chunks ts order : forall offs,
  concat chunks = seq 0 (length inp) -> length offs = length inp ->
  (forall k, k <= length chunks ->
     sum_list (take k ts) = sum_list (take (length (concat (take k chunks))) inp)) ->
  (forall k, k ∈ order -> k < length chunks) ->
  exists offs', scan_pass2 inp chunks ts order offs = Some offs' /\
    length offs' = length offs /\
    forall j, offs' !! j = Some (sum_list (take (S j) inp)) \/
      (offs' !! j = offs !! j /\
       ~ (exists k c, k ∈ order /\ chunks !! k = Some c /\ j ∈ c)).
Proof.
  induction order as [|k order IH]; intros offs Hc Hl Hts Hk; simpl.
  - exists offs. split; [done|]. split; [done|]. intros j. right.
    split; [done|]. intros (k & c & Hin & _). by apply elem_of_nil in Hin.
  - destruct (lookup_lt_is_Some_2 chunks k) as [c Hck].
    { apply Hk. by constructor. }
    rewrite Hck.
    destruct (chunk_seq chunks 0 (length inp) k c Hc Hck) as [Hseq Hbnd].
    simpl in Hseq, Hbnd. set (b := length (concat (take k chunks))) in *.
    rewrite Hts by (apply Nat.lt_le_incl, Hk; by constructor). fold b.
    rewrite Hseq.
    destruct (scan_chunk_true inp (length c) b (sum_list (take b inp)) offs) as (offs1 & -> & Hl1 & Hp1); [done|done|].
    destruct (IH offs1) as (offs' & Hr & Hl' & Hp'); auto.
    { congruence. }
    { intros k' Hk'. apply Hk. by constructor. }
    exists offs'. split; [done|]. split; [congruence|].
    intros j. destruct (Hp' j) as [Hj|[Hj Hn]]; [by left|].
    rewrite Hj, Hp1. destruct (decide (b <= j < b + length c)) as [Hb|Hb].
    + left. rewrite prefix_split. f_equal. f_equal. f_equal. lia.
    + right. split; [done|]. intros (k' & c' & H1 & H2 & H3).
      apply elem_of_cons in H1 as [->|H1]; [|apply Hn; eauto].
      rewrite Hck in H2. injection H2 as <-. rewrite Hseq in H3. apply elem_of_seq in H3. lia.
Qed.

Lemma kokkos_scan_ok inp offs chunks order :
  scan_plan (length inp) chunks order -> length offs = length inp ->
  exists offs', kokkos_scan inp offs chunks order = Some (sum_list inp, offs') /\
    length offs' = length inp /\
    forall j, j < length inp -> offs' !! j = Some (sum_list (take (S j) inp)).
Proof.
  intros [Hc Ho] Hl. unfold kokkos_scan.
  destruct (chunk_totals_ok inp offs chunks 0 (length inp)) as (ts & -> & Hlt & Hts); [done|lia|].
  rewrite drop_0 in Hts.
  destruct (scan_pass2_ok inp chunks ts order offs) as (offs' & -> & Hl' & Hp); auto.
  { intros k Hk. rewrite Ho in Hk. apply elem_of_seq in Hk. lia. }
  exists offs'. split; [|split].
  - f_equal. f_equal. specialize (Hts (length chunks) ltac:(lia)).
    rewrite <- Hlt in Hts at 1. rewrite firstn_all in Hts.
    rewrite firstn_all, Hc, seq_length, firstn_all in Hts. done.
  - congruence.
  - intros j Hj. destruct (Hp j) as [?|[_ Hn]]; [done|]. destruct Hn.
    assert (j ∈ concat chunks) as Hin by (rewrite Hc; apply elem_of_seq; lia).
    apply elem_of_list_In, in_concat in Hin as (c & Hc' & Hjc).
    apply elem_of_list_In in Hc', Hjc.
    apply elem_of_list_lookup in Hc' as [k Hk].
    exists k, c. split; [|done]. rewrite Ho. apply elem_of_seq.
    apply lookup_lt_Some in Hk. lia.
Qed.

Lemma segments_ok intervals o0 offs chunks order :
  scan_plan (length intervals) chunks order -> length offs = length intervals ->
  exists offs', segmentsFromIntervals intervals (o0 :: offs) chunks order
      = Ok (sum_list intervals, o0 :: offs') /\
    length offs' = length intervals /\
    forall k, k < length intervals -> offs' !! k = Some (sum_list (take (S k) intervals)).
Proof.
  intros Hp Hl. unfold segmentsFromIntervals. rewrite Hl, Nat.eqb_refl.
  destruct (kokkos_scan_ok intervals offs chunks order Hp Hl) as (offs' & -> & H1 & H2).
  eauto.
Qed.

Lemma serial_plan n : scan_plan n [seq 0 n] [0].
Proof. split; simpl; [by rewrite app_nil_r|done]. Qed.

Lemma segmentedField_ok intervals chunks order :
  scan_plan (length intervals) chunks order ->
  exists s, segmentedField intervals chunks order = Ok s /\
    seg_size s = sum_list intervals /\ numSegments s = length intervals /\
    forall k, k <= length intervals -> segments s !! k = Some (sum_list (take k intervals)).
Proof.
  intros Hp. unfold segmentedField. rewrite Nat.add_comm. simpl replicate.
  destruct (segments_ok intervals 0 (replicate (length intervals) 0) chunks order Hp)
    as (offs' & -> & H1 & H2); [by rewrite replicate_length|].
  simpl. eexists. split; [done|]. simpl. split; [done|].
  split; [unfold numSegments; simpl; lia|].
  intros [|k] Hk; simpl; [done|]. apply H2. lia.
Qed.

Lemma sum_take_S (l : list nat) k x :
  l !! k = Some x -> sum_list (take (S k) l) = sum_list (take k l) + x.
Proof.
  intros H. rewrite (take_S_r l k x H), sum_list_app. simpl. lia.
Qed.
Lemma sum_take_le (l : list nat) j k : j <= k -> sum_list (take j l) <= sum_list (take k l).
Proof.
  intros H. replace k with (j + (k - j)) by lia. rewrite <- prefix_split. lia.
Qed.
Lemma sum_take_all (l : list nat) k : sum_list (take k l) <= sum_list l.
Proof. rewrite <- (take_drop k l) at 2. rewrite sum_list_app. lia. Qed.

(** Each value index belongs to exactly one segment. *)
Lemma find_segment (l : list nat) : forall v, v < sum_list l ->
  exists k x, l !! k = Some x /\ sum_list (take k l) <= v < sum_list (take k l) + x.
Proof.
  induction l as [|y l IH]; intros v Hv; simpl in Hv; [lia|].
  destruct (decide (v < y)) as [Hlt|Hge].
  - exists 0, y. simpl. split; [done|lia].
  - destruct (IH (v - y)) as (k & x & Hk & Hb); [lia|].
    exists (S k), x. split; [done|]. cbn [take].
    change (sum_list (y :: take k l)) with (y + sum_list (take k l)). lia.
Qed.

Lemma segmented_partition intervals chunks order s :
  scan_plan (length intervals) chunks order -> segmentedField intervals chunks order = Ok s ->
  (forall k len, intervals !! k = Some len ->
     exists a, seg_bounds s k = Ok (a, a + len) /\ seg_range s k = Ok (a, len) /\
       seg_span s k = Ok (seq a len)) /\
  (forall v, v < seg_size s -> exists k is, seg_span s k = Ok is /\ v ∈ is /\
     forall k' is', seg_span s k' = Ok is' -> v ∈ is' -> k' = k).
Proof.
  intros Hp Hs. destruct (segmentedField_ok _ _ _ Hp) as (s' & Hs' & Hsz & Hn & Hk).
  rewrite Hs in Hs'. injection Hs' as <-.
  assert (Hb : forall k len, intervals !! k = Some len ->
            segments s !! k = Some (sum_list (take k intervals)) /\
            segments s !! (k + 1) = Some (sum_list (take k intervals) + len)).
  { intros k len Hl. pose proof (lookup_lt_Some _ _ _ Hl).
    rewrite !Hk by lia. split; [done|]. rewrite Nat.add_1_r, (sum_take_S _ _ _ Hl). done. }
  assert (Hspan : forall k len, intervals !! k = Some len ->
            seg_span s k = Ok (seq (sum_list (take k intervals)) len)).
  { intros k len Hl. destruct (Hb k len Hl) as [B1 B2].
    unfold seg_span, seg_range. rewrite B1, B2. simpl.
    replace (sum_list (take k intervals) + len - sum_list (take k intervals)) with len by lia.
    pose proof (sum_take_all intervals (S k)). rewrite (sum_take_S _ _ _ Hl) in H.
    rewrite Hsz. destruct (Nat.leb_spec (sum_list (take k intervals) + len) (sum_list intervals)); [done|lia]. }
  split.
  - intros k len Hl. destruct (Hb k len Hl) as [B1 B2].
    exists (sum_list (take k intervals)).
    unfold seg_bounds, seg_range at 1. rewrite B1, B2.
    replace (sum_list (take k intervals) + len - sum_list (take k intervals)) with len by lia.
    split; [done|]. split; [done|]. auto.
  - intros v Hv. rewrite Hsz in Hv. destruct (find_segment intervals v Hv) as (k & x & Hx & Hr).
    exists k, (seq (sum_list (take k intervals)) x). split; [auto|].
    split; [apply elem_of_seq; lia|].
    intros k' is' Hs' Hin.
    destruct (decide (k' < length intervals)) as [Hlt|Hge].
    + destruct (lookup_lt_is_Some_2 intervals k' Hlt) as [x' Hx'].
      rewrite (Hspan k' x' Hx') in Hs'. injection Hs' as <-. apply elem_of_seq in Hin.
      destruct (decide (k' < k)) as [H1|H1].
      * pose proof (sum_take_le intervals (S k') k ltac:(lia)) as H. rewrite (sum_take_S _ _ _ Hx') in H. lia.
      * destruct (decide (k < k')) as [H2|H2]; [|lia].
        pose proof (sum_take_le intervals (S k) k' ltac:(lia)) as H. rewrite (sum_take_S _ _ _ Hx) in H. lia.
    + unfold seg_span, seg_range in Hs'.
      assert (segments s !! (k' + 1) = None) as E.
      { apply lookup_ge_None_2. unfold numSegments in Hn.
        assert (segments s !! 0 <> None) as Hne by (rewrite Hk by lia; done).
        destruct (segments s); simpl in *; [done|lia]. }
      rewrite E in Hs'. by destruct (segments s !! k').
Qed.

Lemma sum_reduce : forall (l : list Qc) e r,
  parallelReduce Qcplus 0%Qc (fun i => default 0%Qc (l !! i)) e 0 (length l) 0%Qc r -> r = sumQ l.
Proof.
  intros l e r H.
  assert (parallelReduce Qcplus 0%Qc (fun i => default 0%Qc (l !! i)) SerialExecutor 0 (length l) 0%Qc (sumQ l)) as H0.
  { simpl. unfold reduce_serial. rewrite Nat.sub_0_r.
    assert (forall (l1 l2 : list Qc) a, 
      (a + sumQ l2)%Qc = fold_left (fun acc i => reduce_kernel Qcplus (fun i => default 0%Qc ((l1 ++ l2) !! i)) i acc) (seq (length l1) (length l2)) a) as G.
    { intros l1 l2. revert l1. induction l2 as [|x l2 IH]; intros l1 a; simpl; [ring|].
      replace (l1 ++ x :: l2) with ((l1 ++ [x]) ++ l2) by (by rewrite <- app_assoc).
      specialize (IH (l1 ++ [x])). rewrite app_length in IH. simpl in IH. rewrite Nat.add_1_r in IH.
      rewrite <- IH. unfold reduce_kernel. rewrite <- app_assoc. simpl.
      rewrite list_lookup_middle by done. simpl. ring. }
    specialize (G [] l 0%Qc). simpl in G. rewrite <- G. ring. }
  symmetry. apply (reduce_same Qcplus 0%Qc (fun i => default 0%Qc (l !! i))) with (e1 := SerialExecutor) (e2 := e) (start := 0) (stop := length l); auto.
  - intros a b c. ring.
  - intros a b. ring.
  - intros a. ring.
Qed.

Lemma reduce_initial_value : forall (T : Type) (join : T -> T -> T) ident contrib,
  (forall a b c, join a (join b c) = join (join a b) c) ->
  (forall a b, join a b = join b a) -> (forall a, join ident a = a) ->
  forall e start stop value rs rk,
  e <> SerialExecutor ->
  parallelReduce join ident contrib SerialExecutor start stop value rs ->
  parallelReduce join ident contrib e start stop value rk -> rs = join value rk.
Proof.
  intros T join ident contrib H1 H2 H3 e start stop value rs rk He Hs Hk.
  simpl in Hs. subst rs. rewrite (reduce_init join ident contrib H1 H2 H3). f_equal.
  destruct e; [done| |]; simpl in Hk; symmetry; by apply kokkos_serial.
Qed.
