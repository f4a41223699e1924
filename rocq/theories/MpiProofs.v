From stdpp Require Import pretty.
From Verif Require Import Base Mpi MpiSpec.
Local Open Scope nat_scope.

(** * Half-duplex buffers *)
Definition offs (counts : list nat) (sz : nat) : list nat :=
  map (fun r => sum_list (take r counts) * sz) (seq 0 (length counts + 1)).

Record hb_ok (n : nat) (counts : list nat) (b : hbuf) : Prop := HbOk {
  hb_len : length counts = n;
  hb_sz : 0 < h_tsize b;
  hb_off : h_off b = offs counts (h_tsize b);
  hb_reqs : length (h_reqs b) = n;
  hb_data : sum_list counts * h_tsize b <= length (h_data b);
}.

Lemma offs_length counts sz : length (offs counts sz) = length counts + 1.
Proof. unfold offs. by rewrite map_length, seq_length. Qed.
Lemma offs_lookup counts sz r : r <= length counts ->
  offs counts sz !! r = Some (sum_list (take r counts) * sz).
Proof.
  intros Hr. unfold offs. change (map ?f ?l) with (f <$> l).
  rewrite list_lookup_fmap, lookup_seq_lt by lia. done.
Qed.
Lemma sum_take_S (l : list nat) r x : l !! r = Some x -> sum_list (take (S r) l) = sum_list (take r l) + x.
Proof.
  intros H. rewrite (take_S_r _ _ _ H), sum_list_with_app. simpl. lia.
Qed.
Lemma sum_take_le (l : list nat) r r' : r <= r' -> sum_list (take r l) <= sum_list (take r' l).
Proof.
  revert r r'. induction l as [|x l IH]; intros r r' H; [by rewrite !take_nil|].
  destruct r; [simpl; lia|]. destruct r'; [lia|]. simpl. specialize (IH r r'). lia.
Qed.
Lemma sum_take_all (l : list nat) r : sum_list (take r l) <= sum_list l.
Proof.
  destruct (decide (r <= length l)).
  - rewrite <- (take_ge l (length l)) at 2 by lia. by apply sum_take_le.
  - by rewrite take_ge by lia.
Qed.

Lemma offsets_from_ok f counts sz i m :
  (forall r, r < i + m -> exists k, counts !! r = Some k /\ f r = Ok k) ->
  offsets_from f sz (seq i m) (sum_list (take i counts) * sz) =
  Ok (map (fun r => sum_list (take r counts) * sz) (seq i m), sum_list (take (i + m) counts) * sz).
Proof.
  revert i. induction m as [|m IH]; intros i H.
  - simpl. by rewrite Nat.add_0_r.
  - cbn [seq offsets_from map]. destruct (H i) as (k & Hk & ->); [lia|]. simpl.
    replace (sum_list (take i counts) * sz + k * sz) with (sum_list (take (S i) counts) * sz)
      by (rewrite (sum_take_S _ _ _ Hk); lia).
    rewrite IH by (intros r Hr; apply H; lia). simpl. by rewrite <- Nat.add_succ_r.
Qed.

Definition new_data (k : nat) (d : list byte) : list byte := if k <? length d then d else vresize k x00 d.

Lemma vresize_length {A} k (x : A) l : length (vresize k x l) = k.
Proof. unfold vresize. rewrite app_length, take_length, replicate_length. lia. Qed.

Lemma updateDataSize_ok n f counts sz b :
  length counts = n -> length (h_off b) = n + 1 ->
  (forall r, r < n -> exists k, counts !! r = Some k /\ f r = Ok k) ->
  exists d, updateDataSize n f sz b = Ok (HBuf (h_tag b) (h_name b) (h_tsize b) (h_reqs b) d (offs counts sz)) /\
    sum_list counts * sz <= length d /\ length (h_data b) <= length d /\
    (forall i x, h_data b !! i = Some x -> d !! i = Some x).
Proof.
  intros Hn Ho Hf. unfold updateDataSize.
  pose proof (offsets_from_ok f counts sz 0 n Hf) as E. simpl in E.
  rewrite E. cbn [obind fst snd]. rewrite Ho.
  replace (n + 1 <? n) with false by (symmetry; apply Nat.ltb_ge; lia).
  replace (n + 1 =? 0) with false by (symmetry; apply Nat.eqb_neq; lia). cbn [orb].
  rewrite take_ge by lia.
  eexists. split; [f_equal; f_equal|].
  - rewrite app_length, map_length, seq_length, drop_length, Ho.
    replace (n + (n + 1 - n) - 1) with n by lia.
    rewrite take_app_alt by (by rewrite map_length, seq_length).
    unfold offs. rewrite Hn, seq_app, map_app. cbn [seq map].
    rewrite Nat.add_0_l, ?(take_ge counts n) by lia. done.
  - destruct (length (h_data b) <? sum_list counts * sz) eqn:El.
    + apply Nat.ltb_lt in El. rewrite vresize_length. split; [lia|]. split; [lia|].
      intros i x Hi. unfold vresize. rewrite lookup_app_l; [|apply lookup_lt_Some in Hi; rewrite take_length; lia].
      rewrite lookup_take; [done|]. apply lookup_lt_Some in Hi. lia.
    + apply Nat.ltb_ge in El. split; [lia|]. split; [lia|]. done.
Qed.

Lemma dassert_true pl b : b = true -> dassert pl b = Ok tt.
Proof. intros ->. unfold dassert. by rewrite andb_false_r. Qed.

Lemma setCommRankSize_gen pl n sz counts b :
  dassert pl (negb (isCommInit b)) = Ok tt -> 0 < sz -> length counts = n ->
  exists b', setCommRankSize pl n sz counts b = Ok b' /\ hb_ok n counts b' /\ h_tsize b' = sz /\
    h_tag b' = h_tag b /\ h_name b' = h_name b /\
    length (h_data b) <= length (h_data b') /\ (forall i x, h_data b !! i = Some x -> h_data b' !! i = Some x) /\
    h_reqs b' = vresize n RNull (h_reqs b).
Proof.
  intros Hi Hsz Hn. unfold setCommRankSize.
  rewrite Hi. cbn [obind].
  rewrite dassert_true by (by apply Nat.eqb_eq). cbn [obind].
  edestruct (updateDataSize_ok n (fun r => oget (counts !! r)) counts sz
    (HBuf (h_tag b) (h_name b) sz (vresize (length counts) RNull (h_reqs b)) (h_data b)
       (vresize (length counts + 1) 0 (h_off b)))) as (d & -> & H1 & H2 & H3); simpl.
  - done.
  - rewrite vresize_length. lia.
  - intros r Hr. destruct (lookup_lt_is_Some_2 counts r) as [k Hk]; [lia|]. exists k. by rewrite Hk.
  - eexists. split; [done|]. split; [|simpl; rewrite Hn; done].
    split; simpl; try done. by rewrite vresize_length.
Qed.
Lemma setCommRankSize_ok pl n sz counts b :
  isCommInit b = false -> 0 < sz -> length counts = n ->
  exists b', setCommRankSize pl n sz counts b = Ok b' /\ hb_ok n counts b' /\ h_tsize b' = sz /\
    isCommInit b' = false /\ h_tag b' = h_tag b /\ h_name b' = h_name b /\
    length (h_data b) <= length (h_data b') /\ (forall i x, h_data b !! i = Some x -> h_data b' !! i = Some x) /\
    h_reqs b' = vresize n RNull (h_reqs b).
Proof.
  intros Hi Hsz Hn. destruct (setCommRankSize_gen pl n sz counts b) as (b' & H1 & H2 & H3 & H4 & H5); try done.
  { apply dassert_true. by rewrite Hi. }
  exists b'. split; [done|]. split; [done|]. split; [done|]. split; [|done]. unfold isCommInit in *. by rewrite H4.
Qed.

Lemma hbuf_new_ok pl n counts : length counts = n ->
  exists b, hbuf_new pl n counts = Ok b /\ hb_ok n counts b /\ h_tsize b = 1 /\ isCommInit b = false /\
    h_reqs b = replicate n RNull /\ h_tag b = (-1)%Z.
Proof.
  intros Hn. unfold hbuf_new.
  destruct (setCommRankSize_ok pl n 1 counts hbuf_default) as (b & H1 & H2 & H3 & H4 & H5 & H6 & H7 & H8 & H9); [done|lia|done|].
  exists b. split; [done|]. split; [done|]. split; [done|]. split; [done|]. rewrite H9, H5. unfold vresize. simpl.
  rewrite take_nil. simpl. by rewrite Nat.sub_0_r.
Qed.

Lemma setType_ok pl n counts sz b : hb_ok n counts b -> dassert pl (negb (isCommInit b)) = Ok tt -> 0 < sz ->
  exists b', setType pl n sz b = Ok b' /\ hb_ok n counts b' /\ h_tsize b' = sz /\
    h_tag b' = h_tag b /\ h_name b' = h_name b /\ h_reqs b' = h_reqs b /\
    length (h_data b) <= length (h_data b') /\ (forall i x, h_data b !! i = Some x -> h_data b' !! i = Some x).
Proof.
  intros Hb Hi Hsz. unfold setType. rewrite Hi. cbn [obind].
  destruct (h_tsize b =? sz) eqn:E.
  - apply Nat.eqb_eq in E. exists b. repeat (split; [done|]). done.
  - destruct Hb as [Hl Hz Ho Hr Hd].
    edestruct (updateDataSize_ok n
      (fun r => let! hi := oget (h_off b !! (r + 1)) in let! lo := oget (h_off b !! r) in Ok ((hi - lo) / h_tsize b))
      counts sz b) as (d & -> & H1 & H2 & H3).
    + done.
    + rewrite Ho, offs_length. lia.
    + intros r Hrn. destruct (lookup_lt_is_Some_2 counts r) as [k Hk]; [lia|]. exists k. split; [done|].
      rewrite Ho, !offs_lookup by lia. simpl. rewrite Nat.add_1_r, (sum_take_S _ _ _ Hk). f_equal.
      replace ((sum_list (take r counts) + k) * h_tsize b - sum_list (take r counts) * h_tsize b) with (k * h_tsize b) by nia.
      apply Nat.div_mul. lia.
    + cbn [obind]. eexists. split; [done|]. split; [|simpl; done]. split; simpl; try done.
Qed.

Lemma bufferHash_range pl name : (10 <= bufferHash pl name <= 32766)%Z.
Proof. unfold bufferHash. pose proof (Z.mod_pos_bound (Z.of_N (N.land (hash pl name) 2147483647)) (32767 - 10)). lia. Qed.

Lemma initComm_gen pl n counts sz name b : hb_ok n counts b -> dassert pl (negb (isCommInit b)) = Ok tt -> 0 < sz ->
  exists b', initComm pl n sz name b = Ok b' /\ hb_ok n counts b' /\ h_tsize b' = sz /\
    h_tag b' = bufferHash pl name /\ h_name b' = name /\ h_reqs b' = h_reqs b /\ isCommInit b' = true /\
    length (h_data b) <= length (h_data b') /\ (forall i x, h_data b !! i = Some x -> h_data b' !! i = Some x).
Proof.
  intros Hb Hi Hsz. unfold initComm. rewrite Hi. cbn [obind].
  destruct (setType_ok pl n counts sz b Hb Hi Hsz) as (b' & -> & Hb' & H1 & H2 & H3 & H4 & H5 & H6). cbn [obind].
  eexists. split; [done|]. split; [destruct Hb'; split; done|]. simpl.
  split; [done|]. split; [done|]. split; [done|]. split; [done|]. split; [|done].
  unfold isCommInit. simpl. pose proof (bufferHash_range pl name). apply negb_true_iff, Z.eqb_neq. lia.
Qed.
Lemma initComm_ok pl n counts sz name b : hb_ok n counts b -> isCommInit b = false -> 0 < sz ->
  exists b', initComm pl n sz name b = Ok b' /\ hb_ok n counts b' /\ h_tsize b' = sz /\
    h_tag b' = bufferHash pl name /\ h_name b' = name /\ h_reqs b' = h_reqs b /\ isCommInit b' = true /\
    length (h_data b) <= length (h_data b') /\ (forall i x, h_data b !! i = Some x -> h_data b' !! i = Some x).
Proof. intros Hb Hi Hsz. apply initComm_gen; [done| |done]. apply dassert_true. by rewrite Hi. Qed.

Lemma get_ok pl n counts b r : hb_ok n counts b -> isCommInit b = true -> r < n ->
  get pl (h_tsize b) r b = Ok (Span (sum_list (take r counts) * h_tsize b) (default 0 (counts !! r))).
Proof.
  intros [Hl Hz Ho Hr Hd] Hi Hrn. unfold get.
  rewrite dassert_true by done. cbn [obind]. rewrite dassert_true by (by apply Nat.eqb_eq). cbn [obind].
  destruct (lookup_lt_is_Some_2 counts r) as [k Hk]; [lia|].
  rewrite Ho, !offs_lookup by lia. simpl. rewrite Hk, Nat.add_1_r, (sum_take_S _ _ _ Hk). simpl. f_equal. f_equal.
  replace ((sum_list (take r counts) + k) * h_tsize b - sum_list (take r counts) * h_tsize b) with (k * h_tsize b) by nia.
  apply Nat.div_mul. lia.
Qed.

(** the requests with data *)
Definition posts_of (counts : list nat) (sz : nat) (tag : Z) (ranks : list nat) : list post :=
  omap (fun r => match counts !! r with
     | Some (S k) => Some (Post r (sum_list (take r counts) * sz) (S k * sz) tag) | _ => None end) ranks.
Definition pend (counts : list nat) (rs : list request) (ranks : list nat) : list request :=
  foldl (fun rs r => match counts !! r with Some (S _) => <[r := RPending]> rs | _ => rs end) rs ranks.

Lemma pend_length counts rs ranks : length (pend counts rs ranks) = length rs.
Proof.
  revert rs. induction ranks as [|r ranks IH]; intros rs; [done|]. simpl. rewrite IH.
  destruct (counts !! r) as [[|k]|]; try done. by rewrite insert_length.
Qed.
Lemma pend_lookup counts rs ranks r : r < length rs -> (forall k, counts !! r = Some (S k) -> r ∈ ranks) ->
  NoDup ranks ->
  pend counts rs ranks !! r = match counts !! r with Some (S _) => Some RPending | _ => rs !! r end.
Proof.
  intros Hr Hin Hnd. unfold pend.
  assert (G : forall rs, r < length rs ->
     foldl (fun rs r => match counts !! r with Some (S _) => <[r := RPending]> rs | _ => rs end) rs ranks !! r =
     if decide (r ∈ ranks) then match counts !! r with Some (S _) => Some RPending | _ => rs !! r end else rs !! r).
  { clear Hr Hin rs. induction Hnd as [|a ranks Ha Hnd IH]; intros rs Hr; [done|]. simpl.
    rewrite IH by (destruct (counts !! a) as [[|]|]; rewrite ?insert_length; done).
    destruct (decide (r = a)) as [->|Hne].
    - rewrite !decide_False by set_solver. rewrite decide_True by set_solver.
      destruct (counts !! a) as [[|k]|]; try done. by rewrite list_lookup_insert.
    - assert (E : (match counts !! a with Some (S _) => <[a := RPending]> rs | _ => rs end) !! r = rs !! r).
      { destruct (counts !! a) as [[|k]|]; try done. rewrite list_lookup_insert_ne by congruence. done. }
      rewrite E. destruct (decide (r ∈ ranks)).
      + rewrite decide_True by set_solver. done.
      + rewrite decide_False by set_solver. done. }
  rewrite G by done. destruct (decide (r ∈ ranks)) as [|Hn]; [done|].
  destruct (counts !! r) as [[|k]|] eqn:E; try done. destruct Hn. by eapply Hin.
Qed.

Lemma post_loop_ok n counts b ranks acc : hb_ok n counts b -> Forall (fun r => r < n) ranks -> length acc.2 = n ->
  ofold (post_rank b) ranks acc =
  Ok (acc.1 ++ posts_of counts (h_tsize b) (h_tag b) ranks, pend counts acc.2 ranks).
Proof.
  intros Hb Hr. pose proof Hb as [Hl Hz Ho Hq Hd].
  revert acc. induction Hr as [|r ranks Hrn _ IH]; intros acc Hacc; simpl.
  - unfold posts_of. simpl. rewrite app_nil_r. by destruct acc.
  - unfold post_rank at 1. destruct (lookup_lt_is_Some_2 counts r) as [k Hk]; [lia|].
    rewrite Ho, !offs_lookup by lia. cbn [oget obind]. rewrite Nat.add_1_r, (sum_take_S _ _ _ Hk).
    replace ((sum_list (take r counts) + k) * h_tsize b - sum_list (take r counts) * h_tsize b) with (k * h_tsize b) by nia.
    unfold posts_of, pend. cbn [omap list_omap foldl]. rewrite Hk. destruct k as [|k].
    + simpl. rewrite IH by done. done.
    + replace (S k * h_tsize b =? 0) with false by (symmetry; apply Nat.eqb_neq; nia).
      destruct (lookup_lt_is_Some_2 acc.2 r) as [q Hqq]; [lia|]. rewrite Hqq. cbn [oget obind].
      rewrite IH by (simpl; by rewrite insert_length). simpl. rewrite <- app_assoc. done.
Qed.

Lemma test_all_null rs : Forall (fun r => r = RNull) rs -> test_all rs = (true, rs).
Proof. induction 1 as [|r rs -> _ IH]; [done|]. simpl. by rewrite IH. Qed.
Lemma test_all_spec rs : (test_all rs).1 = bool_decide (Forall (fun r => r <> RPending) rs) /\
  length (test_all rs).2 = length rs /\
  ((test_all rs).1 = true -> Forall (fun r => r = RNull) (test_all rs).2) /\
  (forall r, rs !! r = Some RPending -> (test_all rs).2 !! r = Some RPending).
Proof.
  induction rs as [|r rs (IH1 & IH2 & IH3 & IH4)]; simpl.
  - split; [by rewrite ?bool_decide_eq_true_2 by constructor|]. split; [done|]. split; [constructor|]. done.
  - destruct r; simpl; destruct (test_all rs) as [g q]; simpl in *.
    + split; [rewrite IH1; apply bool_decide_ext; rewrite Forall_cons; naive_solver|]. split; [by rewrite IH2|].
      split; [intros H; constructor; auto|]. intros [|r]; simpl; [done|apply IH4].
    + split; [done|]. split; [done|]. done.
    + split; [rewrite IH1; apply bool_decide_ext; rewrite Forall_cons; naive_solver|]. split; [by rewrite IH2|].
      split; [intros H; constructor; auto|]. intros [|r]; simpl; [done|apply IH4].
Qed.

Lemma test_all_pending rs r : (test_all rs).2 !! r = Some RPending <-> rs !! r = Some RPending.
Proof.
  revert r. induction rs as [|q rs IH]; intros r; simpl; [done|].
  destruct q; simpl; destruct (test_all rs) as [g q]; simpl in *; destruct r as [|r]; simpl; try done; apply IH.
Qed.

Lemma set_reqs_ok n counts b rs : hb_ok n counts b -> length rs = n -> hb_ok n counts (set_reqs b rs).
Proof. intros [H1 H2 H3 H4 H5] H. split; done. Qed.

Lemma isComplete_ok pl n counts b : 0 < n -> hb_ok n counts b -> isCommInit b = true ->
  isComplete pl b = Ok ((test_all (h_reqs b)).1, set_reqs b (test_all (h_reqs b)).2).
Proof.
  intros Hn Hb Hi. unfold isComplete. rewrite dassert_true by done. cbn [obind].
  pose proof (hb_reqs _ _ _ Hb) as Hq. destruct (h_reqs b) eqn:E; [simpl in *; lia|].
  rewrite <- E. by destruct (test_all (h_reqs b)).
Qed.

(** posting with all requests null *)
Lemma post_all_ok pl n counts b : 0 < n -> hb_ok n counts b -> isCommInit b = true ->
  Forall (fun r => r = RNull) (h_reqs b) ->
  post_all pl n b = Ok (posts_of counts (h_tsize b) (h_tag b) (seq 0 n), set_reqs b (pend counts (h_reqs b) (seq 0 n))).
Proof.
  intros Hn Hb Hi Hnull. unfold post_all. rewrite dassert_true by done. cbn [obind].
  assert (E : dassert_complete pl b = Ok b).
  { unfold dassert_complete. destruct (debug pl); [|done].
    rewrite (isComplete_ok pl n counts b) by done. rewrite test_all_null by done. simpl. by destruct b. }
  rewrite E. cbn [obind]. rewrite (post_loop_ok n counts b (seq 0 n)); [done|done| |].
  - apply Forall_forall. intros r Hr. apply elem_of_seq in Hr. lia.
  - simpl. apply Hb.
Qed.

(** * Packing and unpacking *)
Definition slot (sz p : nat) (d : list byte) : list byte := take sz (drop p d).

Lemma slot_lookup sz p d i : slot sz p d !! i = if decide (i < sz) then d !! (p + i) else None.
Proof.
  unfold slot. destruct (decide (i < sz)).
  - rewrite lookup_take by done. by rewrite lookup_drop.
  - by rewrite lookup_take_ge by lia.
Qed.
Lemma slot_inserts_same sz p v d : length v = sz -> p + sz <= length d -> slot sz p (list_inserts p v d) = v.
Proof.
  intros Hv Hd. apply list_eq. intros i. rewrite slot_lookup. destruct (decide (i < sz)) as [Hi|Hi].
  - rewrite list_lookup_inserts by lia. f_equal. lia.
  - symmetry. apply lookup_ge_None. lia.
Qed.
Lemma slot_inserts_other sz p q v d : length v = sz -> q + sz <= p \/ p + sz <= q ->
  slot sz q (list_inserts p v d) = slot sz q d.
Proof.
  intros Hv Hd. apply list_eq. intros i. rewrite !slot_lookup. destruct (decide (i < sz)) as [Hi|Hi]; [|done].
  destruct Hd.
  - rewrite list_lookup_inserts_lt by lia. done.
  - rewrite list_lookup_inserts_ge by lia. done.
Qed.
Lemma slot_slot sz p q len d : q + sz <= len -> slot sz q (slot len p d) = slot sz (p + q) d.
Proof.
  intros H. apply list_eq. intros i. rewrite !slot_lookup. destruct (decide (i < sz)); [|done].
  rewrite decide_True by lia. by rewrite Nat.add_assoc.
Qed.
Lemma slot_inserts_in sz p q v d : q + sz <= length v -> p + length v <= length d ->
  slot sz (p + q) (list_inserts p v d) = slot sz q v.
Proof.
  intros H Hd. apply list_eq. intros i. rewrite !slot_lookup. destruct (decide (i < sz)); [|done].
  rewrite list_lookup_inserts by lia. f_equal. lia.
Qed.
Lemma slot_length sz p d : p + sz <= length d -> length (slot sz p d) = sz.
Proof. intros. unfold slot. rewrite take_length, drop_length. lia. Qed.
Lemma slot_inserts_disj sz p q v d : q + sz <= p \/ p + length v <= q ->
  slot sz q (list_inserts p v d) = slot sz q d.
Proof.
  intros Hd. apply list_eq. intros i. rewrite !slot_lookup. destruct (decide (i < sz)) as [Hi|Hi]; [|done].
  destruct Hd.
  - rewrite list_lookup_inserts_lt by lia. done.
  - rewrite list_lookup_inserts_ge by lia. done.
Qed.


Lemma counts_lookup (m : list (list nat)) r l : m !! r = Some l -> (length <$> m) !! r = Some (length l).
Proof. intros H. by rewrite list_lookup_fmap, H. Qed.

Lemma window_bound (counts : list nat) r c k : counts !! r = Some c -> k < c ->
  sum_list (take r counts) + k < sum_list counts.
Proof. intros Hr Hk. pose proof (sum_take_all counts (S r)). rewrite (sum_take_S _ _ _ Hr) in H. lia. Qed.

(** windows of different (rank, element) pairs do not overlap *)
Lemma window_inj (counts : list nat) r r' c c' k k' : counts !! r = Some c -> counts !! r' = Some c' ->
  k < c -> k' < c' -> r < r' ->
  sum_list (take r counts) + k < sum_list (take r' counts) + k'.
Proof.
  intros Hr Hr' Hk Hk' Hlt. pose proof (sum_take_le counts (S r) r'). rewrite (sum_take_S _ _ _ Hr) in H. lia.
Qed.

Definition pos (counts : list nat) (sz r k : nat) : nat := (sum_list (take r counts) + k) * sz.

Lemma pack_inner pl sz counts r c field m d ks :
  0 < sz -> counts !! r = Some c -> length m = c ->
  sum_list counts * sz <= length d ->
  Forall (fun v => length v = sz) field -> Forall (fun i => i < length field) m ->
  Forall (fun k => k < c) ks -> NoDup ks ->
  exists d', ofold (pack_one pl sz (Span (sum_list (take r counts) * sz) c) m field) ks d = Ok d' /\
    length d' = length d /\
    (forall k i v, k ∈ ks -> m !! k = Some i -> field !! i = Some v -> slot sz (pos counts sz r k) d' = v) /\
    (forall q, (forall k, k ∈ ks -> q + sz <= pos counts sz r k \/ pos counts sz r k + sz <= q) -> slot sz q d' = slot sz q d).
Proof.
  intros Hsz Hc Hm Hd Hf Hi Hks Hnd. revert d Hd. induction Hnd as [|k ks Hk Hnd IH]; intros d Hd.
  - exists d. split; [done|]. split; [done|]. split; [|done]. intros k i v H. by apply elem_of_nil in H.
  - apply Forall_cons in Hks as [Hkc Hks]. cbn [ofold]. unfold pack_one at 1.
    destruct (lookup_lt_is_Some_2 m k) as [i Hmi]; [lia|]. rewrite Hmi. cbn [oget obind].
    assert (Hil : i < length field) by (eapply Forall_lookup_1 in Hi; eauto).
    destruct (lookup_lt_is_Some_2 field i) as [v Hv]; [done|]. rewrite Hv. cbn [oget obind].
    assert (Hvl : length v = sz) by (eapply Forall_lookup_1 in Hf; eauto; done).
    pose proof (window_bound counts r c k Hc Hkc) as Hb.
    assert (Hp : sum_list (take r counts) * sz + k * sz = pos counts sz r k) by (unfold pos; lia).
    assert (Hpb : pos counts sz r k + sz <= sum_list counts * sz) by (unfold pos; nia).
    unfold span_write. cbn [sp_count sp_off]. rewrite Hp.
    replace (k <? c) with true by (symmetry; by apply Nat.ltb_lt).
    replace (pos counts sz r k + sz <=? length d) with true by (symmetry; apply Nat.leb_le; lia).
    replace (length v =? sz) with true by (symmetry; by apply Nat.eqb_eq). cbn [andb obind].
    destruct (IH Hks (list_inserts (pos counts sz r k) v d)) as (d' & E & Hl & Hin & Hout).
    { rewrite inserts_length. done. }
    exists d'. split; [done|]. split; [by rewrite Hl, inserts_length|]. split.
    + intros k' i' v' Hk' Hmk' Hfv'. apply elem_of_cons in Hk' as [->|Hk']; [|by eapply Hin].
      rewrite Hout.
      * assert (i' = i) as -> by congruence. assert (v' = v) as -> by congruence.
        apply slot_inserts_same; [done|lia].
      * intros k' Hk'. assert (k' <> k) by (intros ->; done). unfold pos. nia.
    + intros q Hq. rewrite Hout by (intros k' Hk'; apply Hq; by right).
      apply slot_inserts_other; [done|]. destruct (Hq k); [by left|lia|lia].
Qed.

Lemma pack_ok pl n sr_send sz field b ranks :
  hb_ok n (length <$> sr_send) b -> isCommInit b = true -> h_tsize b = sz -> fits sz field sr_send ->
  NoDup ranks -> Forall (fun r => r < n) ranks ->
  exists d, ofold (pack_rank pl sz sr_send field) ranks b = Ok (set_data b d) /\ length d = length (h_data b) /\
    (forall r m k i v, r ∈ ranks -> sr_send !! r = Some m -> m !! k = Some i -> field !! i = Some v ->
       slot sz (pos (length <$> sr_send) sz r k) d = v) /\
    (forall r m k, r ∉ ranks -> sr_send !! r = Some m -> k < length m ->
       slot sz (pos (length <$> sr_send) sz r k) d = slot sz (pos (length <$> sr_send) sz r k) (h_data b)).
Proof.
  intros Hb Hi Hsz [Hf Hm] Hnd Hr. revert b Hb Hi Hsz. induction Hnd as [|r ranks Hnr Hnd IH]; intros b Hb Hi Hsz.
  - exists (h_data b). split; [by destruct b|]. split; [done|]. split; [|done].
    intros r m k i v H. by apply elem_of_nil in H.
  - apply Forall_cons in Hr as [Hrn Hr]. cbn [ofold]. unfold pack_rank at 1. pose proof Hb as [Hl Hz Ho Hq Hd].
    rewrite fmap_length in Hl.
    destruct (lookup_lt_is_Some_2 sr_send r) as [m Hsm]; [lia|].
    rewrite <- Hsz, (get_ok pl n _ b r Hb Hi Hrn). cbn [obind]. rewrite Hsm. cbn [oget obind].
    rewrite (counts_lookup _ _ _ Hsm). change (default 0 (Some (length m))) with (length m).
    destruct (pack_inner pl (h_tsize b) (length <$> sr_send) r (length m) field m (h_data b) (seq 0 (length m)))
      as (d & E & Hdl & Hin & Hout); try done.
    + by apply counts_lookup.
    + by rewrite Hsz.
    + by eapply Forall_lookup_1 in Hm.
    + apply Forall_forall. intros k Hk. apply elem_of_seq in Hk. lia.
    + apply NoDup_seq.
    + rewrite E. cbn [obind]. rewrite Hsz.
      destruct (IH Hr (set_data b d)) as (d' & E' & Hdl' & Hin' & Hout').
      * split; simpl; try done. by rewrite fmap_length. lia.
      * done.
      * done.
      * exists d'. split; [exact E'|]. split; [simpl in Hdl'; lia|]. rewrite Hsz in *. split.
        { intros r' m' k i v Hr' Hm' Hk Hv. apply elem_of_cons in Hr' as [->|Hr']; [|by eapply Hin'].
          assert (m' = m) as -> by congruence. assert (Hkl := lookup_lt_Some _ _ _ Hk).
          rewrite (Hout' r m k) by done. simpl. eapply Hin; [apply elem_of_seq; lia|done|done]. }
        { intros r' m' k Hr' Hm' Hk. apply not_elem_of_cons in Hr' as [Hne Hr'].
          rewrite (Hout' r' m' k) by done. simpl. apply Hout. intros k' Hk'. apply elem_of_seq in Hk'.
          pose proof (counts_lookup _ _ _ Hsm) as C1. pose proof (counts_lookup _ _ _ Hm') as C2.
          unfold pos. destruct (decide (r < r')).
          - pose proof (window_inj _ _ _ _ _ k' k C1 C2). nia.
          - pose proof (window_inj _ _ _ _ _ k k' C2 C1). nia. }
Qed.

(** inserting a list of (index, value) pairs *)
Definition ins_all (x : list value) (ps : list (nat * value)) : list value := foldl (fun x p => <[p.1 := p.2]> x) x ps.
Lemma ins_all_length x ps : length (ins_all x ps) = length x.
Proof. revert x. induction ps as [|p ps IH]; intros x; [done|]. simpl. by rewrite IH, insert_length. Qed.
Lemma ins_all_app x ps qs : ins_all x (ps ++ qs) = ins_all (ins_all x ps) qs.
Proof. unfold ins_all. by rewrite foldl_app. Qed.
Lemma ins_all_out x ps i : i ∉ ps.*1 -> ins_all x ps !! i = x !! i.
Proof.
  revert x. induction ps as [|p ps IH]; intros x Hi; [done|]. simpl. apply not_elem_of_cons in Hi as [H1 H2].
  rewrite IH by done. by rewrite list_lookup_insert_ne by done.
Qed.
Lemma ins_all_in x ps i v : NoDup ps.*1 -> (i, v) ∈ ps -> i < length x -> ins_all x ps !! i = Some v.
Proof.
  revert x. induction ps as [|p ps IH]; intros x Hnd Hin Hi; [by apply elem_of_nil in Hin|].
  simpl in *. apply NoDup_cons in Hnd as [Hp Hnd]. apply elem_of_cons in Hin as [<-|Hin].
  - rewrite ins_all_out by done. by rewrite list_lookup_insert.
  - apply IH; [done|done|by rewrite insert_length].
Qed.

Definition rank_pairs (counts : list nat) (sz : nat) (d : list byte) (r : nat) (m : list nat) : list (nat * value) :=
  imap (fun k i => (i, slot sz (pos counts sz r k) d)) m.

Lemma unpack_inner pl sz counts r m d x j :
  0 < sz -> counts !! r = Some (j + length m) -> sum_list counts * sz <= length d ->
  Forall (fun i => i < length x) m ->
  forall full, drop j full = m -> 
  ofold (unpack_one pl sz (Span (sum_list (take r counts) * sz) (j + length m)) full d) (seq j (length m)) x =
  Ok (ins_all x (imap (fun k i => (i, slot sz (pos counts sz r (j + k)) d)) m)).
Proof.
  intros Hsz. revert j x. induction m as [|i m IH]; intros j x Hc Hd Hi full Hfull; [done|].
  apply Forall_cons in Hi as [Hil Hi]. cbn [length seq ofold]. unfold unpack_one at 1.
  assert (Hfj : full !! j = Some i).
  { rewrite <- (Nat.add_0_r j). rewrite <- lookup_drop, Hfull. done. }
  rewrite Hfj. cbn [oget obind]. cbn [length] in Hc.
  pose proof (window_bound counts r _ j Hc ltac:(lia)) as Hb.
  assert (Hp : sum_list (take r counts) * sz + j * sz = pos counts sz r j) by (unfold pos; lia).
  unfold span_read. cbn [sp_count sp_off]. rewrite Hp.
  replace (j <? j + S (length m)) with true by (symmetry; apply Nat.ltb_lt; lia).
  replace (pos counts sz r j + sz <=? length d) with true by (symmetry; apply Nat.leb_le; unfold pos; nia).
  cbn [andb obind]. destruct (lookup_lt_is_Some_2 x i Hil) as [v Hv]. rewrite Hv. cbn [oget obind].
  replace (j + S (length m)) with (S j + length m) by lia.
  rewrite (IH (S j)).
  - rewrite imap_cons. cbn [ins_all foldl fst snd]. rewrite Nat.add_0_r. f_equal. unfold ins_all. cbn [foldl fst snd].
    f_equal. apply imap_ext. intros k i' _. simpl. do 3 f_equal. lia.
  - rewrite Hc. f_equal. lia.
  - done.
  - eapply Forall_impl; [exact Hi|]. intros. by rewrite insert_length.
  - erewrite drop_S in Hfull by done. by injection Hfull.
Qed.

Definition all_pairs (m : list (list nat)) (sz : nat) (d : list byte) (ranks : list nat) : list (nat * value) :=
  concat (map (fun r => rank_pairs (length <$> m) sz d r (default [] (m !! r))) ranks).

Lemma unpack_ok pl n sr_recv sz b ranks x :
  hb_ok n (length <$> sr_recv) b -> isCommInit b = true -> h_tsize b = sz ->
  Forall (Forall (fun i => i < length x)) sr_recv -> Forall (fun r => r < n) ranks ->
  ofold (unpack_rank pl sz sr_recv b) ranks x = Ok (ins_all x (all_pairs sr_recv sz (h_data b) ranks)).
Proof.
  intros Hb Hi Hsz Hm Hr. revert x Hm. induction Hr as [|r ranks Hrn _ IH]; intros x Hm; [done|].
  cbn [ofold]. unfold unpack_rank at 1. pose proof Hb as [Hl Hz Ho Hq Hd]. rewrite fmap_length in Hl.
  destruct (lookup_lt_is_Some_2 sr_recv r) as [m Hsm]; [lia|].
  rewrite <- Hsz, (get_ok pl n _ b r Hb Hi Hrn). cbn [obind]. rewrite Hsm. cbn [oget obind].
  rewrite (counts_lookup _ _ _ Hsm). change (default 0 (Some (length m))) with (length m).
  rewrite (unpack_inner pl (h_tsize b) (length <$> sr_recv) r m (h_data b) x 0) ; try done.
  - cbn [obind]. rewrite Hsz, IH by (eapply Forall_impl; [exact Hm|]; intros ? Hl2; eapply Forall_impl; [exact Hl2|]; intros; by rewrite ins_all_length). unfold all_pairs. cbn [map concat].
    rewrite Hsm, ins_all_app. done.
  - by rewrite (counts_lookup _ _ _ Hsm).
  - by eapply Forall_lookup_1 in Hm.
Qed.

Lemma all_pairs_keys m sz d : (all_pairs m sz d (seq 0 (length m))).*1 = concat m.
Proof.
  unfold all_pairs.
  assert (G : forall (l : list (list nat)) (f : nat -> list nat -> list (nat * value)) j full,
     (forall r l, (f r l).*1 = l) -> drop j full = l ->
     (concat (map (fun r => f r (default [] (full !! r))) (seq j (length l)))).*1 = concat l).
  { intros l f. induction l as [|a l IH]; intros j full Hf Hd; [done|]. cbn [length seq map concat].
    rewrite fmap_app. f_equal.
    - assert (E : full !! j = Some a) by (rewrite <- (Nat.add_0_r j), <- lookup_drop, Hd; done). by rewrite E.
    - apply IH; [done|]. assert (E : full !! j = Some a) by (rewrite <- (Nat.add_0_r j), <- lookup_drop, Hd; done).
      erewrite drop_S in Hd by done. by injection Hd. }
  apply (G m (fun r l => rank_pairs (length <$> m) sz d r l)); [|done].
  intros r l. unfold rank_pairs. apply list_eq. intros i. rewrite list_lookup_fmap, list_lookup_imap.
  by destruct (l !! i).
Qed.
Lemma all_pairs_in m sz d r mr k i : m !! r = Some mr -> mr !! k = Some i ->
  (i, slot sz (pos (length <$> m) sz r k) d) ∈ all_pairs m sz d (seq 0 (length m)).
Proof.
  intros Hr Hk. unfold all_pairs. apply elem_of_list_In, in_concat.
  exists (rank_pairs (length <$> m) sz d r mr). split.
  - apply in_map_iff. exists r. rewrite Hr. split; [done|]. apply in_seq. apply lookup_lt_Some in Hr. lia.
  - apply elem_of_list_In, elem_of_list_lookup. exists k. unfold rank_pairs. by rewrite list_lookup_imap, Hk.
Qed.
