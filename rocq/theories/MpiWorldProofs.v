(** The communicator on one rank, and all ranks together. *)
From Verif Require Import Base Mpi MpiSpec MpiProofs.
Local Open Scope nat_scope.

Definition buf_idle (n : nat) (counts : list nat) (b : hbuf) : Prop :=
  hb_ok n counts b /\ isCommInit b = false /\ Forall (fun r => r = RNull) (h_reqs b).
Definition buf_busy (n : nat) (counts : list nat) (sz : nat) (tag : Z) (b : hbuf) : Prop :=
  hb_ok n counts b /\ isCommInit b = true /\ h_tsize b = sz /\ h_tag b = tag.

Definition comm_idle (n : nat) (sr : list (list nat) * list (list nat)) (c : comm) : Prop :=
  c_send c = sr.1 /\ c_recv c = sr.2 /\ (forall name p, c_map c !! name <> Some (Some p)) /\
  ((c_bufs c = [] /\ c_cap c = 0 /\ c_epoch c = 0) \/
   exists f, c_bufs c = [f] /\ c_epoch c = 1 /\ buf_idle n (length <$> sr.1) (f_send f) /\ buf_idle n (length <$> sr.2) (f_recv f)).

Definition comm_flight (n : nat) (sr : list (list nat) * list (list nat)) (sz : nat) (tag : Z) (name : string)
    (c : comm) (f : fbuf) : Prop :=
  c_send c = sr.1 /\ c_recv c = sr.2 /\ c_map c !! name = Some (Some (1, 0)) /\
  (forall name' p, name' <> name -> c_map c !! name' <> Some (Some p)) /\
  c_bufs c = [f] /\ c_epoch c = 1 /\
  buf_busy n (length <$> sr.1) sz tag (f_send f) /\ buf_busy n (length <$> sr.2) sz tag (f_recv f).

Definition packed (m : list (list nat)) (sz : nat) (field : list value) (d : list byte) : Prop :=
  forall r mr k i v, m !! r = Some mr -> mr !! k = Some i -> field !! i = Some v ->
    slot sz (pos (length <$> m) sz r k) d = v.

Lemma sizes_ok (m : list (list nat)) n : length m = n ->
  ofold (fun acc r => let! x := oget (m !! r) in Ok (acc ++ [length x])) (seq 0 n) [] = Ok (length <$> m).
Proof.
  intros Hn.
  assert (G : forall l j acc, drop j m = l ->
    ofold (fun acc r => let! x := oget (m !! r) in Ok (acc ++ [length x])) (seq j (length l)) acc = Ok (acc ++ (length <$> l))).
  { induction l as [|a l IH]; intros j acc Hd; [simpl; by rewrite app_nil_r|]. cbn [length seq ofold].
    assert (E : m !! j = Some a) by (rewrite <- (Nat.add_0_r j), <- lookup_drop, Hd; done). rewrite E. cbn [oget obind].
    rewrite IH.
    - rewrite fmap_cons, <- app_assoc. done.
    - erewrite drop_S in Hd by done. by injection Hd. }
  specialize (G m 0 [] eq_refl). by rewrite <- Hn.
Qed.

Lemma null_replicate n : Forall (fun r => r = RNull) (replicate n RNull).
Proof. by apply Forall_replicate. Qed.

Lemma startComm_idle pl n sr sz field name c :
  0 < n -> 0 < sz -> length sr.1 = n -> length sr.2 = n -> fits sz field sr.1 -> comm_idle n sr c ->
  exists c' f,
    startComm pl n sz field name c =
      Ok (posts_of (length <$> sr.1) sz (bufferHash pl name) (seq 0 n),
          posts_of (length <$> sr.2) sz (bufferHash pl name) (seq 0 n), (1, 0), c') /\
    comm_flight n sr sz (bufferHash pl name) name c' f /\
    packed sr.1 sz field (h_data (f_send f)) /\
    (forall r, r < n -> h_reqs (f_send f) !! r =
       Some (match (length <$> sr.1) !! r with Some (S _) => RPending | _ => RNull end)) /\
    (forall r, r < n -> h_reqs (f_recv f) !! r =
       Some (match (length <$> sr.2) !! r with Some (S _) => RPending | _ => RNull end)).
Proof.
  intros Hn Hsz Hl1 Hl2 Hfit (Hs & Hr & Hm & Hb). unfold startComm.
  rewrite dassert_true; [|destruct (c_map c !! name) as [[p|]|] eqn:E; [by apply Hm in E|done|done]]. cbn [obind].
  assert (G : exists f0 c0,
    match find_free (c_bufs c) 0 with Some i => Ok ((c_epoch c, i), c) | None => createNew pl n c end = Ok ((1, 0), c0) /\
    c_send c0 = sr.1 /\ c_recv c0 = sr.2 /\ c_map c0 = c_map c /\ c_bufs c0 = [f0] /\ c_epoch c0 = 1 /\
    buf_idle n (length <$> sr.1) (f_send f0) /\ buf_idle n (length <$> sr.2) (f_recv f0)).
  { destruct Hb as [(Hb1 & Hb2 & Hb3)|(f & Hb1 & Hb2 & Hb3 & Hb4)].
    - rewrite Hb1. cbn [find_free]. unfold createNew. rewrite Hs, Hr, !sizes_ok by done. cbn [obind].
      unfold fbuf_new.
      destruct (hbuf_new_ok pl n (length <$> sr.1)) as (b1 & -> & H1 & _ & H2 & H3 & _); [by rewrite fmap_length|]. cbn [obind].
      destruct (hbuf_new_ok pl n (length <$> sr.2)) as (b2 & -> & H1' & _ & H2' & H3' & _); [by rewrite fmap_length|]. cbn [obind].
      rewrite Hb1, Hb2, Hb3. simpl. do 2 eexists. split; [done|]. simpl. split; [done|]. split; [done|].
      split; [done|]. split; [done|]. split; [done|].
      cbn [f_send f_recv].
      split; (split; [done|]; split; [done|]); [rewrite H3|rewrite H3']; apply null_replicate.
    - rewrite Hb1. cbn [find_free]. unfold f_isCommInit. rewrite (proj1 (proj2 Hb3)). cbn [andb].
      exists f, c. rewrite Hb2. done. }
  destruct G as (f0 & c0 & -> & Hs0 & Hr0 & Hm0 & Hb0 & He0 & (Ho1 & Hi1 & Hq1) & (Ho2 & Hi2 & Hq2)). cbn [obind fst snd].
  unfold deref. cbn [set_map c_epoch c_bufs fst snd]. rewrite He0, Hb0. cbn [Nat.eqb lookup list_lookup oget obind].
  change ([f0] !! 0) with (Some f0). cbn [oget obind].
  unfold f_initComm.
  destruct (initComm_ok pl n _ sz name _ Ho1 Hi1 Hsz) as (s & -> & Hs1 & Hs2 & Hs3 & Hs4 & Hs5 & Hs6 & _). cbn [obind].
  destruct (initComm_ok pl n _ sz name _ Ho2 Hi2 Hsz) as (r & -> & Hr1 & Hr2 & Hr3 & Hr4 & Hr5 & Hr6 & _). cbn [obind f_send f_recv].
  cbn [set_map c_send]. rewrite Hs0.
  destruct (pack_ok pl n sr.1 sz field s (seq 0 n)) as (d & -> & Hd1 & Hd2 & _); try done.
  { apply NoDup_seq. }
  { apply Forall_forall. intros x Hx. apply elem_of_seq in Hx. lia. }
  cbn [obind]. unfold f_startComm. cbn [f_send f_recv].
  assert (Hso : hb_ok n (length <$> sr.1) (set_data s d)).
  { destruct Hs1 as [A1 A2 A3 A4 A5]. split; try done. cbn [set_data h_data h_tsize]. lia. }
  rewrite (post_all_ok pl n (length <$> sr.1) (set_data s d)); try done; [|cbn [set_data h_reqs]; by rewrite Hs5].
  cbn [obind].
  rewrite (post_all_ok pl n (length <$> sr.2) r); try done; [|by rewrite Hr5].
  cbn [obind fst snd set_data h_tsize h_tag]. rewrite Hs2, Hs3, Hr2, Hr3.
  eexists _, (FBuf _ _). split; [done|].
  unfold set_buf, set_map. cbn [c_send c_recv c_map c_bufs c_cap c_epoch fst snd f_send f_recv].
  rewrite Hb0. cbn [list_insert insert].
  split; [|split; [|split]].
  - split; [done|]. split; [done|]. cbn [c_map c_bufs c_epoch]. rewrite lookup_insert. split; [done|].
    split. { intros name' p Hne. rewrite lookup_insert_ne by done. rewrite Hm0. apply Hm. }
    split; [done|]. split; [done|]. cbn [f_send f_recv]. split.
    + split; [|split; [done|split; done]]. apply set_reqs_ok; [done|]. rewrite pend_length. apply Hso.
    + split; [|split; [done|split; done]]. apply set_reqs_ok; [done|]. rewrite pend_length. apply Hr1.
  - intros q mr k i v Hq Hk Hv. cbn [set_reqs set_data h_data f_send f_recv]. eapply Hd2; try done. apply elem_of_seq.
    apply lookup_lt_Some in Hq. lia.
  - intros q Hq. cbn [set_reqs set_data h_reqs f_send f_recv].
    assert (Hln : length (h_reqs (f_send f0)) = n) by apply Ho1.
    rewrite Hs5, pend_lookup; [|lia| |apply NoDup_seq].
    + destruct (lookup_lt_is_Some_2 (h_reqs (f_send f0)) q) as [x Hx]; [lia|].
      assert (x = RNull) as -> by (eapply Forall_lookup_1 in Hq1; eauto; done).
      rewrite Hx. by destruct ((length <$> sr.1) !! q) as [[|]|].
    + intros k _. apply elem_of_seq. lia.
  - intros q Hq. cbn [set_reqs set_data h_reqs f_send f_recv].
    assert (Hln : length (h_reqs (f_recv f0)) = n) by apply Ho2.
    rewrite Hr5, pend_lookup; [|lia| |apply NoDup_seq].
    + destruct (lookup_lt_is_Some_2 (h_reqs (f_recv f0)) q) as [x Hx]; [lia|].
      assert (x = RNull) as -> by (eapply Forall_lookup_1 in Hq2; eauto; done).
      rewrite Hx. by destruct ((length <$> sr.2) !! q) as [[|]|].
    + intros k _. apply elem_of_seq. lia.
Qed.

Lemma h_wait_ok pl n counts b : 0 < n -> hb_ok n counts b -> isCommInit b = true ->
  h_wait pl b = Ok (if bool_decide (Forall (fun r => r <> RPending) (h_reqs b))
                    then Some (set_reqs b (test_all (h_reqs b)).2) else None) /\
  (Forall (fun r => r <> RPending) (h_reqs b) -> Forall (fun r => r = RNull) (test_all (h_reqs b)).2) /\
  length (test_all (h_reqs b)).2 = n.
Proof.
  intros Hn Hb Hi. unfold h_wait. rewrite dassert_true by done. cbn [obind].
  rewrite (isComplete_ok pl n counts b) by done. cbn [obind fst snd].
  destruct (test_all_spec (h_reqs b)) as (H1 & H2 & H3 & _). rewrite H1. split; [done|]. split.
  - intros H. apply H3. rewrite H1. by apply bool_decide_eq_true_2.
  - rewrite H2. apply Hb.
Qed.

Lemma h_finalise_ok pl n counts b : 0 < n -> hb_ok n counts b -> isCommInit b = true ->
  Forall (fun r => r = RNull) (h_reqs b) ->
  exists b', h_finalise pl b = Ok b' /\ buf_idle n counts b' /\ h_name b' = "unassigned" /\
     h_data b' = h_data b /\ h_tsize b' = h_tsize b.
Proof.
  intros Hn Hb Hi Hq. unfold h_finalise. rewrite dassert_true by done. cbn [obind].
  assert (E : dassert_complete pl b = Ok b).
  { unfold dassert_complete. destruct (debug pl); [|done].
    rewrite (isComplete_ok pl n counts b) by done. rewrite test_all_null by done. simpl. by destruct b. }
  rewrite E. cbn [obind]. rewrite dassert_true.
  - cbn [obind]. eexists. split; [done|]. split; [|done]. split; [destruct Hb; split; done|]. done.
  - apply forallb_forall. intros r Hr. apply elem_of_list_In in Hr. rewrite Forall_forall in Hq.
    apply bool_decide_eq_true_2. by apply Hq.
Qed.

Lemma finaliseComm_flight pl n sr sz tag name c f field :
  0 < n -> 0 < sz -> length sr.1 = n -> length sr.2 = n -> fits sz field sr.2 -> comm_flight n sr sz tag name c f ->
  (Forall (fun r => r <> RPending) (h_reqs (f_send f)) /\ Forall (fun r => r <> RPending) (h_reqs (f_recv f)) ->
   exists c', finaliseComm pl n sz field name c =
      Ok (Some (ins_all field (all_pairs sr.2 sz (h_data (f_recv f)) (seq 0 n)), c')) /\ comm_idle n sr c' /\
      (exists f', c_bufs c' = [f'])) /\
  (~ (Forall (fun r => r <> RPending) (h_reqs (f_send f)) /\ Forall (fun r => r <> RPending) (h_reqs (f_recv f))) ->
   finaliseComm pl n sz field name c = Ok None).
Proof.
  intros Hn Hsz Hl1 Hl2 [Hf1 Hf2] (Hs & Hr & Hm & Hmo & Hb & He & (Hs1 & Hs2 & Hs3 & Hs4) & (Hr1 & Hr2 & Hr3 & Hr4)).
  unfold finaliseComm. rewrite dassert_true by (by rewrite Hm). cbn [obind]. rewrite Hm.
  unfold deref. rewrite He, Hb. cbn [fst snd Nat.eqb]. change ([f] !! 0) with (Some f). cbn [oget obind].
  unfold f_wait.
  destruct (h_wait_ok pl n _ (f_send f) Hn Hs1 Hs2) as (-> & Hn1 & Hl3).
  destruct (h_wait_ok pl n _ (f_recv f) Hn Hr1 Hr2) as (-> & Hn2 & Hl4).
  split.
  - intros [Ha1 Ha2]. rewrite !bool_decide_eq_true_2 by done. cbn [obind f_recv].
    rewrite Hr. rewrite (unpack_ok pl n sr.2 sz _ (seq 0 n) field); try done.
    + cbn [obind h_data set_reqs]. unfold f_finaliseComm. cbn [f_send f_recv].
      destruct (h_finalise_ok pl n (length <$> sr.1) (set_reqs (f_send f) (test_all (h_reqs (f_send f))).2)) as (b1 & -> & Hb1 & _).
      { done. } { by apply set_reqs_ok. } { done. } { by apply Hn1. }
      cbn [obind].
      destruct (h_finalise_ok pl n (length <$> sr.2) (set_reqs (f_recv f) (test_all (h_reqs (f_recv f))).2)) as (b2 & -> & Hb2 & _).
      { done. } { by apply set_reqs_ok. } { done. } { by apply Hn2. }
      cbn [obind]. eexists. split; [done|]. unfold set_buf, set_map. cbn [c_map c_bufs]. rewrite Hb. cbn [list_insert insert fst snd].
      split; [|by eexists]. unfold comm_idle. cbn [c_send c_recv c_map c_bufs c_epoch].
      split; [done|]. split; [done|]. split.
      * intros name' p. destruct (decide (name' = name)) as [->|Hne].
        -- by rewrite lookup_insert.
        -- rewrite lookup_insert_ne by done. by apply Hmo.
      * right. exists (FBuf b1 b2). done.
    + apply set_reqs_ok; [done|]. done.
    + apply Forall_forall. intros x Hx. apply elem_of_seq in Hx. lia.
  - intros Hnot. destruct (decide (Forall (fun r => r <> RPending) (h_reqs (f_send f)))) as [Ha1|Ha1].
    + rewrite bool_decide_eq_true_2 by done. cbn [obind].
      rewrite bool_decide_eq_false_2 by (intros Ha2; by apply Hnot). done.
    + rewrite bool_decide_eq_false_2 by done. done.
Qed.

(** isComplete on the communication in flight: answers whether nothing is
    pending, and leaves the same requests pending. *)
Lemma comm_isComplete_flight pl n sr sz tag name c f : 0 < n -> comm_flight n sr sz tag name c f ->
  exists f', comm_isComplete pl name c =
     Ok (bool_decide (Forall (fun r => r <> RPending) (h_reqs (f_send f)) /\ Forall (fun r => r <> RPending) (h_reqs (f_recv f))),
         set_buf c 0 f') /\
  (exists rs, f_send f' = set_reqs (f_send f) rs /\ length rs = n /\
     forall r, rs !! r = Some RPending <-> h_reqs (f_send f) !! r = Some RPending) /\
  (exists rs, f_recv f' = set_reqs (f_recv f) rs /\ length rs = n /\
     forall r, rs !! r = Some RPending <-> h_reqs (f_recv f) !! r = Some RPending).
Proof.
  intros Hn (Hs & Hr & Hm & Hmo & Hb & He & (Hs1 & Hs2 & Hs3 & Hs4) & (Hr1 & Hr2 & Hr3 & Hr4)).
  unfold comm_isComplete. rewrite Hm. rewrite dassert_true by done. cbn [obind].
  unfold deref. rewrite He, Hb. cbn [fst snd Nat.eqb]. change ([f] !! 0) with (Some f). cbn [oget obind].
  unfold f_isComplete. rewrite (isComplete_ok pl n _ (f_send f)) by done. cbn [obind fst snd].
  destruct (test_all_spec (h_reqs (f_send f))) as (H1 & H2 & _). rewrite H1.
  assert (Hr0 : exists rs, f_recv f = set_reqs (f_recv f) rs /\ length rs = n /\
     forall r, rs !! r = Some RPending <-> h_reqs (f_recv f) !! r = Some RPending).
  { exists (h_reqs (f_recv f)). split; [by destruct (f_recv f)|]. split; [apply Hr1|done]. }
  assert (Hs0 : length (test_all (h_reqs (f_send f))).2 = n) by (rewrite H2; apply Hs1).
  case_bool_decide as Hd.
  - rewrite (isComplete_ok pl n _ (f_recv f)) by done. cbn [obind fst snd].
    destruct (test_all_spec (h_reqs (f_recv f))) as (H1' & H2' & _). rewrite H1'.
    eexists. split.
    + f_equal. f_equal. apply bool_decide_ext. naive_solver.
    + cbn [f_send f_recv]. split; eexists; (split; [done|]); (split; [|apply test_all_pending]); [done|]. rewrite H2'. apply Hr1.
  - eexists. split.
    + cbn [obind fst snd]. f_equal. f_equal. symmetry. apply bool_decide_eq_false_2. by intros [? _].
    + cbn [f_send f_recv]. split; [|done]. eexists. split; [done|]. split; [done|apply test_all_pending].
Qed.
