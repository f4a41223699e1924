(** C19 - C22: MPI communication. *)
From stdpp Require Import pretty.
From Verif Require Import Base Mpi MpiSpec MpiProofs MpiWorldProofs MpiInv MpiMain.
Local Open Scope nat_scope.

(** * C19 *)
Theorem C19_tag_range : forall pl name, (10 <= bufferHash pl name <= 32766)%Z.
Proof. apply bufferHash_range. Qed.
Print Assumptions C19_tag_range.

(** Builds with the same hash function agree on the tag of a name. *)
Theorem C19_same_everywhere : forall pl pl' name, hash pl name = hash pl' name -> bufferHash pl name = bufferHash pl' name.
Proof. intros pl pl' name H. unfold bufferHash. by rewrite H. Qed.
Print Assumptions C19_same_everywhere.

(** Every message a communication posts, in whatever state the communicator is,
    carries the tag of the communication's name and goes to, or comes from, a
    rank of the communicator. *)
Lemma obind_ok {A B} (m : outcome A) (k : A -> outcome B) b : obind m k = Ok b -> exists a, m = Ok a /\ k a = Ok b.
Proof. destruct m; try discriminate. by exists a. Qed.
Lemma ofold_inv {A B} (f : A -> B -> outcome A) (P : A -> Prop) l : (forall a b a', b ∈ l -> P a -> f a b = Ok a' -> P a') ->
  forall a a', P a -> ofold f l a = Ok a' -> P a'.
Proof.
  induction l as [|b l IH]; intros Hf a a' Ha; cbn; [by intros [= <-]|]. intros (a1 & H1 & H2)%obind_ok.
  eapply IH; [|by eapply Hf; [left|..]|exact H2]. intros. eapply Hf; [by right|..]; done.
Qed.
Lemma dassert_complete_tag pl b b' : dassert_complete pl b = Ok b' -> h_tag b' = h_tag b.
Proof.
  unfold dassert_complete. destruct (debug pl); [|by intros [= <-]]. intros ([c b1] & H1 & H2)%obind_ok. destruct c; try discriminate. injection H2 as <-.
  revert H1. unfold isComplete. intros (u & _ & H)%obind_ok. revert H. repeat case_match; intros HH; simplify_eq; try done.
Qed.
Lemma post_all_tags pl n b ps b' : post_all pl n b = Ok (ps, b') -> forall po, po ∈ ps -> po_tag po = h_tag b /\ po_rank po < n.
Proof.
  unfold post_all. intros (u & _ & (b1 & H1%dassert_complete_tag & ([ps' rs] & H2 & [= <- <-])%obind_ok)%obind_ok)%obind_ok.
  assert (H : (forall po, po ∈ ([], h_reqs b1).1 -> po_tag po = h_tag b /\ po_rank po < n)) by (intros po Hp; by apply elem_of_nil in Hp).
  revert H2. refine (fun E => ofold_inv (post_rank b1) (fun acc => forall po, po ∈ acc.1 -> po_tag po = h_tag b /\ po_rank po < n) _ _ _ _ H E).
  intros acc rank acc' Hr Ha. apply elem_of_seq in Hr. unfold post_rank. intros (lo & _ & (hi & _ & H3)%obind_ok)%obind_ok. revert H3. case_match; [by intros [= <-]|].
  intros (v & _ & [= <-])%obind_ok po. cbn. rewrite elem_of_app, elem_of_list_singleton. intros [Hp| ->]; [by apply Ha|]. cbn. rewrite H1. split; [done|lia].
Qed.
Lemma initComm_tag pl n sz name b b' : initComm pl n sz name b = Ok b' -> h_tag b' = bufferHash pl name.
Proof. unfold initComm. by intros (u & _ & (b1 & _ & [= <-])%obind_ok)%obind_ok. Qed.
Theorem C19_posted_tags : forall pl n sz field name c sends recvs p c',
  startComm pl n sz field name c = Ok (sends, recvs, p, c') ->
  forall po, po ∈ sends ++ recvs -> po_tag po = bufferHash pl name /\ po_rank po < n.
Proof.
  intros pl n sz field name c sends recvs p c'. unfold startComm. intros (u & _ & ([q c1] & _ & (f & _ & H)%obind_ok)%obind_ok)%obind_ok.
  apply obind_ok in H as (f1 & H1 & H). apply obind_ok in H as (s & H2 & H). apply obind_ok in H as (r & H3 & [= <- <- _ _]).
  revert H1. unfold f_initComm. intros (s0 & S0%initComm_tag & (r0 & R0%initComm_tag & [= <-])%obind_ok)%obind_ok. cbn in H2.
  assert (Hs : h_tag s = bufferHash pl name).
  { revert H2. refine (ofold_inv _ (fun b => h_tag b = bufferHash pl name) _ _ _ _ S0). intros b k b' _ Hb. unfold pack_rank.
    intros (sp & _ & (m & _ & (d & _ & [= <-])%obind_ok)%obind_ok)%obind_ok. done. }
  revert H3. unfold f_startComm. intros ([ps b1] & P1 & ([pr b2] & P2 & [= <-])%obind_ok)%obind_ok. cbn in *.
  intros po. rewrite elem_of_app. intros [Hp|Hp].
  - destruct (post_all_tags _ _ _ _ _ P1 po Hp) as [E ?]. by rewrite E.
  - destruct (post_all_tags _ _ _ _ _ P2 po Hp) as [E ?]. by rewrite E.
Qed.
Print Assumptions C19_posted_tags.

(** Whatever the hash function, among 32758 communications two share a tag. *)
Theorem C67_collision : forall pl (names : list string), NoDup names -> (32757 < N.of_nat (length names))%N ->
  exists a b, a ∈ names /\ b ∈ names /\ a <> b /\ bufferHash pl a = bufferHash pl b.
Proof.
  intros pl names Hnd Hlen.
  destruct (decide (NoDup (bufferHash pl <$> names))) as [Hd|Hd].
  - exfalso. assert (Hsub : (bufferHash pl <$> names) ⊆+ seqZ 10 32757).
    { apply NoDup_submseteq; [done|]. intros t Ht. apply elem_of_list_fmap in Ht as (x & -> & _).
      apply elem_of_seqZ. pose proof (bufferHash_range pl x). lia. }
    apply submseteq_length in Hsub. rewrite fmap_length, seqZ_length in Hsub. lia.
  - assert (G : forall l : list string, NoDup l -> ~ NoDup (bufferHash pl <$> l) ->
       exists a b, a ∈ l /\ b ∈ l /\ a <> b /\ bufferHash pl a = bufferHash pl b).
    { induction 1 as [|x l Hx Hl IH]; intros Hn; [destruct Hn; constructor|].
      destruct (decide (bufferHash pl x ∈ bufferHash pl <$> l)) as [Hin|Hin].
      - apply elem_of_list_fmap in Hin as (y & Hy & Hyl). exists x, y. split; [set_solver|]. split; [set_solver|].
        split; [|done]. intros ->. done.
      - destruct IH as (a & b & Ha & Hb & H1 & H2).
        + intros Hc. apply Hn. rewrite fmap_cons. by constructor.
        + exists a, b. set_solver. }
    by apply G.
Qed.
Print Assumptions C67_collision.

Theorem C67_distinct_refuted : forall pl, ~ forall a b, a <> b -> bufferHash pl a <> bufferHash pl b.
Proof.
  intros pl H. destruct (C67_collision pl (pretty <$> seq 0 (N.to_nat 32758))) as (a & b & _ & _ & Hab & E).
  - apply NoDup_fmap_2; [apply _|apply NoDup_seq].
  - rewrite fmap_length, seq_length. lia.
  - by apply (H a b).
Qed.
Print Assumptions C67_distinct_refuted.

(** * C20 *)
(** what the caller asked for: the element counts and the element size *)
Definition counts_after (counts0 : list nat) (ops : list hop) : list nat :=
  foldl (fun c o => match o with HSize _ c' => c' | _ => c end) counts0 ops.
Definition size_after (ops : list hop) : nat :=
  foldl (fun s o => match o with HSize s' _ | HInit s' _ => s' | _ => s end) 1 ops.
Definition hops_ok (n : nat) (ops : list hop) : Prop :=
  Forall (fun o => match o with HSize s c => 0 < s /\ length c = n | HInit s _ => 0 < s | _ => True end) ops.

Lemma do_hop_ok pl n counts o b b' : 0 < n -> hb_ok n counts b ->
  match o with HSize s c => 0 < s /\ length c = n | HInit s _ => 0 < s | _ => True end ->
  do_hop pl n o b = Ok b' ->
  hb_ok n (match o with HSize _ c' => c' | _ => counts end) b' /\
  h_tsize b' = match o with HSize s' _ | HInit s' _ => s' | _ => h_tsize b end /\
  length (h_data b) <= length (h_data b') /\ (forall i x, h_data b !! i = Some x -> h_data b' !! i = Some x) /\
  isCommInit b' = match o with HInit _ _ => true | HFinalise => false | _ => isCommInit b end /\
  h_name b' = match o with HInit _ nm => nm | HFinalise => "unassigned" | _ => h_name b end.
Proof.
  intros Hn Hb Ho H. destruct o as [s c|s nm| |r| |]; simpl in H.
  - destruct Ho as [Ho1 Ho2]. destruct (dassert pl (negb (isCommInit b))) as [[]| | |] eqn:Ed;
      [|unfold setCommRankSize in H; by rewrite Ed in H..].
    destruct (setCommRankSize_gen pl n s c b Ed Ho1 Ho2) as (b1 & E & H1 & H2 & H3 & H4 & H5 & H6 & _).
    rewrite E in H. injection H as <-. split; [done|]. split; [done|]. split; [done|]. split; [done|]. unfold isCommInit. by rewrite H3.
  - destruct (dassert pl (negb (isCommInit b))) as [[]| | |] eqn:Ed; [|unfold initComm in H; by rewrite Ed in H..].
    destruct (initComm_gen pl n counts s nm b Hb Ed Ho) as (b1 & E & H1 & H2 & H3 & H4 & H5 & H6 & H7 & H8).
    rewrite E in H. injection H as <-. done.
  - unfold post_all in H. destruct (dassert pl (isCommInit b)) as [[]| | |]; try done. cbn [obind] in H.
    destruct (dassert_complete pl b) as [b1| | |] eqn:Ec; try done. cbn [obind] in H.
    assert (Hb1 : hb_ok n counts b1 /\ h_tsize b1 = h_tsize b /\ h_data b1 = h_data b /\ h_tag b1 = h_tag b /\ h_name b1 = h_name b).
    { unfold dassert_complete in Ec. destruct (debug pl); [|by injection Ec as <-].
      unfold isComplete in Ec. destruct (dassert pl (isCommInit b)) as [[]| | |]; try done. cbn [obind] in Ec.
      destruct (h_reqs b) eqn:Eq; [done|]. rewrite <- Eq in Ec. destruct (test_all (h_reqs b)) as [fl rs] eqn:Et. cbn [obind fst snd] in Ec.
      destruct fl; [|done]. injection Ec as <-. split; [|done]. apply set_reqs_ok; [done|].
      pose proof (test_all_spec (h_reqs b)) as (_ & H2 & _). rewrite Et in H2. simpl in H2. rewrite H2. apply Hb. }
    destruct Hb1 as (Hb1 & E1 & E2 & E3 & E4).
    rewrite (post_loop_ok n counts b1 (seq 0 n)) in H; [|done| |apply Hb1].
    + cbn [obind fst snd] in H. injection H as <-. split; [|split; [done|]].
      * apply set_reqs_ok; [done|]. rewrite pend_length. apply Hb1.
      * unfold isCommInit. cbn [set_reqs h_data h_tag h_name]. rewrite E2, E3, E4. done.
    + apply Forall_forall. intros x Hx. apply elem_of_seq in Hx. lia.
  - injection H as <-. destruct (h_reqs b !! r) as [[| |]|]; try done. split; [|done].
    apply set_reqs_ok; [done|]. rewrite insert_length. apply Hb.
  - unfold isComplete in H. destruct (dassert pl (isCommInit b)) as [[]| | |]; try done. cbn [obind] in H.
    destruct (h_reqs b) eqn:Eq; [done|]. rewrite <- Eq in H. destruct (test_all (h_reqs b)) as [fl rs] eqn:Et. cbn [obind fst snd] in H.
    injection H as <-. split; [|done]. apply set_reqs_ok; [done|].
    pose proof (test_all_spec (h_reqs b)) as (_ & H2 & _). rewrite Et in H2. simpl in H2. rewrite H2. apply Hb.
  - unfold h_finalise in H. destruct (dassert pl (isCommInit b)) as [[]| | |]; try done. cbn [obind] in H.
    destruct (dassert_complete pl b) as [b1| | |] eqn:Ec; try done. cbn [obind] in H.
    assert (Hb1 : hb_ok n counts b1 /\ h_tsize b1 = h_tsize b /\ h_data b1 = h_data b).
    { unfold dassert_complete in Ec. destruct (debug pl); [|by injection Ec as <-].
      unfold isComplete in Ec. destruct (dassert pl (isCommInit b)) as [[]| | |]; try done. cbn [obind] in Ec.
      destruct (h_reqs b) eqn:Eq; [done|]. rewrite <- Eq in Ec. destruct (test_all (h_reqs b)) as [fl rs] eqn:Et. cbn [obind fst snd] in Ec.
      destruct fl; [|done]. injection Ec as <-. split; [|done]. apply set_reqs_ok; [done|].
      pose proof (test_all_spec (h_reqs b)) as (_ & H2 & _). rewrite Et in H2. simpl in H2. rewrite H2. apply Hb. }
    destruct Hb1 as (Hb1 & E1 & E2). destruct (dassert pl _) as [[]| | |]; try done. cbn [obind] in H. injection H as <-.
    split; [destruct Hb1; split; done|]. cbn [h_tsize h_data]. rewrite E2. done.
Qed.

Definition busy_after (ops : list hop) : bool :=
  foldl (fun s o => match o with HInit _ _ => true | HFinalise => false | _ => s end) false ops.
Definition name_after (ops : list hop) : string :=
  foldl (fun s o => match o with HInit _ nm => nm | HFinalise => "unassigned" | _ => s end) "unassigned" ops.

Lemma run_hops_ok pl n counts0 ops b0 b : 0 < n -> length counts0 = n -> hops_ok n ops ->
  hbuf_new pl n counts0 = Ok b0 -> run_hops pl n ops b0 = Ok b ->
  hb_ok n (counts_after counts0 ops) b /\ h_tsize b = size_after ops /\ isCommInit b = busy_after ops /\ h_name b = name_after ops.
Proof.
  intros Hn Hc Hops H0. destruct (hbuf_new_ok pl n counts0 Hc) as (b1 & E & Hb & Hs & Hi & Hr & _).
  rewrite E in H0. injection H0 as <-.
  assert (Hnm : h_name b1 = "unassigned").
  { unfold hbuf_new in E. destruct (setCommRankSize_ok pl n 1 counts0 hbuf_default) as (b2 & E2 & _ & _ & _ & _ & H6 & _); try done; [lia|].
    rewrite E2 in E. injection E as <-. exact H6. }
  unfold counts_after, size_after, busy_after, name_after, run_hops. rewrite <- Hs. 
  assert (G : forall ops counts b1 bz nm, hops_ok n ops -> hb_ok n counts b1 -> isCommInit b1 = bz -> h_name b1 = nm ->
     ofold (fun b o => do_hop pl n o b) ops b1 = Ok b ->
     hb_ok n (foldl (fun c o => match o with HSize _ c' => c' | _ => c end) counts ops) b /\
     h_tsize b = foldl (fun s o => match o with HSize s' _ | HInit s' _ => s' | _ => s end) (h_tsize b1) ops /\
     isCommInit b = foldl (fun s o => match o with HInit _ _ => true | HFinalise => false | _ => s end) bz ops /\
     h_name b = foldl (fun s o => match o with HInit _ nm => nm | HFinalise => "unassigned" | _ => s end) nm ops).
  { clear -Hn. intros ops. induction ops as [|o ops IH]; intros counts b1 bz nm Hops Hb Hi Hnm H; simpl in H.
    - injection H as <-. done.
    - apply Forall_cons in Hops as [Ho Hops]. destruct (do_hop pl n o b1) as [b2| | |] eqn:E; try done. cbn [obind] in H.
      destruct (do_hop_ok pl n counts o b1 b2 Hn Hb Ho E) as (H1 & H2 & _ & _ & H3 & H4).
      specialize (IH _ b2 _ _ Hops H1 eq_refl eq_refl H). cbn [foldl]. rewrite <- H2.
      rewrite H3, H4, Hi, Hnm in IH. exact IH. }
  intros H. by apply (G ops counts0 b1).
Qed.

(** After any history of sizing, communicating (any types, any names) and
    finalising, [get] on a busy buffer returns for every rank a window with the
    number of elements last requested, inside the allocation and after the
    windows of all lower ranks. *)
Theorem C20_windows : forall pl n counts0 ops b0 b,
  0 < n -> length counts0 = n -> hops_ok n ops ->
  hbuf_new pl n counts0 = Ok b0 -> run_hops pl n ops b0 = Ok b -> busy_after ops = true ->
  forall r, r < n -> exists o, 
    get pl (size_after ops) r b = Ok (Span o (default 0 (counts_after counts0 ops !! r))) /\
    o + default 0 (counts_after counts0 ops !! r) * size_after ops <= length (h_data b) /\
    forall r' s', r' < r -> get pl (size_after ops) r' b = Ok s' ->
      sp_off s' + sp_count s' * size_after ops <= o.
Proof.
  intros pl n counts0 ops b0 b Hn Hc Hops H0 H Hbz r Hr.
  destruct (run_hops_ok pl n counts0 ops b0 b Hn Hc Hops H0 H) as (Hb & Hs & Hi & _). rewrite Hbz in Hi.
  set (counts := counts_after counts0 ops) in *. rewrite <- Hs.
  assert (Hl : length counts = n) by apply Hb.
  destruct (lookup_lt_is_Some_2 counts r) as [k Hk]; [lia|].
  exists (sum_list (take r counts) * h_tsize b). split; [by eapply get_ok|].
  rewrite Hk. cbn [default from_option]. change (id k) with k. split.
  - pose proof (hb_data _ _ _ Hb). pose proof (sum_take_all counts (S r)). rewrite (sum_take_S _ _ _ Hk) in H2. nia.
  - intros r' s' Hlt Hg. rewrite (get_ok pl n counts b r' Hb Hi) in Hg by lia. injection Hg as <-. cbn [sp_off sp_count].
    destruct (lookup_lt_is_Some_2 counts r') as [k' Hk']; [lia|]. rewrite Hk'. cbn [default from_option]. change (id k') with k'.
    pose proof (sum_take_le counts (S r') r Hlt) as Hle. rewrite (sum_take_S _ _ _ Hk') in Hle. nia.
Qed.
Print Assumptions C20_windows.

(** Changing the element type keeps every rank's element count. *)
Theorem C20_retype_keeps_counts : forall pl n counts0 ops sz name b0 b r s,
  0 < n -> length counts0 = n -> hops_ok n (ops ++ [HInit sz name]) ->
  hbuf_new pl n counts0 = Ok b0 -> run_hops pl n (ops ++ [HInit sz name]) b0 = Ok b -> r < n ->
  get pl sz r b = Ok s -> sp_count s = default 0 (counts_after counts0 ops !! r).
Proof.
  intros pl n counts0 ops sz name b0 b r s Hn Hc Hops H0 H Hr Hg.
  destruct (C20_windows pl n counts0 _ b0 b Hn Hc Hops H0 H) with (r := r) as (o & Ho & _); [|done|].
  { unfold busy_after. by rewrite foldl_app. }
  unfold size_after, counts_after in Ho. rewrite !foldl_app in Ho. cbn [foldl] in Ho. rewrite Ho in Hg. by injection Hg as <-.
Qed.
Print Assumptions C20_retype_keeps_counts.

Lemma run_hops_grow pl n ops counts b b' : 0 < n -> hops_ok n ops -> hb_ok n counts b -> run_hops pl n ops b = Ok b' ->
  length (h_data b) <= length (h_data b') /\ forall i x, h_data b !! i = Some x -> h_data b' !! i = Some x.
Proof.
  intros Hn Hops. revert counts b. induction Hops as [|o ops' Ho Hops' IH]; intros counts b Hb H'; unfold run_hops in H'; simpl in H'.
  - injection H' as <-. done.
  - destruct (do_hop pl n o b) as [b2| | |] eqn:E; try done. cbn [obind] in H'.
    destruct (do_hop_ok pl n counts o b b2 Hn Hb Ho E) as (H1 & _ & H2 & H3 & _).
    destruct (IH _ b2 H1 H') as [G1 G2]. split; [lia|]. intros i x Hi. by apply G2, H3.
Qed.

(** The allocation never shrinks and its contents are kept. *)
Theorem C20_never_shrinks : forall pl n counts0 ops ops' b0 b b',
  0 < n -> length counts0 = n -> hops_ok n (ops ++ ops') ->
  hbuf_new pl n counts0 = Ok b0 -> run_hops pl n ops b0 = Ok b -> run_hops pl n ops' b = Ok b' ->
  length (h_data b) <= length (h_data b') /\ forall i x, h_data b !! i = Some x -> h_data b' !! i = Some x.
Proof.
  intros pl n counts0 ops ops' b0 b b' Hn Hc Hops H0 H H'. apply Forall_app in Hops as [Hops Hops'].
  destruct (run_hops_ok pl n counts0 ops b0 b Hn Hc Hops H0 H) as (Hb & _).
  by apply (run_hops_grow pl n ops' (counts_after counts0 ops) b b').
Qed.
Print Assumptions C20_never_shrinks.

Definition plat (d : bool) : platform := Platform d (fun s => N.of_nat (String.length s)) grow_double.
Definition hist_ex : list hop :=
  [HInit 8 "a"; HPost; HLib 0; HLib 2; HTest; HFinalise; HSize 4 [1; 5; 0]; HInit 2 "b"].
Example C19_instance : bufferHash (plat true) "halo" = 14%Z /\ bufferHash (plat false) "halo" = 14%Z.
Proof. split; vm_compute; reflexivity. Qed.
Example C20_instance : exists b0 b,
  hbuf_new (plat true) 3 [2; 0; 3] = Ok b0 /\ run_hops (plat true) 3 hist_ex b0 = Ok b /\
  hops_ok 3 hist_ex /\ busy_after hist_ex = true /\
  get (plat true) 2 0 b = Ok (Span 0 1) /\ get (plat true) 2 1 b = Ok (Span 2 5) /\ length (h_data b) = 40.
Proof.
  do 2 eexists. split; [vm_compute; reflexivity|]. split; [vm_compute; reflexivity|].
  split; [unfold hops_ok, hist_ex; repeat constructor; lia|]. vm_compute. done.
Qed.

(** * C21 *)
(** A buffer reports busy exactly between initComm and finaliseComm, under the
    name given to initComm. *)
Theorem C21_busy : forall pl n counts0 ops b0 b,
  0 < n -> length counts0 = n -> hops_ok n ops ->
  hbuf_new pl n counts0 = Ok b0 -> run_hops pl n ops b0 = Ok b ->
  isCommInit b = busy_after ops /\ h_name b = name_after ops.
Proof.
  intros pl n counts0 ops b0 b Hn Hc Hops H0 H.
  by destruct (run_hops_ok pl n counts0 ops b0 b Hn Hc Hops H0 H) as (_ & _ & G1 & G2).
Qed.
Print Assumptions C21_busy.

(** In debug builds a busy buffer refuses to be initialised or sized, an idle
    one to be read, posted, tested or finalised, and one with a pending request
    to be posted again or finalised. *)
Theorem C21_refuses : forall pl n b, debug pl = true ->
  (isCommInit b = true ->
     (forall sz name, initComm pl n sz name b = Exit) /\ (forall sz counts, setCommRankSize pl n sz counts b = Exit)) /\
  (isCommInit b = false ->
     (forall sz r, get pl sz r b = Exit) /\ post_all pl n b = Exit /\ isComplete pl b = Exit /\ h_finalise pl b = Exit) /\
  (RPending ∈ h_reqs b -> post_all pl n b = Exit /\ h_finalise pl b = Exit).
Proof.
  intros pl n b Hd.
  assert (Hda : forall c, c = false -> dassert pl c = Exit) by (intros c ->; unfold dassert; by rewrite Hd).
  split; [|split].
  - intros Hi. split; intros; [unfold initComm|unfold setCommRankSize]; by rewrite Hda by (by rewrite Hi).
  - intros Hi. split; [intros; unfold get|split; [unfold post_all|split; [unfold isComplete|unfold h_finalise]]]; by rewrite Hda.
  - intros Hp. assert (E : isCommInit b = true -> dassert_complete pl b = Exit).
    { intros Hi. unfold dassert_complete. rewrite Hd. unfold isComplete. rewrite dassert_true by done. cbn [obind].
      destruct (h_reqs b) eqn:Eq; [by apply elem_of_nil in Hp|]. rewrite <- Eq in *.
      pose proof (test_all_spec (h_reqs b)) as (H1 & _). destruct (test_all (h_reqs b)) as [fl rs]. cbn [obind fst snd] in *.
      rewrite H1, bool_decide_eq_false_2; [done|]. rewrite Forall_forall. intros H. by apply (H RPending). }
    unfold post_all, h_finalise. destruct (isCommInit b) eqn:Hi.
    + rewrite dassert_true by done. cbn [obind]. by rewrite E.
    + by rewrite Hda.
Qed.
Print Assumptions C21_refuses.

(** After finaliseComm the buffer can be used again under any name and type. *)
Theorem C21_reusable : forall pl n counts0 ops b0 b sz name,
  0 < n -> length counts0 = n -> hops_ok n ops -> 0 < sz ->
  hbuf_new pl n counts0 = Ok b0 -> run_hops pl n ops b0 = Ok b -> busy_after ops = false ->
  exists b', initComm pl n sz name b = Ok b' /\ isCommInit b' = true /\ h_name b' = name.
Proof.
  intros pl n counts0 ops b0 b sz name Hn Hc Hops Hsz H0 H Hbz.
  destruct (run_hops_ok pl n counts0 ops b0 b Hn Hc Hops H0 H) as (Hb & _ & Hi & _). rewrite Hbz in Hi.
  destruct (initComm_ok pl n _ sz name b Hb Hi Hsz) as (b' & E & _ & _ & _ & H1 & _ & H2 & _). by exists b'.
Qed.
Print Assumptions C21_reusable.

(** send() / receive() on a busy buffer with no outstanding request post exactly
    one message per rank with data: its window, with the buffer's tag. *)
Theorem C21_posts : forall pl n counts0 ops b0 b,
  0 < n -> length counts0 = n -> hops_ok n ops ->
  hbuf_new pl n counts0 = Ok b0 -> run_hops pl n ops b0 = Ok b -> busy_after ops = true ->
  Forall (fun q => q = RNull) (h_reqs b) ->
  exists ps b', post_all pl n b = Ok (ps, b') /\ NoDup (map po_rank ps) /\
    (forall r, r ∈ map po_rank ps <-> r < n /\ 0 < default 0 (counts_after counts0 ops !! r)) /\
    (forall p, p ∈ ps -> po_tag p = h_tag b /\ exists s, get pl (size_after ops) (po_rank p) b = Ok s /\
        po_off p = sp_off s /\ po_len p = sp_count s * size_after ops) /\
    (forall r, r < n -> h_reqs b' !! r = Some (if decide (r ∈ map po_rank ps) then RPending else RNull)).
Proof.
  intros pl n counts0 ops b0 b Hn Hc Hops H0 H Hbz Hnull.
  destruct (run_hops_ok pl n counts0 ops b0 b Hn Hc Hops H0 H) as (Hb & Hs & Hi & _). rewrite Hbz in Hi.
  set (counts := counts_after counts0 ops) in *.
  eexists _, _. split; [by eapply post_all_ok|].
  assert (Hin : forall r, r ∈ map po_rank (posts_of counts (h_tsize b) (h_tag b) (seq 0 n)) <-> r < n /\ 0 < default 0 (counts !! r)).
  { intros r. change (map ?f ?l) with (f <$> l). rewrite elem_of_list_fmap. unfold posts_of. split.
    - intros (p & -> & Hp). apply elem_of_list_omap in Hp as (r & Hr & Hp). apply elem_of_seq in Hr.
      destruct (counts !! r) as [[|k]|] eqn:E; try done. injection Hp as <-. simpl. rewrite E. simpl. lia.
    - intros [Hr Hk]. destruct (counts !! r) as [[|k]|] eqn:E; simpl in Hk; try lia.
      eexists (Post r _ _ _). split; [reflexivity|]. apply elem_of_list_omap. exists r. split; [apply elem_of_seq; lia|]. by rewrite E. }
  split; [|split; [exact Hin|split]].
  - unfold posts_of. generalize (NoDup_seq 0 n). generalize (seq 0 n). induction 1 as [|a l Ha Hnd IH]; [constructor|].
    cbn [omap list_omap]. destruct (counts !! a) as [[|k]|]; try done. cbn [map]. constructor; [|done].
    change (map ?f ?l) with (f <$> l). rewrite elem_of_list_fmap. intros (p & Hp & Hpl). cbn [po_rank] in Hp.
    apply elem_of_list_omap in Hpl as (a' & Ha' & Hpl). destruct (counts !! a') as [[|k']|]; try done. injection Hpl as <-.
    simpl in Hp. by subst.
  - intros p Hp. unfold posts_of in Hp. apply elem_of_list_omap in Hp as (r & Hr & Hp). apply elem_of_seq in Hr.
    destruct (counts !! r) as [[|k]|] eqn:E; try done. injection Hp as <-. cbn [po_tag po_rank po_off po_len]. split; [done|].
    rewrite <- Hs. eexists. split; [eapply get_ok; [done|done|lia]|]. cbn [sp_off sp_count]. rewrite E. done.
  - intros r Hr. cbn [set_reqs h_reqs]. rewrite (pend_lookup counts); [|rewrite (hb_reqs _ _ _ Hb); done| |apply NoDup_seq].
    2:{ intros. apply elem_of_seq. lia. }
    assert (Hnr : h_reqs b !! r = Some RNull).
    { destruct (lookup_lt_is_Some_2 (h_reqs b) r) as [q Hq]; [rewrite (hb_reqs _ _ _ Hb); done|].
      rewrite Hq. f_equal. eapply Forall_lookup_1 in Hnull; eauto. }
    case_decide as Hd.
    + apply Hin in Hd as [_ Hd]. destruct (counts !! r) as [[|k]|]; simpl in Hd; try lia. done.
    + destruct (counts !! r) as [[|k]|] eqn:E; try done. destruct Hd. apply Hin. rewrite E. simpl. lia.
Qed.
Print Assumptions C21_posts.

(** isComplete answers whether no request is pending; in particular a sized
    buffer that posted nothing is complete at once. *)
Theorem C21_complete : forall pl n counts0 ops b0 b,
  0 < n -> length counts0 = n -> hops_ok n ops ->
  hbuf_new pl n counts0 = Ok b0 -> run_hops pl n ops b0 = Ok b -> busy_after ops = true ->
  exists b', isComplete pl b = Ok (bool_decide (RPending ∉ h_reqs b), b').
Proof.
  intros pl n counts0 ops b0 b Hn Hc Hops H0 H Hbz.
  destruct (run_hops_ok pl n counts0 ops b0 b Hn Hc Hops H0 H) as (Hb & Hs & Hi & _). rewrite Hbz in Hi.
  rewrite (isComplete_ok pl n _ b Hn Hb Hi). destruct (test_all_spec (h_reqs b)) as (H1 & _). rewrite H1.
  eexists. do 2 f_equal. apply bool_decide_ext. rewrite Forall_forall. naive_solver.
Qed.
Print Assumptions C21_complete.


(** The same for FullDuplexCommBuffer (fullDuplexCommBuffer.hpp:43-147): any history
    of calls on it, interleaved with MPI completing requests of either half. *)
Inductive fop :=
| FInit (sz : nat) (name : string)         (* initComm<T>                     *)
| FStart                                   (* startComm()                     *)
| FLibSend (rank : nat)                    (* MPI completes a send            *)
| FLibReceive (rank : nat)                 (* MPI completes a receive         *)
| FTest                                    (* isComplete()                    *)
| FFinalise.                               (* finaliseComm()                  *)
Definition do_fop (pl : platform) (n : nat) (o : fop) (f : fbuf) : outcome fbuf :=
  match o with
  | FInit sz name => f_initComm pl n sz name f
  | FStart => let! p := f_startComm pl n f in Ok p.2
  | FLibSend r => let! s := do_hop pl n (HLib r) (f_send f) in Ok (FBuf s (f_recv f))
  | FLibReceive r => let! s := do_hop pl n (HLib r) (f_recv f) in Ok (FBuf (f_send f) s)
  | FTest => let! p := f_isComplete pl f in Ok p.2
  | FFinalise => f_finaliseComm pl f
  end.
Definition run_fops (pl : platform) (n : nat) (ops : list fop) (f : fbuf) : outcome fbuf :=
  ofold (fun f o => do_fop pl n o f) ops f.
Definition fbusy_after (ops : list fop) : bool :=
  foldl (fun s o => match o with FInit _ _ => true | FFinalise => false | _ => s end) false ops.
Definition fname_after (ops : list fop) : string :=
  foldl (fun s o => match o with FInit _ nm => nm | FFinalise => "unassigned" | _ => s end) "unassigned" ops.
Definition fsize_after (ops : list fop) : nat :=
  foldl (fun s o => match o with FInit s' _ => s' | _ => s end) 1 ops.
Definition fops_ok (ops : list fop) : Prop := Forall (fun o => match o with FInit s _ => 0 < s | _ => True end) ops.
Local Lemma ofold_app {A B} (g : A -> B -> outcome A) l1 l2 a : ofold g (l1 ++ l2) a = obind (ofold g l1 a) (ofold g l2).
Proof. revert a. induction l1 as [|b l1 IH]; intros a; [done|]. cbn. destruct (g a b); cbn; [apply IH|done|done|done]. Qed.
(** What one half sees of a history. *)
Local Lemma half_histories_from pl n ops f : forall f0 s0 b0 n0, fops_ok ops -> run_fops pl n ops f0 = Ok f ->
  exists os rs, ofold (fun b o => do_hop pl n o b) os (f_send f0) = Ok (f_send f) /\ ofold (fun b o => do_hop pl n o b) rs (f_recv f0) = Ok (f_recv f) /\
    hops_ok n os /\ hops_ok n rs /\
    (forall l, l = os \/ l = rs -> (forall c0, foldl (fun c o => match o with HSize _ c' => c' | _ => c end) c0 l = c0) /\
        foldl (fun s o => match o with HSize s' _ | HInit s' _ => s' | _ => s end) s0 l = foldl (fun s o => match o with FInit s' _ => s' | _ => s end) s0 ops /\
        foldl (fun s o => match o with HInit _ _ => true | HFinalise => false | _ => s end) b0 l = foldl (fun s o => match o with FInit _ _ => true | FFinalise => false | _ => s end) b0 ops /\
        foldl (fun s o => match o with HInit _ nm => nm | HFinalise => "unassigned" | _ => s end) n0 l = foldl (fun s o => match o with FInit _ nm => nm | FFinalise => "unassigned" | _ => s end) n0 ops).
Proof.
  unfold run_fops.
  induction ops as [|o ops IH]; intros f0 s0 b0 n0 Hok H.
  - cbn in H. injection H as <-. exists [], []. split; [done|]. split; [done|]. split; [constructor|]. split; [constructor|]. intros l [->| ->]; done.
  - apply Forall_cons in Hok as [Ho Hok]. cbn [ofold] in H. destruct (do_fop pl n o f0) as [f1| | |] eqn:E; try done. cbn [obind] in H.
    assert (Hone : exists os rs, ofold (fun b o => do_hop pl n o b) os (f_send f0) = Ok (f_send f1) /\ ofold (fun b o => do_hop pl n o b) rs (f_recv f0) = Ok (f_recv f1) /\
      hops_ok n os /\ hops_ok n rs /\ (forall l, l = os \/ l = rs -> (forall c0, foldl (fun c o => match o with HSize _ c' => c' | _ => c end) c0 l = c0) /\
        foldl (fun s o => match o with HSize s' _ | HInit s' _ => s' | _ => s end) s0 l = match o with FInit s' _ => s' | _ => s0 end /\
        foldl (fun s o => match o with HInit _ _ => true | HFinalise => false | _ => s end) b0 l = match o with FInit _ _ => true | FFinalise => false | _ => b0 end /\
        foldl (fun s o => match o with HInit _ nm => nm | HFinalise => "unassigned" | _ => s end) n0 l = match o with FInit _ nm => nm | FFinalise => "unassigned" | _ => n0 end)).
    { destruct o as [sz name| |r|r| |]; cbn [do_fop] in E.
      - unfold f_initComm in E. destruct (initComm pl n sz name (f_send f0)) as [s| | |] eqn:E1; try done. cbn [obind] in E.
        destruct (initComm pl n sz name (f_recv f0)) as [r| | |] eqn:E2; try done. cbn [obind] in E. injection E as <-.
        exists [HInit sz name], [HInit sz name]. cbn. rewrite E1, E2. repeat (split; [done || (repeat constructor; done)|]). intros l [->| ->]; done.
      - unfold f_startComm in E. destruct (post_all pl n (f_send f0)) as [s| | |] eqn:E1; try done. cbn [obind] in E.
        destruct (post_all pl n (f_recv f0)) as [r| | |] eqn:E2; try done. cbn [obind] in E. injection E as <-.
        exists [HPost], [HPost]. cbn. rewrite E1, E2. repeat (split; [done || (repeat constructor; done)|]). intros l [->| ->]; done.
      - cbn [do_hop obind] in E. injection E as <-. exists [HLib r], []. cbn. repeat (split; [done || (repeat constructor; done)|]). intros l [->| ->]; done.
      - cbn [do_hop obind] in E. injection E as <-. exists [], [HLib r]. cbn. repeat (split; [done || (repeat constructor; done)|]). intros l [->| ->]; done.
      - unfold f_isComplete in E. destruct (isComplete pl (f_send f0)) as [[[] s]| | |] eqn:E1; try done; cbn [obind fst snd] in E.
        + destruct (isComplete pl (f_recv f0)) as [[c r]| | |] eqn:E2; try done. cbn [obind fst snd] in E. injection E as <-.
          exists [HTest], [HTest]. cbn. rewrite E1, E2. repeat (split; [done || (repeat constructor; done)|]). intros l [->| ->]; done.
        + injection E as <-. exists [HTest], []. cbn. rewrite E1. repeat (split; [done || (repeat constructor; done)|]). intros l [->| ->]; done.
      - unfold f_finaliseComm in E. destruct (h_finalise pl (f_send f0)) as [s| | |] eqn:E1; try done. cbn [obind] in E.
        destruct (h_finalise pl (f_recv f0)) as [r| | |] eqn:E2; try done. cbn [obind] in E. injection E as <-.
        exists [HFinalise], [HFinalise]. cbn. rewrite E1, E2. repeat (split; [done || (repeat constructor; done)|]). intros l [->| ->]; done. }
    destruct Hone as (o1 & r1 & A1 & A2 & A3 & A4 & A5).
    destruct (IH f1 (match o with FInit s' _ => s' | _ => s0 end) (match o with FInit _ _ => true | FFinalise => false | _ => b0 end) (match o with FInit _ nm => nm | FFinalise => "unassigned" | _ => n0 end) Hok H) as (o2 & r2 & B1 & B2 & B3 & B4 & B5).
    exists (o1 ++ o2), (r1 ++ r2). rewrite !ofold_app, A1, A2. cbn [obind]. split; [done|]. split; [done|].
    split; [by apply Forall_app|]. split; [by apply Forall_app|].
    intros l [->| ->]; [destruct (A5 o1 (or_introl eq_refl)) as (C1 & C2 & C3 & C4); destruct (B5 o2 (or_introl eq_refl)) as (D1 & D2 & D3 & D4)
      |destruct (A5 r1 (or_intror eq_refl)) as (C1 & C2 & C3 & C4); destruct (B5 r2 (or_intror eq_refl)) as (D1 & D2 & D3 & D4)];
      (split; [intros c0; by rewrite foldl_app, C1|]; split; [by rewrite foldl_app, C2|]; split; [by rewrite foldl_app, C3|by rewrite foldl_app, C4]).
Qed.
Local Lemma half_histories pl n ops f0 f : fops_ok ops -> run_fops pl n ops f0 = Ok f ->
  exists os rs, run_hops pl n os (f_send f0) = Ok (f_send f) /\ run_hops pl n rs (f_recv f0) = Ok (f_recv f) /\
    hops_ok n os /\ hops_ok n rs /\
    (forall l, l = os \/ l = rs -> (forall c0, counts_after c0 l = c0) /\ size_after l = fsize_after ops /\ busy_after l = fbusy_after ops /\ name_after l = fname_after ops).
Proof. intros Hok H. exact (half_histories_from pl n ops f f0 1 false "unassigned" Hok H). Qed.
(** Both halves are busy exactly between initComm and finaliseComm, under the name
    given; then the send half has a window of the size given for sending to each
    rank, the receive half one of the size given for receiving. *)
Theorem C21_full_duplex : forall pl n sendCounts recvCounts ops f0 f,
  0 < n -> length sendCounts = n -> length recvCounts = n -> fops_ok ops ->
  fbuf_new pl n sendCounts recvCounts = Ok f0 -> run_fops pl n ops f0 = Ok f ->
  f_isCommInit f = fbusy_after ops /\ isCommInit (f_send f) = fbusy_after ops /\ isCommInit (f_recv f) = fbusy_after ops /\
  h_name (f_send f) = fname_after ops /\ h_name (f_recv f) = fname_after ops /\
  (fbusy_after ops = true -> forall r, r < n ->
     exists o o', get pl (fsize_after ops) r (f_send f) = Ok (Span o (default 0 (sendCounts !! r))) /\
                  get pl (fsize_after ops) r (f_recv f) = Ok (Span o' (default 0 (recvCounts !! r)))) /\
  (fbusy_after ops = true -> exists f', f_isComplete pl f = Ok (bool_decide (RPending ∉ h_reqs (f_send f) ++ h_reqs (f_recv f)), f')) /\
  (fbusy_after ops = false -> forall sz name, 0 < sz -> exists f', f_initComm pl n sz name f = Ok f').
Proof.
  intros pl n cs cr ops f0 f Hn Hs Hr Hok H0 H. unfold fbuf_new in H0.
  destruct (hbuf_new pl n cs) as [s0| | |] eqn:E1; try done. cbn [obind] in H0.
  destruct (hbuf_new pl n cr) as [r0| | |] eqn:E2; try done. cbn [obind] in H0. injection H0 as <-.
  destruct (half_histories pl n ops _ _ Hok H) as (os & rs & A1 & A2 & A3 & A4 & A5). cbn [f_send f_recv] in A1, A2.
  destruct (A5 os (or_introl eq_refl)) as (C1 & C2 & C3 & C4). destruct (A5 rs (or_intror eq_refl)) as (D1 & D2 & D3 & D4).
  destruct (C21_busy pl n cs os s0 _ Hn Hs A3 E1 A1) as [S1 S2]. destruct (C21_busy pl n cr rs r0 _ Hn Hr A4 E2 A2) as [R1 R2].
  rewrite C3 in S1. rewrite D3 in R1. rewrite C4 in S2. rewrite D4 in R2.
  split; [unfold f_isCommInit; rewrite S1, R1; by destruct (fbusy_after ops)|]. do 4 (split; [done|]). split; [|split].
  - intros Hb r Hrn. destruct (C20_windows pl n cs os s0 _ Hn Hs A3 E1 A1 (eq_trans C3 Hb) r Hrn) as (o & Ho & _).
    destruct (C20_windows pl n cr rs r0 _ Hn Hr A4 E2 A2 (eq_trans D3 Hb) r Hrn) as (o' & Ho' & _).
    rewrite C1, C2 in Ho. rewrite D1, D2 in Ho'. eauto.
  - intros Hb. destruct (C21_complete pl n cs os s0 _ Hn Hs A3 E1 A1 (eq_trans C3 Hb)) as (s' & Hs').
    destruct (C21_complete pl n cr rs r0 _ Hn Hr A4 E2 A2 (eq_trans D3 Hb)) as (r' & Hr').
    unfold f_isComplete. rewrite Hs'. cbn [obind fst snd].
    destruct (decide (RPending ∉ h_reqs (f_send f))) as [K1|K1]; [rewrite (bool_decide_true _ K1)|rewrite (bool_decide_false _ K1)].
    + rewrite Hr'. cbn [obind fst snd]. eexists. do 2 f_equal. apply bool_decide_ext. rewrite not_elem_of_app. tauto.
    + eexists. rewrite bool_decide_false; [done|]. rewrite not_elem_of_app. tauto.
  - intros Hb sz name Hsz. destruct (C21_reusable pl n cs os s0 _ sz name Hn Hs A3 Hsz E1 A1 (eq_trans C3 Hb)) as (s' & Hs' & _).
    destruct (C21_reusable pl n cr rs r0 _ sz name Hn Hr A4 Hsz E2 A2 (eq_trans D3 Hb)) as (r' & Hr' & _).
    unfold f_initComm. rewrite Hs'. cbn [obind]. rewrite Hr'. cbn [obind]. eauto.
Qed.
Print Assumptions C21_full_duplex.

(** Different counts in the two directions; a second name after the first. *)
Example C21_full_duplex_instance :
  let ops := [FInit 8 "a"; FStart; FLibSend 0; FLibReceive 1; FTest; FFinalise; FInit 4 "b"] in
  fops_ok ops /\ fbusy_after ops = true /\ fname_after ops = "b" /\
  exists f0 f, fbuf_new (plat true) 2 [1; 0] [0; 3] = Ok f0 /\ run_fops (plat true) 2 ops f0 = Ok f /\
    f_isCommInit f0 = false /\ f_isCommInit f = true.
Proof.
  cbv zeta. split; [unfold fops_ok; repeat constructor; lia|]. split; [done|]. split; [done|].
  do 2 eexists. split; [vm_compute; reflexivity|]. split; [vm_compute; reflexivity|]. done.
Qed.

(** Non-vacuity: idle after finalisation; busy and unposted (a debug build refuses
    sizing, posts two messages); busy with pending requests. *)
Example C21_instance :
  let h0 := take 6 hist_ex in let h1 := [HInit 8 "a"] in let h2 := [HInit 8 "a"; HPost] in
  hops_ok 3 h0 /\ hops_ok 3 h1 /\ hops_ok 3 h2 /\
  busy_after h0 = false /\ busy_after h1 = true /\ busy_after h2 = true /\ name_after h2 = "a" /\
  exists b0 i b p, hbuf_new (plat true) 3 [2; 0; 3] = Ok b0 /\ run_hops (plat true) 3 h0 b0 = Ok i /\
    run_hops (plat true) 3 h1 b0 = Ok b /\ run_hops (plat true) 3 h2 b0 = Ok p /\
    isCommInit i = false /\ isCommInit b = true /\ Forall (fun q => q = RNull) (h_reqs b) /\ RPending ∈ h_reqs p /\
    default 0 (counts_after [2; 0; 3] h1 !! 2) = 3.
Proof.
  cbv zeta. split; [unfold hops_ok, hist_ex; simpl; repeat constructor; lia|].
  split; [unfold hops_ok; repeat constructor; lia|]. split; [unfold hops_ok; repeat constructor; lia|].
  split; [done|]. split; [done|]. split; [done|]. split; [done|].
  do 4 eexists. split; [vm_compute; reflexivity|]. split; [vm_compute; reflexivity|]. split; [vm_compute; reflexivity|].
  split; [vm_compute; reflexivity|]. split; [reflexivity|]. split; [reflexivity|].
  split; [simpl; repeat constructor|]. split; [left|reflexivity].
Qed.

(** Not for a default-constructed buffer: with no requests isComplete returns an
    uninitialised variable. *)
Theorem C68_no_requests_refuted : ~ forall pl n b, initComm pl n 1 "halo" hbuf_default = Ok b ->
  exists b', isComplete pl b = Ok (true, b').
Proof.
  intros H. destruct (H (plat true) 2 (HBuf 14 "halo" 1 [] [] [])) as [b' Hb']; [done|]. vm_compute in Hb'. discriminate.
Qed.
Print Assumptions C68_no_requests_refuted.

(** Outside debug builds nothing is refused: a busy buffer with pending requests
    can be renamed, resized and even finalised. *)
Theorem C68_release_refuted : ~ forall pl n counts0 ops b0 b,
  0 < n -> length counts0 = n -> hops_ok n ops ->
  hbuf_new pl n counts0 = Ok b0 -> run_hops pl n ops b0 = Ok b -> isCommInit b = true -> RPending ∈ h_reqs b ->
  (forall sz name b', initComm pl n sz name b <> Ok b') /\ (forall b', h_finalise pl b <> Ok b').
Proof.
  intros H.
  edestruct (H (plat false) 1 [1] [HInit 1 "a"; HPost]) as [_ H2]; [lia|done| | | | | |].
  - repeat constructor; lia.
  - vm_compute. reflexivity.
  - vm_compute. reflexivity.
  - reflexivity.
  - cbn. by left.
  - eapply H2. vm_compute. reflexivity.
Qed.
Print Assumptions C68_release_refuted.

(** Non-vacuity: a release build renames a busy buffer with a pending request. *)
Example C68_instance : exists b0 b b', debug (plat false) = false /\ hbuf_new (plat false) 2 [1; 1] = Ok b0 /\
  run_hops (plat false) 2 [HInit 8 "a"; HPost] b0 = Ok b /\ RPending ∈ h_reqs b /\ initComm (plat false) 2 8 "b" b = Ok b' /\ RPending ∈ h_reqs b'.
Proof. do 3 eexists. split; [done|]. do 2 (split; [vm_compute; reflexivity|]). split; [left|]. split; [vm_compute; reflexivity|left]. Qed.

(** * C22 *)
(** One fresh communicator per rank. *)
Definition start_world (pl : platform) (ms : maps) (w : world) : Prop :=
  exists comms, Forall2 (fun sr c => comm_new pl (length ms) sr.1 sr.2 = Ok c) ms comms /\ w = world_init comms.

Lemma start_world_eq pl ms w : maps_ok ms -> start_world pl ms w -> w = world_init (comms_of ms).
Proof.
  intros Hms (comms & H & ->). f_equal. unfold comms_of.
  assert (G : Forall (fun sr : list (list nat) * list (list nat) => length sr.1 = length ms /\ length sr.2 = length ms) ms).
  { apply Forall_lookup_2. intros i sr Hi. by apply (mo_len _ Hms i). }
  revert H. generalize dependent (length ms). intros n G H. clear Hms. induction H as [|sr c l l' Hc _ IH]; [done|].
  apply Forall_cons in G as [[G1 G2] G]. simpl. rewrite IH by done. f_equal. unfold comm_new in Hc.
  rewrite !dassert_true in Hc by (by apply Nat.eqb_eq). cbn [obind] in Hc. by injection Hc as <-.
Qed.

(** One communication in flight per rank at a time, any number of rounds, any
    names (same tags included), any schedule of ranks and message delivery:
    nothing undefined happens and every finished round has exchanged exactly
    the mapped cells. *)
Theorem C22_delivers : forall pl ms u w0 acts, maps_ok ms -> user_ok ms u -> start_world pl ms w0 ->
  exists w, run pl u acts w0 = Ok w /\ exchanged ms u w.
Proof.
  intros pl ms u w0 acts Hms Hu Hw. rewrite (start_world_eq pl ms w0 Hms Hw).
  destruct (run_ok pl u ms Hms Hu acts _ (inv_init pl u ms)) as (w & E & Hinv). exists w. split; [done|]. apply Hinv.
Qed.
Print Assumptions C22_delivers.

(** No deadlock: when nothing more can happen (asking isComplete aside) every
    rank has finished every round. *)
Theorem C22_no_deadlock : forall pl ms u w0 acts w, maps_ok ms -> user_ok ms u -> start_world pl ms w0 ->
  run pl u acts w0 = Ok w -> (forall a, is_test a = false -> act pl u a w = None) ->
  forall p pr, w_procs w !! p = Some pr -> finished u pr.
Proof.
  intros pl ms u w0 acts w Hms Hu Hw E Hstuck p pr Hp. rewrite (start_world_eq pl ms w0 Hms Hw) in E.
  destruct (run_ok pl u ms Hms Hu acts _ (inv_init pl u ms)) as (w' & E' & Hinv). rewrite E' in E. injection E as ->.
  destruct (decide (length (p_results pr) < u_rounds u)) as [Hlt|Hge].
  - destruct (progress pl u ms Hms Hu w Hinv) as (a & o & Ht & Ha); [by exists p, pr|]. by rewrite Hstuck in Ha.
  - pose proof Hinv as [Hlen Hproc _ _ _]. assert (Hpn : p < length ms) by (apply lookup_lt_Some in Hp; lia).
    destruct (maps_get ms Hms p Hpn) as (sr & Hsr & _). destruct (Hproc p pr sr Hp Hsr) as (Hst & [[? _]|[? _]]); unfold in_flight in *; split; lia.
Qed.
Print Assumptions C22_no_deadlock.

(** No livelock: a schedule whose every action is possible contains a bounded
    number of actions other than asking isComplete. *)
Theorem C22_terminates : forall pl ms u w0 acts, maps_ok ms -> user_ok ms u -> start_world pl ms w0 ->
  effective pl u acts w0 ->
  length (filter (fun a => is_test a = false) acts) <= length ms * (u_rounds u * (2 * length ms + 2)).
Proof.
  intros pl ms u w0 acts Hms Hu Hw He. rewrite (start_world_eq pl ms w0 Hms Hw) in He.
  rewrite <- (measure_init u ms Hms Hu). by apply (effective_bound pl u ms Hms Hu acts _ (inv_init pl u ms)).
Qed.
Print Assumptions C22_terminates.

(** isComplete never fails for the communication in flight, and answers true
    exactly when finaliseComm would return at once instead of waiting. *)
Theorem C22_isComplete : forall pl ms u w0 acts w r pr, maps_ok ms -> user_ok ms u -> start_world pl ms w0 ->
  run pl u acts w0 = Ok w -> w_procs w !! r = Some pr -> length (p_results pr) < p_started pr ->
  exists b c, comm_isComplete pl (u_name u (length (p_results pr))) (p_comm pr) = Ok (b, c) /\
    (b = true <-> exists w', act pl u (AFinalise r) w = Some (Ok w')) /\
    (b = false <-> act pl u (AFinalise r) w = None).
Proof.
  intros pl ms u w0 acts w r pr Hms Hu Hw E Hp Hlt. rewrite (start_world_eq pl ms w0 Hms Hw) in E.
  destruct (run_ok pl u ms Hms Hu acts _ (inv_init pl u ms)) as (w' & E' & Hinv). rewrite E' in E. injection E as ->.
  pose proof Hinv as [Hlen Hproc _ _ _]. assert (Hpn : r < length ms) by (apply lookup_lt_Some in Hp; lia).
  destruct (maps_get ms Hms r Hpn) as (sr & Hsr & Hl1 & Hl2).
  destruct (Hproc r pr sr Hp Hsr) as (Hst & [[? _]|[Hfl (f & Hcf & Hfd & Hpk)]]); [lia|].
  destruct (comm_isComplete_flight pl (length ms) sr _ _ _ _ f ltac:(apply Hms) Hcf) as (f' & Ec & _).
  assert (Hj : length (p_results pr) < u_rounds u) by lia.
  destruct (Hu _ Hj) as [Hsz Huf]. destruct (Huf r sr (p_results pr) Hsr) as [_ Hf2].
  destruct (finaliseComm_flight pl (length ms) sr _ _ _ (p_comm pr) f
       (u_mid u (length (p_results pr)) r (u_in u (length (p_results pr)) r (p_results pr)))
       ltac:(apply Hms) Hsz Hl1 Hl2 Hf2 Hcf) as [Hyes Hno].
  do 2 eexists. split; [exact Ec|]. unfold act. rewrite Hp. cbn [mbind option_bind]. rewrite (proj2 (Nat.ltb_lt _ _) Hlt), Hlen, Hfd.
  case_bool_decide as Hd.
  - destruct (Hyes Hd) as (c' & E1 & _). rewrite E1. split; [|split; intros ?; discriminate]. split; [|done]. intros _. by eexists.
  - rewrite (Hno Hd). split; [|done]. split; [done|]. by intros [? ?].
Qed.
Print Assumptions C22_isComplete.

(** Three ranks, two rounds with the same name but different types. *)
Definition maps_ex : maps :=
  [([[]; [0; 2]; [1]], [[]; [4]; []]);
   ([[1]; []; [0]], [[3; 5]; []; [4]]);
   ([[]; [2]; []], [[3]; [0]; []])].
Definition byte_of (n : nat) : byte := default x00 (Byte.of_nat n).
Definition user_ex : user :=
  User 2 (fun _ => "halo") (fun j => S j)
    (fun j p h => map (fun i => replicate (S j) (byte_of (16 * p + i + j))) (seq 0 6))
    (fun j p x => x).
Definition sched_ex : list action :=
  let round := [AStart 2; AStart 0; AStart 1; ABuffer 0 1 14%Z 0; ATest 0; AFinalise 0; ADeliver 2 1 14%Z; ADeliver 0 1 14%Z; ADeliver 0 2 14%Z; ATest 1;
    AStart 0; ADeliver 1 0 14%Z; ADeliver 1 2 14%Z; AFinalise 2; AFinalise 0; AFinalise 1] in round ++ round.
Lemma maps_ex_ok : maps_ok maps_ex.
Proof.
  split.
  - simpl. lia.
  - intros [|[|[|p]]] sr; simpl; intros [= <-]; done.
  - intros [|[|[|s]]] [|[|[|d]]]; simpl; intros; try lia; done.
  - intros [|[|[|p]]] sr; simpl; intros [= <-]; apply (bool_decide_unpack _); vm_compute; exact I.
Qed.
Lemma user_ex_ok : user_ok maps_ex user_ex.
Proof.
  intros j Hj. simpl in Hj. split; [simpl; lia|].
  intros [|[|[|p]]] sr h; simpl lookup; intros [= <-]; destruct j as [|[|j]]; try lia;
    (split; split; apply (bool_decide_unpack _); vm_compute; exact I).
Qed.
Example C22_instance : exists w0 w, maps_ok maps_ex /\ user_ok maps_ex user_ex /\ start_world (plat true) maps_ex w0 /\
  run (plat true) user_ex sched_ex w0 = Ok w /\
  (exists pr r1 r2, w_procs w !! 1 = Some pr /\ p_results pr = [r1; r2] /\
     r1 = map (fun n => [byte_of n]) [16; 17; 18; 0; 34; 2] /\
     r2 = map (fun n => [byte_of n; byte_of n]) [17; 18; 19; 1; 35; 3]) /\
  (exists w1 pr c c', run (plat true) user_ex (take 9 sched_ex) w0 = Ok w1 /\ w_procs w1 !! 1 = Some pr /\
     comm_isComplete (plat true) "halo" (p_comm pr) = Ok (false, c) /\
     (exists w2 pr2, run (plat true) user_ex (take 13 sched_ex) w0 = Ok w2 /\ w_procs w2 !! 1 = Some pr2 /\
        comm_isComplete (plat true) "halo" (p_comm pr2) = Ok (true, c'))).
Proof.
  do 2 eexists. split; [apply maps_ex_ok|]. split; [apply user_ex_ok|].
  split. { eexists. split; [|reflexivity]. repeat (constructor; [vm_compute; reflexivity|]). constructor. }
  split; [vm_compute; reflexivity|].
  split. { do 3 eexists. split; [vm_compute; reflexivity|]. vm_compute. done. }
  do 4 eexists. split; [vm_compute; reflexivity|]. split; [vm_compute; reflexivity|]. split; [vm_compute; reflexivity|].
  do 2 eexists. split; [vm_compute; reflexivity|]. split; [vm_compute; reflexivity|]. vm_compute; reflexivity.
Qed.

(** startComm / isComplete / finaliseComm identify a communication by name, so
    several may be in flight on one Communicator. But the second startComm
    reallocates the vector of buffers while the name table still points into the
    old one: whenever the vector grows by doubling, starting "B" makes every
    later use of "A" undefined, in debug and release builds. *)
Lemma startComm_epoch pl n sz field name c x : startComm pl n sz field name c = Ok x ->
  find_free (c_bufs c) 0 = None -> c_cap c <= length (c_bufs c) ->
  c_epoch x.2 = S (c_epoch c) /\ (forall name', name' <> name -> c_map x.2 !! name' = c_map c !! name').
Proof.
  intros H Hf Hc. unfold startComm in H. destruct (dassert pl _) as [[]| | |]; try done. cbn [obind] in H. rewrite Hf in H.
  unfold createNew in H.
  destruct (ofold _ _ _) as [ss| | |] in H; try done. cbn [obind] in H.
  destruct (ofold _ _ _) as [rs| | |] in H; try done. cbn [obind] in H.
  destruct (fbuf_new _ _ _ _) as [f| | |] in H; try done. cbn [obind] in H.
  rewrite (proj2 (Nat.leb_le _ _) Hc) in H. cbn [fst snd] in H.
  destruct (deref _ _) as [f1| | |] in H; try done. cbn [obind] in H.
  destruct (f_initComm _ _ _ _ _) as [f2| | |] in H; try done. cbn [obind] in H.
  destruct (ofold _ _ _) as [s| | |] in H; try done. cbn [obind] in H.
  destruct (f_startComm _ _ _) as [r| | |] in H; try done. cbn [obind] in H. injection H as <-.
  split; [done|]. intros name' Hne. cbn. by rewrite lookup_insert_ne.
Qed.
Lemma startComm_fresh_cap pl n sz field name c x : startComm pl n sz field name c = Ok x ->
  c_bufs c = [] -> c_cap c = 0 -> c_cap x.2 = Nat.max 1 (grow pl 0).
Proof.
  intros H Hf Hc. unfold startComm in H. destruct (dassert pl _) as [[]| | |]; try done. cbn [obind] in H. rewrite Hf in H.
  cbn [find_free] in H. unfold createNew in H.
  destruct (ofold _ _ _) as [ss| | |] in H; try done. cbn [obind] in H.
  destruct (ofold _ _ _) as [rs| | |] in H; try done. cbn [obind] in H.
  destruct (fbuf_new _ _ _ _) as [f| | |] in H; try done. cbn [obind] in H.
  rewrite Hf, Hc in H. cbn [Nat.leb length fst snd] in H.
  destruct (deref _ _) as [f1| | |] in H; try done. cbn [obind] in H.
  destruct (f_initComm _ _ _ _ _) as [f2| | |] in H; try done. cbn [obind] in H.
  destruct (ofold _ _ _) as [s| | |] in H; try done. cbn [obind] in H.
  destruct (f_startComm _ _ _) as [r| | |] in H; try done. cbn [obind] in H. injection H as <-. done.
Qed.

Theorem C69_second_name_dangles : forall pl n sendMap recvMap szA szB fA fB nameA nameB c0 x y,
  0 < n -> length sendMap = n -> length recvMap = n -> 0 < szA -> fits szA fA sendMap -> grow pl 0 <= 1 -> nameA <> nameB ->
  comm_new pl n sendMap recvMap = Ok c0 ->
  startComm pl n szA fA nameA c0 = Ok x -> startComm pl n szB fB nameB x.2 = Ok y ->
  comm_isComplete pl nameA y.2 = UB /\ forall field, finaliseComm pl n szA field nameA y.2 = UB.
Proof.
  intros pl n sm rm szA szB fA fB nA nB c0 x y Hn Hs Hr Hsz Hfit Hg Hne Hnew Hx Hy.
  assert (Hc0 : c0 = Comm sm rm [] 0 0 ∅).
  { unfold comm_new in Hnew. rewrite !dassert_true in Hnew by (by apply Nat.eqb_eq). by injection Hnew as <-. }
  destruct (startComm_idle pl n (sm, rm) szA fA nA c0 Hn Hsz Hs Hr Hfit) as (c1 & f & E & Hfl & _).
  { subst c0. split; [done|]. split; [done|]. split; [|by left]. intros name p. cbn. by rewrite lookup_empty. }
  pose proof (startComm_fresh_cap pl n szA fA nA c0 x Hx) as Hcap. rewrite E in Hx. injection Hx as <-. cbn [snd] in *.
  destruct Hfl as (_ & _ & Hm & _ & Hb & He & (_ & Hi1 & _) & (_ & Hi2 & _)).
  destruct (startComm_epoch pl n szB fB nB c1 y Hy) as [Hep Hmap].
  { rewrite Hb. cbn. unfold f_isCommInit. by rewrite Hi1, Hi2. }
  { rewrite Hb. rewrite Hcap by (by subst c0). cbn. lia. }
  rewrite He in Hep. specialize (Hmap nA Hne). rewrite Hm in Hmap.
  unfold comm_isComplete, finaliseComm. rewrite Hmap. split; [|intros field]; rewrite dassert_true by done; cbn [obind];
    unfold deref; rewrite Hep; done.
Qed.
Print Assumptions C69_second_name_dangles.

Theorem C69_concurrent_refuted : ~ forall pl n sendMap recvMap sz field nameA nameB c0 x y,
  0 < n -> length sendMap = n -> length recvMap = n -> 0 < sz -> fits sz field sendMap -> nameA <> nameB ->
  comm_new pl n sendMap recvMap = Ok c0 ->
  startComm pl n sz field nameA c0 = Ok x -> startComm pl n sz field nameB x.2 = Ok y ->
  exists b c, comm_isComplete pl nameA y.2 = Ok (b, c).
Proof.
  intros H.
  destruct (startComm (plat true) 1 1 [[x41]] "A" (Comm [[0]] [[0]] [] 0 0 ∅)) as [x| | |] eqn:Ex; try (vm_compute in Ex; discriminate).
  destruct (startComm (plat true) 1 1 [[x41]] "B" x.2) as [y| | |] eqn:Ey; vm_compute in Ex; injection Ex as <-;
    try (vm_compute in Ey; discriminate).
  edestruct (H (plat true) 1 [[0]] [[0]] 1 [[x41]] "A" "B" (Comm [[0]] [[0]] [] 0 0 ∅)) as (b & c & Hc).
  - lia.
  - reflexivity.
  - reflexivity.
  - lia.
  - split; apply (bool_decide_unpack _); vm_compute; exact I.
  - discriminate.
  - reflexivity.
  - vm_compute. reflexivity.
  - exact Ey.
  - vm_compute in Ey. injection Ey as <-. vm_compute in Hc. discriminate.
Qed.
Print Assumptions C69_concurrent_refuted.
