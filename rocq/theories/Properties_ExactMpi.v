(** C67, C69: exactly how many names can be told apart, and exactly when a second
    communication destroys the ones in flight. *)
From stdpp Require Import pretty.
From Verif Require Import Base Mpi MpiSpec MpiProofs MpiWorldProofs Properties_Mpi.
Local Open Scope nat_scope.

(** * C67 *)
(** Two names share a tag iff the low 31 bits of their hashes agree modulo 32757. *)
Theorem C67_same_tag_iff : forall pl a b,
  bufferHash pl a = bufferHash pl b <->
  ((hash pl a mod 2 ^ 31) mod 32757 = (hash pl b mod 2 ^ 31) mod 32757)%N.
Proof.
  intros pl a b. unfold bufferHash. change 2147483647%N with (N.ones 31). rewrite !N.land_ones.
  change (32767 - 10)%Z with (Z.of_N 32757). rewrite <- !N2Z.inj_mod. lia.
Qed.
Print Assumptions C67_same_tag_iff.

(** A set of names can get pairwise different tags, from some hash function, iff
    it has at most 32757 names. *)
Theorem C67_capacity : forall names, NoDup names ->
  ((N.of_nat (length names) <= 32757)%N <->
   exists pl, forall a b, a ∈ names -> b ∈ names -> bufferHash pl a = bufferHash pl b -> a = b).
Proof.
  intros names Hnd. split.
  - intros Hlen.
    set (idx := fun s : string => match list_find (eq s) names with Some (i, _) => N.of_nat i | None => 0%N end).
    assert (Hidx : forall a, a ∈ names -> exists i, idx a = N.of_nat i /\ names !! i = Some a /\ i < length names).
    { intros a Ha. unfold idx. destruct (list_find_elem_of (eq a) names a Ha eq_refl) as [[i y] Hi]. rewrite Hi.
      apply list_find_Some in Hi as (Hi & <- & _). exists i. split; [done|]. split; [done|]. by eapply lookup_lt_Some. }
    exists (Platform false idx grow_double). intros a b Ha Hb E. apply C67_same_tag_iff in E. simpl in E.
    destruct (Hidx a Ha) as (i & -> & Hi & Hil) in E. destruct (Hidx b Hb) as (j & -> & Hj & Hjl) in E.
    assert (i = j) as ->; [|congruence].
    rewrite !(N.mod_small (N.of_nat _) (2^31)) in E by (change (2^31)%N with 2147483648%N; lia).
    rewrite !N.mod_small in E by lia. lia.
  - intros (pl & H). destruct (decide (N.of_nat (length names) <= 32757)%N) as [|Hgt]; [done|]. exfalso.
    destruct (C67_collision pl names Hnd) as (a & b & Ha & Hb & Hne & E); [lia|]. by apply Hne, H.
Qed.
Print Assumptions C67_capacity.

Example C67_instance : NoDup ["pressure"; "velocity"] /\ (N.of_nat (length ["pressure"; "velocity"]) <= 32757)%N.
Proof. split; [apply (bool_decide_unpack _); vm_compute; done|]. vm_compute. discriminate. Qed.

(** * C69 *)
(** All histories of one Communicator: calls that return, and whatever the MPI
    library does to requests and data in between. *)
Definition lib_buf (b : hbuf) (rs : list request) (d : list byte) : hbuf :=
  HBuf (h_tag b) (h_name b) (h_tsize b) rs d (h_off b).
Inductive comm_history (pl : platform) (n : nat) (sendMap recvMap : list (list nat)) : comm -> Prop :=
| ch_new c : comm_new pl n sendMap recvMap = Ok c -> comm_history pl n sendMap recvMap c
| ch_start c sz field name x : comm_history pl n sendMap recvMap c ->
    startComm pl n sz field name c = Ok x -> comm_history pl n sendMap recvMap x.2
| ch_test c name b c' : comm_history pl n sendMap recvMap c ->
    comm_isComplete pl name c = Ok (b, c') -> comm_history pl n sendMap recvMap c'
| ch_finalise c sz field name field' c' : comm_history pl n sendMap recvMap c ->
    finaliseComm pl n sz field name c = Ok (Some (field', c')) -> comm_history pl n sendMap recvMap c'
| ch_library c i f rs ds rr dr : comm_history pl n sendMap recvMap c -> c_bufs c !! i = Some f ->
    comm_history pl n sendMap recvMap (set_buf c i (FBuf (lib_buf (f_send f) rs ds) (lib_buf (f_recv f) rr dr))).

Record names_ok (c : comm) : Prop := {
  no_live : forall name p, c_map c !! name = Some (Some p) -> p.1 <= c_epoch c /\
    (p.1 = c_epoch c -> exists f, c_bufs c !! p.2 = Some f /\ f_isCommInit f = true);
  no_inj : forall name name' p p', c_map c !! name = Some (Some p) -> c_map c !! name' = Some (Some p') ->
    p.1 = c_epoch c -> p'.1 = c_epoch c -> p.2 = p'.2 -> name = name';
}.

Lemma find_free_None bs : forall k, find_free bs k = None <-> Forall (fun f => f_isCommInit f = true) bs.
Proof.
  induction bs as [|b bs IH]; intros k; simpl; [split; [constructor|done]|].
  rewrite Forall_cons. destruct (f_isCommInit b) eqn:E; [rewrite IH; naive_solver|]. split; [done|]. intros [? _]. congruence.
Qed.
Lemma find_free_Some bs : forall k i, find_free bs k = Some i -> k <= i /\ exists f, bs !! (i - k) = Some f /\ f_isCommInit f = false.
Proof.
  induction bs as [|b bs IH]; intros k i; simpl; [done|]. destruct (f_isCommInit b) eqn:E.
  - intros H. destruct (IH (S k) i H) as (Hk & f & Hf & Hi). split; [lia|]. exists f. split; [|done].
    replace (i - k) with (S (i - S k)) by lia. done.
  - intros [= <-]. split; [done|]. rewrite Nat.sub_diag. by exists b.
Qed.

Lemma initComm_busy pl n sz name b b' : initComm pl n sz name b = Ok b' -> isCommInit b' = true.
Proof.
  unfold initComm. destruct (dassert pl _) as [[]| | |]; try done. cbn [obind].
  destruct (setType pl n sz b) as [b1| | |]; try done. cbn [obind]. intros [= <-].
  unfold isCommInit. simpl. pose proof (bufferHash_range pl name). apply negb_true_iff, Z.eqb_neq. lia.
Qed.
Lemma isComplete_tag pl b x : isComplete pl b = Ok x -> h_tag x.2 = h_tag b.
Proof.
  unfold isComplete. destruct (dassert pl _) as [[]| | |]; try done. cbn [obind]. destruct (h_reqs b) eqn:E; [done|].
  rewrite <- E. destruct (test_all (h_reqs b)). by intros [= <-].
Qed.
Lemma dassert_complete_tag pl b b' : dassert_complete pl b = Ok b' -> h_tag b' = h_tag b.
Proof.
  unfold dassert_complete. destruct (debug pl); [|by intros [= <-]].
  destruct (isComplete pl b) as [x| | |] eqn:E; try done. cbn [obind]. destruct x as [fl y]. cbn [fst snd]. destruct fl; [|done].
  intros [= <-]. by apply (isComplete_tag pl b (true, y)).
Qed.
Lemma post_all_tag pl n b x : post_all pl n b = Ok x -> h_tag x.2 = h_tag b.
Proof.
  unfold post_all. destruct (dassert pl _) as [[]| | |]; try done. cbn [obind].
  destruct (dassert_complete pl b) as [b1| | |] eqn:E; try done. cbn [obind].
  destruct (ofold _ _ _) as [y| | |]; try done. cbn [obind]. intros [= <-]. cbn. by apply (dassert_complete_tag pl b).
Qed.
Lemma f_isComplete_busy pl f x : f_isComplete pl f = Ok x -> f_isCommInit x.2 = f_isCommInit f.
Proof.
  unfold f_isComplete. destruct (isComplete pl (f_send f)) as [s| | |] eqn:Es; try done. cbn [obind].
  apply isComplete_tag in Es. destruct s as [fl s]. cbn [fst snd] in *. destruct fl.
  - destruct (isComplete pl (f_recv f)) as [r| | |] eqn:Er; try done. cbn [obind]. apply isComplete_tag in Er. intros [= <-].
    unfold f_isCommInit, isCommInit. cbn. by rewrite Es, Er.
  - intros [= <-]. unfold f_isCommInit, isCommInit. cbn. by rewrite Es.
Qed.
Lemma pack_tag pl sz sm field l : forall b b', ofold (pack_rank pl sz sm field) l b = Ok b' -> h_tag b' = h_tag b.
Proof.
  induction l as [|r l IH]; intros b b'; simpl; [by intros [= <-]|].
  destruct (pack_rank pl sz sm field b r) as [b1| | |] eqn:E; try done. cbn [obind]. intros H. rewrite (IH b1 b' H).
  unfold pack_rank in E. destruct (get _ _ _ _) as [sp| | |]; try done. cbn [obind] in E.
  destruct (oget _) as [m| | |]; try done. cbn [obind] in E.
  destruct (ofold _ _ _) as [d| | |] in E; try done. cbn [obind] in E. by injection E as <-.
Qed.

(** What startComm leaves behind. *)
Lemma startComm_shape pl n sz field name c x : startComm pl n sz field name c = Ok x ->
  exists e i bs cap f, (forall j, j <> i -> bs !! j = c_bufs c !! j) /\ i < length bs /\ f_isCommInit f = true /\
    x.2 = Comm (c_send c) (c_recv c) (<[i := f]> bs) cap e (<[name := Some (e, i)]> (c_map c)) /\
    ((exists g, e = c_epoch c /\ bs = c_bufs c /\ c_bufs c !! i = Some g /\ f_isCommInit g = false) \/
     (Forall (fun g => f_isCommInit g = true) (c_bufs c) /\ i = length (c_bufs c) /\
      ((length (c_bufs c) < c_cap c /\ e = c_epoch c) \/ (c_cap c <= length (c_bufs c) /\ e = S (c_epoch c))))).
Proof.
  intros H. unfold startComm in H. destruct (dassert pl _) as [[]| | |]; try done. cbn [obind] in H.
  destruct (find_free (c_bufs c) 0) as [i|] eqn:Ef.
  - destruct (find_free_Some _ _ _ Ef) as (_ & g & Hg & Hgi). rewrite Nat.sub_0_r in Hg. cbn [obind fst snd] in H.
    destruct (deref _ _) as [f1| | |] eqn:Ed; try done. cbn [obind] in H.
    destruct (f_initComm _ _ _ _ _) as [f2| | |] eqn:Ei in H; try done. cbn [obind] in H.
    destruct (ofold _ _ _) as [s| | |] eqn:Ep in H; try done. cbn [obind] in H.
    destruct (f_startComm _ _ _) as [r| | |] eqn:Es in H; try done. cbn [obind] in H. injection H as <-.
    exists (c_epoch c), i, (c_bufs c), (c_cap c), r.2.
    assert (Hb : f_isCommInit r.2 = true).
    { unfold f_initComm in Ei. destruct (initComm pl n sz name (f_send f1)) as [s1| | |] eqn:E1; try done. cbn [obind] in Ei.
      destruct (initComm pl n sz name (f_recv f1)) as [r1| | |] eqn:E2; try done. cbn [obind] in Ei. injection Ei as <-.
      apply initComm_busy in E1, E2. cbn [f_send f_recv] in *. apply pack_tag in Ep. unfold f_startComm in Es. cbn [f_send f_recv] in Es.
      destruct (post_all pl n s) as [ps| | |] eqn:P1; try done. cbn [obind] in Es.
      destruct (post_all pl n r1) as [pr| | |] eqn:P2; try done. cbn [obind] in Es. injection Es as <-.
      apply post_all_tag in P1, P2. unfold f_isCommInit, isCommInit in *. cbn. by rewrite P1, P2, Ep, E1, E2. }
    split; [done|]. split; [by eapply lookup_lt_Some|]. split; [done|]. split; [done|]. left. by exists g.
  - apply find_free_None in Ef. unfold createNew in H.
    destruct (ofold _ _ _) as [ss| | |] in H; try done. cbn [obind] in H.
    destruct (ofold _ _ _) as [rs| | |] in H; try done. cbn [obind] in H.
    destruct (fbuf_new _ _ _ _) as [f0| | |] in H; try done. cbn [obind fst snd] in H.
    destruct (deref _ _) as [f1| | |] eqn:Ed; try done. cbn [obind] in H.
    destruct (f_initComm _ _ _ _ _) as [f2| | |] eqn:Ei in H; try done. cbn [obind] in H.
    destruct (ofold _ _ _) as [s| | |] eqn:Ep in H; try done. cbn [obind] in H.
    destruct (f_startComm _ _ _) as [r| | |] eqn:Es in H; try done. cbn [obind] in H. injection H as <-.
    do 2 eexists. exists (c_bufs c ++ [f0]). eexists. exists r.2.
    assert (Hb : f_isCommInit r.2 = true).
    { unfold f_initComm in Ei. destruct (initComm pl n sz name (f_send f1)) as [s1| | |] eqn:E1; try done. cbn [obind] in Ei.
      destruct (initComm pl n sz name (f_recv f1)) as [r1| | |] eqn:E2; try done. cbn [obind] in Ei. injection Ei as <-.
      apply initComm_busy in E1, E2. cbn [f_send f_recv] in *. apply pack_tag in Ep. unfold f_startComm in Es. cbn [f_send f_recv] in Es.
      destruct (post_all pl n s) as [ps| | |] eqn:P1; try done. cbn [obind] in Es.
      destruct (post_all pl n r1) as [pr| | |] eqn:P2; try done. cbn [obind] in Es. injection Es as <-.
      apply post_all_tag in P1, P2. unfold f_isCommInit, isCommInit in *. cbn. by rewrite P1, P2, Ep, E1, E2. }
    split; [|split; [|split; [exact Hb|split; [reflexivity|]]]].
    + intros j Hj. destruct (decide (j < length (c_bufs c))) as [Hlt|Hge]; [by rewrite lookup_app_l|].
      rewrite lookup_app_r by lia. rewrite (lookup_ge_None_2 (c_bufs c)) by lia.
      destruct (j - length (c_bufs c)) eqn:E; [lia|done].
    + rewrite app_length. simpl. lia.
    + right. split; [done|]. split; [done|]. destruct (Nat.leb_spec (c_cap c) (length (c_bufs c))); [right|left]; done.
Qed.

Lemma names_ok_history pl n sm rm c : comm_history pl n sm rm c -> names_ok c.
Proof.
  induction 1 as [c H|c sz field name x _ IH H|c name b c' _ IH H|c sz field name field' c' _ IH H|c i f rs ds rr dr _ IH H].
  - unfold comm_new in H. destruct (dassert pl _) as [[]| | |]; try done. cbn [obind] in H.
    destruct (dassert pl _) as [[]| | |]; try done. cbn [obind] in H. injection H as <-.
    split; intros ? ?; cbn [c_map]; by rewrite lookup_empty.
  - destruct (startComm_shape pl n sz field name c x H) as (e & i & bs & cap & f & Hbs & Hi & Hf & -> & Hcase).
    destruct IH as [IL II].
    assert (He : c_epoch c <= e) by (destruct Hcase as [(g & -> & _)|(_ & _ & [[_ ->]|[_ ->]])]; lia).
    assert (Hkeep : forall name' p, c_map c !! name' = Some (Some p) -> p.1 = e ->
        p.2 <> i /\ exists g, bs !! p.2 = Some g /\ f_isCommInit g = true).
    { intros name' p Hp Hpe. destruct (IL _ _ Hp) as [L1 L2]. assert (Hpc : p.1 = c_epoch c) by lia.
      destruct (L2 Hpc) as (g & Hg & Hgi). assert (p.2 <> i) as Hne.
      { intros <-. destruct Hcase as [(g' & _ & _ & Hg' & Hgi')|(_ & Hlen & _)]; [congruence|]. apply lookup_lt_Some in Hg. lia. }
      split; [done|]. exists g. by rewrite Hbs. }
    split; cbn [c_map c_epoch c_bufs].
    + intros name' p. destruct (decide (name' = name)) as [->|Hne].
      * rewrite lookup_insert. intros [= <-]. cbn [fst snd]. split; [done|]. intros _. exists f. by rewrite list_lookup_insert.
      * rewrite lookup_insert_ne by done. intros Hp. destruct (IL _ _ Hp) as [L1 _]. split; [lia|]. intros Hpe.
        destruct (Hkeep _ _ Hp Hpe) as (Hni & g & Hg & Hgi). exists g. by rewrite list_lookup_insert_ne.
    + intros name1 name2 p p'. destruct (decide (name1 = name)) as [->|N1], (decide (name2 = name)) as [->|N2]; [done| | |].
      * rewrite lookup_insert, lookup_insert_ne by done. intros [= <-] Hp' _ Hpe E. cbn [fst snd] in *.
        destruct (Hkeep _ _ Hp' Hpe) as (Hni & _). congruence.
      * rewrite lookup_insert, lookup_insert_ne by done. intros Hp [= <-] Hpe _ E. cbn [fst snd] in *.
        destruct (Hkeep _ _ Hp Hpe) as (Hni & _). congruence.
      * rewrite !lookup_insert_ne by done. intros Hp Hp' Hpe Hpe'. destruct (IL _ _ Hp) as [L1 _]. destruct (IL _ _ Hp') as [L2 _].
        apply (II name1 name2 p p' Hp Hp'); lia.
  - unfold comm_isComplete in H. destruct (dassert pl _) as [[]| | |]; try done. cbn [obind] in H.
    destruct (c_map c !! name) as [[p|]|] eqn:Em; try done. destruct (deref c p) as [f| | |] eqn:Ed; try done. cbn [obind] in H.
    destruct (f_isComplete pl f) as [r| | |] eqn:Ef; try done. cbn [obind] in H. injection H as <- <-. apply f_isComplete_busy in Ef.
    unfold deref in Ed. destruct (Nat.eqb_spec p.1 (c_epoch c)) as [Hpe|]; [|done].
    destruct (c_bufs c !! p.2) as [g|] eqn:Eg; [|done]. cbn [oget] in Ed. injection Ed as ->.
    destruct IH as [IL II]. split; cbn [set_buf c_map c_epoch c_bufs]; [|done]. intros name' q Hq. destruct (IL _ _ Hq) as [L1 L2].
    split; [done|]. intros Hqe. destruct (L2 Hqe) as (g & Hg & Hgi). destruct (decide (p.2 = q.2)) as [E|E].
    + rewrite <- E. rewrite list_lookup_insert by (by eapply lookup_lt_Some). exists r.2. split; [done|]. rewrite Ef. congruence.
    + rewrite list_lookup_insert_ne by done. by exists g.
  - unfold finaliseComm in H. destruct (dassert pl _) as [[]| | |]; try done. cbn [obind] in H.
    destruct (c_map c !! name) as [[p|]|] eqn:Em; try done. destruct (deref c p) as [f| | |] eqn:Ed; try done. cbn [obind] in H.
    destruct (f_wait pl f) as [[f1|]| | |]; try done. cbn [obind] in H.
    destruct (ofold _ _ _) as [fl| | |] in H; try done. cbn [obind] in H.
    destruct (f_finaliseComm pl f1) as [f2| | |]; try done. cbn [obind] in H. injection H as <- <-.
    unfold deref in Ed. destruct (Nat.eqb_spec p.1 (c_epoch c)) as [Hpe|]; [|done]. clear Ed.
    destruct IH as [IL II]. split; cbn [set_buf set_map c_map c_epoch c_bufs].
    + intros name' q. destruct (decide (name' = name)) as [->|Hne]; [by rewrite lookup_insert|]. rewrite lookup_insert_ne by done.
      intros Hq. destruct (IL _ _ Hq) as [L1 L2]. split; [done|]. intros Hqe. destruct (L2 Hqe) as (g & Hg & Hgi).
      exists g. split; [|done]. rewrite list_lookup_insert_ne; [done|]. intros E. apply Hne. by apply (II name' name q p).
    + intros name1 name2 q q'. destruct (decide (name1 = name)) as [->|N1]; [by rewrite lookup_insert|].
      destruct (decide (name2 = name)) as [->|N2]; [by rewrite lookup_insert|]. rewrite !lookup_insert_ne by done. apply II.
  - destruct IH as [IL II]. split; cbn [set_buf c_map c_epoch c_bufs]; [|done]. intros name' q Hq. destruct (IL _ _ Hq) as [L1 L2].
    split; [done|]. intros Hqe. destruct (L2 Hqe) as (g & Hg & Hgi). destruct (decide (i = q.2)) as [E|E].
    + rewrite <- E. rewrite list_lookup_insert by (by eapply lookup_lt_Some). eexists. split; [done|].
      assert (f = g) as -> by congruence. exact Hgi.
    + rewrite list_lookup_insert_ne by done. by exists g.
Qed.

(** Starting a further communication leaves another one in flight intact if some
    buffer is idle or the buffer vector has spare capacity; otherwise every
    later use of the other one is undefined. *)
Theorem C69_exactly : forall pl n sendMap recvMap c sz field name x other b c',
  comm_history pl n sendMap recvMap c -> startComm pl n sz field name c = Ok x ->
  other <> name -> comm_isComplete pl other c = Ok (b, c') ->
  ((Exists (fun f => f_isCommInit f = false) (c_bufs c) \/ length (c_bufs c) < c_cap c) ->
     exists c'', comm_isComplete pl other x.2 = Ok (b, c'')) /\
  (~ (Exists (fun f => f_isCommInit f = false) (c_bufs c) \/ length (c_bufs c) < c_cap c) ->
     comm_isComplete pl other x.2 = UB /\ forall sz' field', finaliseComm pl n sz' field' other x.2 = UB).
Proof.
  intros pl n sm rm c sz field name x other b c' Hc Hx Hne Hb.
  destruct (names_ok_history pl n sm rm c Hc) as [IL II].
  destruct (startComm_shape pl n sz field name c x Hx) as (e & i & bs & cap & f & Hbs & Hi & Hf & -> & Hcase).
  unfold comm_isComplete, finaliseComm in *. destruct (c_map c !! other) as [[p|]|] eqn:Em;
    [|by destruct (dassert pl _) as [[]| | |]..].
  rewrite dassert_true in Hb by done. cbn [obind] in Hb. unfold deref in Hb.
  destruct (Nat.eqb_spec p.1 (c_epoch c)) as [Hpe|]; [|done].
  destruct (c_bufs c !! p.2) as [g|] eqn:Eg; [|done]. cbn [oget obind] in Hb.
  destruct (f_isComplete pl g) as [r| | |] eqn:Er; try done. cbn [obind] in Hb. injection Hb as <- <-.
  cbn [c_map]. rewrite lookup_insert_ne by done. rewrite Em.
  destruct (IL _ _ Em) as [_ L2]. destruct (L2 Hpe) as (g' & Hg' & Hgi). assert (g' = g) as -> by congruence.
  split.
  - intros Hroom. rewrite dassert_true by done. cbn [obind]. unfold deref. cbn [c_epoch c_bufs].
    assert (He : e = c_epoch c /\ p.2 <> i).
    { destruct Hcase as [(h & -> & -> & Hh & Hhi)|(Hall & -> & [[Hcap ->]|[Hcap ->]])].
      - split; [done|]. intros <-. congruence.
      - split; [done|]. apply lookup_lt_Some in Eg. lia.
      - destruct Hroom as [Hex|]; [|lia]. exfalso. apply Exists_exists in Hex as (h & Hh & Hhi).
        rewrite Forall_forall in Hall. specialize (Hall h Hh). congruence. }
    destruct He as [-> Hpi]. rewrite Hpe, Nat.eqb_refl. rewrite list_lookup_insert_ne by done. rewrite Hbs, Eg by done.
    cbn [oget obind]. rewrite Er. cbn [obind]. by eexists.
  - intros Hnoroom. assert (He : e = S (c_epoch c)).
    { destruct Hcase as [(h & -> & -> & Hh & Hhi)|(Hall & -> & [[Hcap ->]|[Hcap ->]])]; [| |done].
      - exfalso. apply Hnoroom. left. apply Exists_exists. exists h. split; [by eapply elem_of_list_lookup_2|done].
      - exfalso. apply Hnoroom. by right. }
    split; [|intros sz' field']; rewrite dassert_true by done; cbn [obind]; unfold deref; cbn [c_epoch];
      rewrite He, (proj2 (Nat.eqb_neq _ _)) by lia; done.
Qed.
Print Assumptions C69_exactly.

(** With a vector growing 0, 1, 2, 4: "B" destroys "A" and "C" destroys "B", but
    "D" leaves "C" intact. *)
Example C69_exact_instance : exists x y z v b c, let pl := plat true in let c0 := Comm [[0]] [[0]] [] 0 0 ∅ in
  comm_history pl 1 [[0]] [[0]] z.2 /\
  startComm pl 1 1 [[x41]] "A" c0 = Ok x /\ startComm pl 1 1 [[x41]] "B" x.2 = Ok y /\
  startComm pl 1 1 [[x41]] "C" y.2 = Ok z /\ startComm pl 1 1 [[x41]] "D" z.2 = Ok v /\
  comm_isComplete pl "A" y.2 = UB /\ comm_isComplete pl "B" y.2 = Ok (false, y.2) /\ comm_isComplete pl "B" z.2 = UB /\
  comm_isComplete pl "C" z.2 = Ok (b, c) /\ exists c'', comm_isComplete pl "C" v.2 = Ok (b, c'').
Proof.
  destruct (startComm (plat true) 1 1 [[x41]] "A" (Comm [[0]] [[0]] [] 0 0 ∅)) as [x| | |] eqn:Ex; try (vm_compute in Ex; discriminate).
  destruct (startComm (plat true) 1 1 [[x41]] "B" x.2) as [y| | |] eqn:Ey; try (vm_compute in Ex; injection Ex as <-; vm_compute in Ey; discriminate).
  destruct (startComm (plat true) 1 1 [[x41]] "C" y.2) as [z| | |] eqn:Ez;
    try (vm_compute in Ex; injection Ex as <-; vm_compute in Ey; injection Ey as <-; vm_compute in Ez; discriminate).
  assert (Hz : comm_history (plat true) 1 [[0]] [[0]] z.2).
  { eapply ch_start; [|exact Ez]. eapply ch_start; [|exact Ey]. eapply ch_start; [|exact Ex]. by apply ch_new. }
  destruct (startComm (plat true) 1 1 [[x41]] "D" z.2) as [v| | |] eqn:Ev;
    try (vm_compute in Ex; injection Ex as <-; vm_compute in Ey; injection Ey as <-; vm_compute in Ez; injection Ez as <-; vm_compute in Ev; discriminate).
  exists x, y, z, v. do 2 eexists. cbv zeta. split; [done|]. split; [done|]. split; [done|]. split; [done|]. split; [done|].
  vm_compute in Ex. injection Ex as <-. vm_compute in Ey. injection Ey as <-. vm_compute in Ez. injection Ez as <-. vm_compute in Ev. injection Ev as <-.
  split; [vm_compute; reflexivity|]. split; [vm_compute; reflexivity|]. split; [vm_compute; reflexivity|].
  split; [vm_compute; reflexivity|]. eexists. vm_compute. reflexivity.
Qed.
