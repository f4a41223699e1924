(** Slot allocation with atomic_fetch_add is correct on every interleaving. *)
From Verif Require Import Base Par ParProofs Exec ExecProofs Kernel KernelProofs Ticket.

(** * Generic facts *)
Lemma run_thread_none {S L} (acts : list (action S L)) : forall pre l post s,
  run_thread l acts s = None ->
  exists sched, run sched (pre ++ (l, acts) :: post) s = None.
Proof.
  induction acts as [|a acts IH]; intros pre l post s H; simpl in H; [done|].
  destruct (a s l) as [[s1 l1]|] eqn:Ha.
  - destruct (IH pre l1 post s1 H) as [sched Hs]. exists (length pre :: sched). simpl.
    rewrite list_lookup_middle by done. rewrite Ha.
    replace (length pre) with (length pre + 0) by lia. rewrite insert_app_r. done.
  - exists [length pre]. simpl. rewrite list_lookup_middle by done. by rewrite Ha.
Qed.

Lemma run_serial_none {S L} (ts : list (thread S L)) : forall pre s,
  run_serial ts s = None -> exists sched, run sched (pre ++ ts) s = None.
Proof.
  induction ts as [|[l acts] ts IH]; intros pre s H; simpl in H; [done|].
  destruct (run_thread l acts s) as [s1|] eqn:H1.
  - destruct (run_one_thread acts pre l ts s s1 H1) as [l' Hr].
    destruct (IH (pre ++ [(l', [])]) s1 H) as [sched Hs].
    exists (replicate (length acts) (length pre) ++ sched).
    rewrite <- app_assoc in Hs. rewrite run_app. unfold thread in *. rewrite Hr. done.
  - by apply run_thread_none.
Qed.

Lemma safe_serial {S L} (ts : list (thread S L)) s :
  par_safe ts s -> exists s', run_serial ts s = Some s'.
Proof.
  intros Hs. destruct (run_serial ts s) as [s'|] eqn:H; [eauto|].
  destruct (run_serial_none ts [] s H) as [sched Hr]. by destruct (Hs sched).
Qed.

(** A safe thread pool has a result on every executor, and a property of all
    complete executions holds of it. *)
Lemma exec_post {S L} (ts : list (thread S L)) s (P : S -> Prop) :
  par_safe ts s -> (forall s', par_result ts s s' -> P s') ->
  forall e, (exists s', exec_result e ts s (Some s')) /\
    forall r, exec_result e ts s r -> exists s', r = Some s' /\ P s'.
Proof.
  intros Hs HP e. destruct (safe_serial ts s Hs) as [s' Hser]. split.
  - exists s'. by apply exec_result_exists.
  - intros r Hr. destruct e; simpl in Hr.
    + exists s'. split; [congruence|]. apply HP, serial_par. done.
    + destruct r as [s1|]; [eauto|]. destruct Hr as [sched Hr]. by destruct (Hs sched).
    + destruct r as [s1|]; [eauto|]. destruct Hr as [sched Hr]. by destruct (Hs sched).
Qed.

(** * Slot allocation *)
Definition fetches (b : list tinstr) : list iaddr :=
  omap (fun i => match i with TFetch a => Some a | _ => None end) b.

Lemma fetches_app b c : fetches (b ++ c) = fetches b ++ fetches c.
Proof. apply omap_app. Qed.

Definition cnt1 (a : iaddr) (b : list tinstr) : nat := length (filter (eq a) (fetches b)).
Definition cnt (a : iaddr) (bs : list (list tinstr)) : nat := sum_list (map (cnt1 a) bs).

Lemma cnt1_app a b c : cnt1 a (b ++ c) = cnt1 a b + cnt1 a c.
Proof. unfold cnt1. by rewrite fetches_app, filter_app, app_length. Qed.

Lemma sum_list_insert (l : list nat) : forall i x y,
  l !! i = Some x -> sum_list (<[i := y]> l) + x = sum_list l + y.
Proof.
  induction l as [|z l IH]; intros [|i] x y H; simpl in *; [done|done| |].
  - injection H as ->. lia.
  - specialize (IH i x y H). lia.
Qed.

Lemma cnt_insert a bs i b b' :
  bs !! i = Some b -> cnt a (<[i := b']> bs) + cnt1 a b = cnt a bs + cnt1 a b'.
Proof.
  intros H. unfold cnt. change (map ?f ?l) with (f <$> l). rewrite list_fmap_insert.
  apply sum_list_insert. by rewrite list_lookup_fmap, H.
Qed.

Lemma cnt_le a : forall bs cs, Forall2 (fun b c => exists q, c = b ++ q) bs cs -> cnt a bs <= cnt a cs.
Proof.
  intros bs cs H. unfold cnt. induction H as [|b c bs cs [q ->] H IH]; simpl; [lia|].
  rewrite cnt1_app. lia.
Qed.

Section ticket.
  Context (m0 : imem) (bodies : list (list tinstr)).
  Implicit Types (a c : iaddr) (m : imem).

  Definition start_of (a : iaddr) : nat := default 0 (mget m0 a).
  Definition range_of a (t : nat) : Prop := start_of a <= t < start_of a + cnt a bodies.

  (** [is_put i p j f c]: instruction [p] of thread [i] writes with its j-th
      ticket, which comes from counter [c]. *)
  Definition is_put i p j f c : Prop :=
    exists b, bodies !! i = Some b /\ b !! p = Some (TPut j f) /\ fetches b !! j = Some c.

  Record ticket_ok : Prop := {
    (* only fetches and writes, a ticket is drawn before it is used *)
    to_instr : forall i b p ins, bodies !! i = Some b -> b !! p = Some ins ->
      match ins with
      | TFetch a => in_shape (shape m0) a
      | TPut j _ => j < length (fetches (take p b))
      | _ => False
      end;
    (* the targets of writes exist and are not counters *)
    to_target : forall i p j f c t, is_put i p j f c -> range_of c t ->
      in_shape (shape m0) (f t).1 /\ cnt (f t).1 bodies = 0;
    (* different writes with different tickets have different targets *)
    to_disjoint : forall i p j f c t i' p' j' f' c' t',
      is_put i p j f c -> is_put i' p' j' f' c' -> range_of c t -> range_of c' t' ->
      (i, p) <> (i', p') -> ((i, j) <> (i', j') -> c = c' -> t <> t') ->
      ((i, j) = (i', j') -> t = t') ->
      (f t).1 <> (f' t').1;
  }.
  Context (Hok : ticket_ok).

  Notation cfg := (list (list tinstr * list nat * list tinstr)).
  Definition threads_of (C : cfg) : list (thread imem (list nat)) :=
    map (fun x => (x.1.2, map tstep x.2)) C.
  Definition dones (C : cfg) : list (list tinstr) := map (fun x => x.1.1) C.

  Definition tick (C : cfg) i j c t : Prop :=
    exists d r q, C !! i = Some (d, r, q) /\ fetches d !! j = Some c /\ r !! j = Some t.
  Definition executed (C : cfg) i p j f t : Prop :=
    exists d r q, C !! i = Some (d, r, q) /\ d !! p = Some (TPut j f) /\ r !! j = Some t.

  Record inv (C : cfg) m : Prop := {
    iv_len : length C = length bodies;
    iv_body : forall i d r q, C !! i = Some (d, r, q) ->
      bodies !! i = Some (d ++ q) /\ length r = length (fetches d);
    iv_range : forall i j c t, tick C i j c t ->
      start_of c <= t < start_of c + cnt c (dones C);
    iv_inj : forall i j i' j' c t t', tick C i j c t -> tick C i' j' c t' ->
      (i, j) <> (i', j') -> t <> t';
    iv_mono : forall i j j' c t t', tick C i j c t -> tick C i j' c t' -> j < j' -> t < t';
    iv_put : forall i p j f t, executed C i p j f t -> mget m (f t).1 = Some (f t).2;
    iv_rest : forall a, (forall i p j f t, executed C i p j f t -> (f t).1 <> a) ->
      mget m a = (fun x => x + cnt a (dones C)) <$> mget m0 a;
    iv_shape : shape m = shape m0;
  }.

  Lemma dones_le C m a : inv C m -> cnt a (dones C) <= cnt a bodies.
  Proof using.
    intros Hi. apply cnt_le. apply Forall2_same_length_lookup. split.
    { unfold dones. rewrite map_length. apply Hi. }
    intros i b b' Hb Hb'. unfold dones in Hb. change (map ?f ?l) with (f <$> l) in Hb.
    rewrite list_lookup_fmap in Hb. apply fmap_Some in Hb as ([[d r] q] & Hc & ->).
    destruct (iv_body C m Hi i d r q Hc) as [E _]. exists q. simpl. congruence.
  Qed.

  Lemma tick_range C m i j c t : inv C m -> tick C i j c t -> range_of c t.
  Proof using.
    intros Hi Ht. pose proof (iv_range C m Hi i j c t Ht). pose proof (dones_le C m c Hi).
    unfold range_of. lia.
  Qed.

  Lemma lookup_fetches_lt (d : list tinstr) p ins : d !! p = Some ins -> forall q, take p (d ++ q) = take p d.
  Proof using. intros H q. apply take_app_le. apply lookup_lt_Some in H. lia. Qed.

  Lemma fetches_take_lt (b : list tinstr) p j : j < length (fetches (take p b)) ->
    fetches b !! j = fetches (take p b) !! j.
  Proof using.
    intros H. rewrite <- (take_drop p b) at 1. rewrite fetches_app. by rewrite lookup_app_l.
  Qed.

  Lemma executed_put C m i p j f t : inv C m -> executed C i p j f t ->
    exists c, is_put i p j f c /\ tick C i j c t.
  Proof using Hok.
    intros Hi (d & r & q & HC & Hd & Hr).
    destruct (iv_body C m Hi i d r q HC) as [Hb Hl].
    pose proof (to_instr Hok i (d ++ q) p (TPut j f) Hb) as Hj. simpl in Hj.
    rewrite lookup_app_l in Hj by (by apply lookup_lt_Some in Hd). specialize (Hj Hd).
    rewrite (lookup_fetches_lt _ _ _ Hd) in Hj.
    destruct (lookup_lt_is_Some_2 (fetches (take p d)) j Hj) as [c Hc].
    assert (fetches d !! j = Some c) as Hfd by (by rewrite (fetches_take_lt d p j)).
    exists c. split.
    - exists (d ++ q). split; [done|]. split; [by apply lookup_app_l_Some|].
      rewrite fetches_app. by apply lookup_app_l_Some.
    - exists d, r, q. done.
  Qed.

  Lemma cfg_insert_lookup (C : cfg) i x y k : C !! i = Some x ->
    <[i := y]> C !! k = if decide (k = i) then Some y else C !! k.
  Proof using.
    intros H. destruct (decide (k = i)) as [->|].
    - apply list_lookup_insert. by apply lookup_lt_Some in H.
    - by apply list_lookup_insert_ne.
  Qed.

  Lemma dones_insert (C : cfg) i d r q :
    dones (<[i := (d, r, q)]> C) = <[i := d]> (dones C).
  Proof using. unfold dones. change (map ?f ?l) with (f <$> l). by rewrite list_fmap_insert. Qed.

  Lemma dones_lookup (C : cfg) i d r q : C !! i = Some (d, r, q) -> dones C !! i = Some d.
  Proof using. intros H. unfold dones. change (map ?f ?l) with (f <$> l). by rewrite list_lookup_fmap, H. Qed.

  Lemma step_inv C m i d r ins q :
    inv C m -> C !! i = Some (d, r, ins :: q) ->
    exists m' r', tstep ins m r = Some (m', r') /\
      inv (<[i := (d ++ [ins], r', q)]> C) m' /\
      (match ins with
       | TFetch a => r' = r ++ [start_of a + cnt a (dones C)]
       | _ => r' = r end).
  Proof using Hok.
    intros Hi HC. pose proof (iv_body C m Hi i _ _ _ HC) as [Hb Hl].
    assert (Hp : (d ++ ins :: q) !! length d = Some ins) by (by apply list_lookup_middle).
    pose proof (to_instr Hok i _ _ _ Hb Hp) as Hins.
    pose proof (dones_lookup _ _ _ _ _ HC) as Hdl.
    destruct ins as [a|a|j f|]; [|done| |done].
    - (* fetch *)
      assert (Hin : in_shape (shape m) a) by (by rewrite (iv_shape C m Hi)).
      assert (Hcnt0 : cnt a bodies <> 0).
      { intros H0. pose proof (cnt_insert a bodies i (d ++ TFetch a :: q) []  Hb) as H.
        rewrite cnt1_app in H. unfold cnt1 at 2 in H.
        assert (fetches (TFetch a :: q) = a :: fetches q) as E by done. rewrite E in H.
        rewrite filter_cons_True in H by done. cbn [length] in H.
        change (cnt1 a []) with 0 in H. lia. }
      assert (Hnt : forall i p j f t, executed C i p j f t -> (f t).1 <> a).
      { intros i' p j f t He E. destruct (executed_put C m i' p j f t Hi He) as (c & Hpu & Ht).
        destruct (to_target Hok i' p j f c t Hpu (tick_range C m _ _ _ _ Hi Ht)) as [_ H0].
        rewrite E in H0. lia. }
      destruct (mget_is_Some m0 a Hins) as [x0 Hx0].
      assert (Hm : mget m a = Some (start_of a + cnt a (dones C))).
      { rewrite (iv_rest C m Hi a Hnt), Hx0. simpl. unfold start_of. by rewrite Hx0. }
      set (t0 := start_of a + cnt a (dones C)) in *.
      exists (mset m a (t0 + 1)), (r ++ [t0]). simpl. rewrite Hm.
      split; [done|]. split; [|done].
      set (C' := <[i := (d ++ [TFetch a], r ++ [t0], q)]> C).
      assert (Hlk : forall k, C' !! k = if decide (k = i) then Some (d ++ [TFetch a], r ++ [t0], q) else C !! k)
        by (intros k; by eapply cfg_insert_lookup).
      assert (Hf1 : fetches (d ++ [TFetch a]) = fetches d ++ [a]) by (by rewrite fetches_app).
      assert (Htick : forall i' j' c t, tick C' i' j' c t ->
                tick C i' j' c t \/ (i' = i /\ j' = length r /\ c = a /\ t = t0)).
      { intros i' j' c t (d' & r' & q' & H1 & H2 & H3). rewrite Hlk in H1.
        destruct (decide (i' = i)) as [->|]; [|left; by exists d', r', q'].
        injection H1 as <- <- <-. rewrite Hf1 in H2.
        apply lookup_app_Some in H2 as [H2|[H2 H2']].
        - left. exists d, r, (TFetch a :: q). split; [done|]. split; [done|].
          rewrite lookup_app_l in H3; [done|]. apply lookup_lt_Some in H2. lia.
        - right. apply list_lookup_singleton_Some in H2' as [E <-].
          assert (j' = length r) by lia. subst j'.
          rewrite list_lookup_middle in H3 by done. injection H3 as <-. done. }
      assert (Hexe : forall i' p j f t, executed C' i' p j f t -> executed C i' p j f t).
      { intros i' p j f t (d' & r' & q' & H1 & H2 & H3). rewrite Hlk in H1.
        destruct (decide (i' = i)) as [->|]; [|by exists d', r', q'].
        injection H1 as <- <- <-. apply lookup_app_Some in H2 as [H2|[H2 H2']].
        - exists d, r, (TFetch a :: q). split; [done|]. split; [done|].
          pose proof (to_instr Hok i _ p (TPut j f) Hb) as Hj. simpl in Hj.
          rewrite lookup_app_l in Hj by (by apply lookup_lt_Some in H2). specialize (Hj H2).
          rewrite (lookup_fetches_lt _ _ _ H2) in Hj.
          rewrite lookup_app_l in H3; [done|].
          assert (length (fetches (take p d)) <= length (fetches d)).
          { rewrite <- (take_drop p d) at 2. rewrite fetches_app, app_length. lia. }
          lia.
        - by apply list_lookup_singleton_Some in H2' as [_ ?]. }
      assert (Hcnt : forall c, cnt c (dones C') = cnt c (dones C) + (if decide (c = a) then 1 else 0)).
      { intros c. unfold C'. rewrite dones_insert.
        pose proof (cnt_insert c (dones C) i d (d ++ [TFetch a]) Hdl) as H.
        rewrite cnt1_app in H. unfold cnt1 at 3 in H.
        assert (fetches [TFetch a] = [a]) as E by done. rewrite E in H.
        destruct (decide (c = a)) as [->|Hne].
        - rewrite filter_cons_True in H by done. cbn [length filter list_filter] in H. lia.
        - rewrite filter_cons_False in H by done. cbn [length filter list_filter] in H. lia. }
      constructor.
      + unfold C'. rewrite insert_length. apply Hi.
      + intros k d' r' q' Hk. rewrite Hlk in Hk. destruct (decide (k = i)) as [->|].
        * injection Hk as <- <- <-. split; [by rewrite <- app_assoc|].
          rewrite Hf1, !app_length. simpl. lia.
        * by apply (iv_body C m Hi).
      + intros i' j' c t Ht. rewrite Hcnt. apply Htick in Ht as [Ht|(-> & -> & -> & ->)].
        * pose proof (iv_range C m Hi _ _ _ _ Ht). lia.
        * rewrite decide_True by done. lia.
      + intros i1 j1 i2 j2 c t1 t2 H1 H2 Hne.
        apply Htick in H1 as [H1|(-> & -> & -> & ->)]; apply Htick in H2 as [H2|(-> & -> & Hc & ->)].
        * by eapply (iv_inj C m Hi).
        * subst c. pose proof (iv_range C m Hi _ _ _ _ H1). lia.
        * pose proof (iv_range C m Hi _ _ _ _ H2). lia.
        * done.
      + intros i1 j1 j2 c t1 t2 H1 H2 Hlt.
        apply Htick in H1 as [H1|(-> & -> & -> & ->)]; apply Htick in H2 as [H2|(E & -> & Hc & ->)].
        * by eapply (iv_mono C m Hi).
        * subst c. pose proof (iv_range C m Hi _ _ _ _ H1). lia.
        * destruct H2 as (d' & r' & q' & K1 & K2 & K3). rewrite HC in K1. injection K1 as <- <- <-.
          apply lookup_lt_Some in K3. lia.
        * lia.
      + intros i' p j f t He. apply Hexe in He.
        rewrite mget_mset_ne; [by eapply (iv_put C m Hi)|]. intros E. by eapply Hnt.
      + intros b Hb'. rewrite Hcnt. destruct (decide (b = a)) as [->|Hne].
        * rewrite mget_mset_eq by done. rewrite Hx0. simpl. f_equal. unfold t0, start_of.
          rewrite Hx0. simpl. lia.
        * rewrite mget_mset_ne by congruence. rewrite Nat.add_0_r.
          apply (iv_rest C m Hi). intros i' p j f t He. apply (Hb' i' p j f t).
          destruct He as (d' & r' & q' & H1 & H2 & H3).
          destruct (decide (i' = i)) as [->|].
          -- rewrite HC in H1. injection H1 as <- <- <-.
             exists (d ++ [TFetch a]), (r ++ [t0]), q. rewrite Hlk, decide_True by done.
             split; [done|]. split; by apply lookup_app_l_Some.
          -- exists d', r', q'. rewrite Hlk, decide_False by done. done.
      + rewrite shape_mset. apply Hi.
    - (* put *)
      rewrite take_app_alt in Hins by done. rewrite <- Hl in Hins.
      destruct (lookup_lt_is_Some_2 r j Hins) as [t Ht].
      destruct (lookup_lt_is_Some_2 (fetches d) j ltac:(lia)) as [c Hc].
      assert (Hpu : is_put i (length d) j f c).
      { exists (d ++ TPut j f :: q). split; [done|]. split; [done|].
        rewrite fetches_app. by apply lookup_app_l_Some. }
      assert (Htk : tick C i j c t) by (by exists d, r, (TPut j f :: q)).
      pose proof (tick_range C m _ _ _ _ Hi Htk) as Hrg.
      destruct (to_target Hok _ _ _ _ _ _ Hpu Hrg) as [Hin Hc0].
      rewrite <- (iv_shape C m Hi) in Hin.
      destruct (mget_is_Some m _ Hin) as [x Hx].
      exists (mset m (f t).1 (f t).2), r. simpl. rewrite Ht, Hx.
      split; [done|]. split; [|done].
      set (C' := <[i := (d ++ [TPut j f], r, q)]> C).
      assert (Hlk : forall k, C' !! k = if decide (k = i) then Some (d ++ [TPut j f], r, q) else C !! k)
        by (intros k; by eapply cfg_insert_lookup).
      assert (Hf1 : fetches (d ++ [TPut j f]) = fetches d).
      { rewrite fetches_app. change (fetches [TPut j f]) with (@nil iaddr). apply app_nil_r. }
      assert (Htick : forall i' j' c t, tick C' i' j' c t -> tick C i' j' c t).
      { intros i' j' c' t' (d' & r' & q' & H1 & H2 & H3). rewrite Hlk in H1.
        destruct (decide (i' = i)) as [->|]; [|by exists d', r', q'].
        injection H1 as <- <- <-. rewrite Hf1 in H2. exists d, r, (TPut j f :: q). done. }
      assert (Hexe : forall i' p' j' f' t', executed C' i' p' j' f' t' ->
        executed C i' p' j' f' t' \/ (i' = i /\ p' = length d /\ j' = j /\ f' = f /\ t' = t)).
      { intros i' p' j' f' t' (d' & r' & q' & H1 & H2 & H3). rewrite Hlk in H1.
        destruct (decide (i' = i)) as [->|]; [|left; by exists d', r', q'].
        injection H1 as <- <- <-. apply lookup_app_Some in H2 as [H2|[H2 H2']].
        - left. exists d, r, (TPut j f :: q). done.
        - right. apply list_lookup_singleton_Some in H2' as [H0 E]. injection E as <- <-.
          rewrite Ht in H3. injection H3 as <-. split_and!; try done. lia. }
      assert (Hexe2 : forall i' p' j' f' t', executed C i' p' j' f' t' -> executed C' i' p' j' f' t').
      { intros i' p' j' f' t' (d' & r' & q' & H1 & H2 & H3).
        destruct (decide (i' = i)) as [->|].
        - rewrite HC in H1. injection H1 as <- <- <-. exists (d ++ [TPut j f]), r, q.
          rewrite Hlk, decide_True by done. split; [done|]. split; [|done]. by apply lookup_app_l_Some.
        - exists d', r', q'. rewrite Hlk, decide_False by done. done. }
      assert (Hcnt : forall c, cnt c (dones C') = cnt c (dones C)).
      { intros c'. unfold C'. rewrite dones_insert.
        pose proof (cnt_insert c' (dones C) i d (d ++ [TPut j f]) Hdl) as H.
        assert (cnt1 c' (d ++ [TPut j f]) = cnt1 c' d) as E by (unfold cnt1; by rewrite Hf1).
        lia. }
      constructor.
      + unfold C'. rewrite insert_length. apply Hi.
      + intros k d' r' q' Hk. rewrite Hlk in Hk. destruct (decide (k = i)) as [->|].
        * injection Hk as <- <- <-. split; [by rewrite <- app_assoc|]. by rewrite Hf1.
        * by apply (iv_body C m Hi).
      + intros i' j' c' t' H'. rewrite Hcnt. by eapply (iv_range C m Hi), Htick.
      + intros i1 j1 i2 j2 c' t1 t2 H1 H2 Hne. apply Htick in H1, H2. by eapply (iv_inj C m Hi).
      + intros i1 j1 j2 c' t1 t2 H1 H2 Hne. apply Htick in H1, H2. by eapply (iv_mono C m Hi).
      + intros i' p' j' f' t' He. apply Hexe in He as [He|(-> & -> & -> & -> & ->)].
        * rewrite mget_mset_ne; [by eapply (iv_put C m Hi)|].
          destruct (executed_put C m _ _ _ _ _ Hi He) as (c' & Hpu' & Htk').
          eapply (to_disjoint Hok); [exact Hpu|exact Hpu'|exact Hrg| | | |].
          -- by eapply tick_range.
          -- intros E. injection E as <- <-.
             destruct He as (d' & r' & q' & H1 & H2 & H3). rewrite HC in H1. injection H1 as <- <- <-.
             apply lookup_lt_Some in H2. lia.
          -- intros Hne <-. by eapply (iv_inj C m Hi).
          -- intros E. injection E as <- <-.
             destruct Htk as (d' & r' & q' & H1 & H2 & H3), Htk' as (d2 & r2 & q2 & K1 & K2 & K3).
             rewrite H1 in K1. injection K1 as <- <- <-. congruence.
        * by apply mget_mset_eq.
      + intros b Hb'. rewrite Hcnt.
        assert ((f t).1 <> b) as Hne.
        { apply (Hb' i (length d) j f t). exists (d ++ [TPut j f]), r, q.
          rewrite Hlk, decide_True by done. split; [done|]. split; [|done]. by apply list_lookup_middle. }
        rewrite mget_mset_ne by done. apply (iv_rest C m Hi). eauto.
      + rewrite shape_mset. apply Hi.
  Qed.

  Definition init_cfg : cfg := map (fun b => ([], [], b)) bodies.

  Lemma init_cfg_lookup i d r q : init_cfg !! i = Some (d, r, q) ->
    d = [] /\ r = [] /\ bodies !! i = Some q.
  Proof using.
    unfold init_cfg. change (map ?f ?l) with (f <$> l). rewrite list_lookup_fmap. intros H.
    apply fmap_Some in H as (b & Hb & E). injection E as -> -> ->. done.
  Qed.

  Lemma dones_init a : cnt a (dones init_cfg) = 0.
  Proof using.
    unfold cnt, dones, init_cfg. rewrite !map_map. simpl.
    induction bodies as [|b bs IH]; simpl; [done|]. done.
  Qed.

  Lemma init_inv : inv init_cfg m0.
  Proof using.
    constructor.
    - unfold init_cfg. by rewrite map_length.
    - intros i d r q H. apply init_cfg_lookup in H as (-> & -> & H). done.
    - intros i j c t (d & r & q & H & H1 & _). apply init_cfg_lookup in H as (-> & -> & H). done.
    - intros i j i' j' c t t' (d & r & q & H & H1 & _). apply init_cfg_lookup in H as (-> & -> & H). done.
    - intros i j j' c t t' (d & r & q & H & H1 & _). apply init_cfg_lookup in H as (-> & -> & H). done.
    - intros i p j f t (d & r & q & H & H1 & _). apply init_cfg_lookup in H as (-> & -> & H). done.
    - intros a _. rewrite dones_init. destruct (mget m0 a); simpl; [|done]. by rewrite Nat.add_0_r.
    - done.
  Qed.

  Lemma threads_insert (C : cfg) i d r q :
    threads_of (<[i := (d, r, q)]> C) = <[i := (r, map tstep q)]> (threads_of C).
  Proof using. unfold threads_of. change (map ?f C) with (f <$> C).
    change (map ?f (<[_ := _]> C)) with (f <$> (<[i := (d, r, q)]> C)). by rewrite list_fmap_insert. Qed.

  Lemma threads_lookup (C : cfg) i th : threads_of C !! i = Some th ->
    exists d r q, C !! i = Some (d, r, q) /\ th = (r, map tstep q).
  Proof using.
    unfold threads_of. change (map ?f C) with (f <$> C). rewrite list_lookup_fmap. intros H.
    apply fmap_Some in H as ([[d r] q] & H & ->). eauto.
  Qed.

  Lemma run_inv sched : forall C m, inv C m ->
    exists C' m', run sched (threads_of C) m = Some (threads_of C', m') /\ inv C' m'.
  Proof using Hok.
    induction sched as [|i sched IH]; intros C m Hi; simpl; [eauto|].
    destruct (threads_of C !! i) as [[l acts]|] eqn:Hl; [|eauto].
    apply threads_lookup in Hl as (d & r & q & HC & E). injection E as -> ->.
    destruct q as [|ins q]; simpl; [eauto|].
    destruct (step_inv C m i d r ins q Hi HC) as (m' & r' & Hs & Hi' & _).
    rewrite Hs. pose proof (IH _ _ Hi') as IH'. rewrite threads_insert in IH'. exact IH'.
  Qed.

  (** What is true at the end, in terms of a ticket function. *)
  Record tickets (tk : nat -> nat -> nat) m' : Prop := {
    tk_range : forall i b j c, bodies !! i = Some b -> fetches b !! j = Some c ->
      range_of c (tk i j);
    tk_inj : forall i b j i' b' j' c, bodies !! i = Some b -> fetches b !! j = Some c ->
      bodies !! i' = Some b' -> fetches b' !! j' = Some c ->
      (i, j) <> (i', j') -> tk i j <> tk i' j';
    tk_put : forall i b j f, bodies !! i = Some b -> TPut j f ∈ b ->
      mget m' (f (tk i j)).1 = Some (f (tk i j)).2;
    tk_rest : forall a, (forall i b j f, bodies !! i = Some b -> TPut j f ∈ b -> (f (tk i j)).1 <> a) ->
      mget m' a = (fun x => x + cnt a bodies) <$> mget m0 a;
    tk_shape : shape m' = shape m0;
  }.

  Definition tk_of (C : cfg) i j : nat := default 0 (C !! i ≫= fun x => x.1.2 !! j).

  Lemma final_tickets C m : inv C m -> finished (threads_of C) -> tickets (tk_of C) m.
  Proof using Hok.
    intros Hi Hf.
    assert (Hq : forall i d r q, C !! i = Some (d, r, q) -> q = []).
    { intros i d r q HC. unfold finished in Hf. rewrite Forall_lookup in Hf.
      specialize (Hf i (r, map tstep q)). unfold threads_of in Hf.
      change (map (fun x => (x.1.2, map tstep x.2)) C) with ((fun x => (x.1.2, map tstep x.2)) <$> C) in Hf.
      rewrite list_lookup_fmap, HC in Hf. specialize (Hf eq_refl). simpl in Hf. by destruct q. }
    assert (HC : forall i b, bodies !! i = Some b -> exists r, C !! i = Some (b, r, []) /\ length r = length (fetches b)).
    { intros i b Hb. assert (i < length C) as Hlt.
      { rewrite (iv_len C m Hi). by apply lookup_lt_Some in Hb. }
      destruct (lookup_lt_is_Some_2 C i Hlt) as [[[d r] q] HC].
      pose proof (Hq _ _ _ _ HC) as ->. destruct (iv_body C m Hi _ _ _ _ HC) as [E Hl].
      rewrite app_nil_r in E. assert (d = b) by congruence. subst d. eauto. }
    assert (Hd : dones C = bodies).
    { apply list_eq. intros i. unfold dones. change (map ?f C) with (f <$> C). rewrite list_lookup_fmap.
      destruct (bodies !! i) as [b|] eqn:Hb.
      - destruct (HC i b Hb) as (r & -> & _). done.
      - rewrite lookup_ge_None_2; [done|]. rewrite (iv_len C m Hi). by apply lookup_ge_None in Hb. }
    assert (Htk : forall i b j c, bodies !! i = Some b -> fetches b !! j = Some c -> tick C i j c (tk_of C i j)).
    { intros i b j c Hb Hc. destruct (HC i b Hb) as (r & E & Hl).
      exists b, r, []. split; [done|]. split; [done|]. unfold tk_of. rewrite E. simpl.
      destruct (r !! j) eqn:Er; [done|]. apply lookup_ge_None in Er. apply lookup_lt_Some in Hc. lia. }
    assert (Hex : forall i b j f, bodies !! i = Some b -> TPut j f ∈ b ->
       exists p, executed C i p j f (tk_of C i j)).
    { intros i b j f Hb Hin. apply elem_of_list_lookup in Hin as [p Hp]. exists p.
      destruct (HC i b Hb) as (r & E & Hl). exists b, r, []. split; [done|]. split; [done|].
      unfold tk_of. rewrite E. simpl. destruct (r !! j) eqn:Er; [done|].
      pose proof (to_instr Hok i b p _ Hb Hp) as Hj. simpl in Hj.
      assert (length (fetches (take p b)) <= length (fetches b)).
      { rewrite <- (take_drop p b) at 2. rewrite fetches_app, app_length. lia. }
      apply lookup_ge_None in Er. lia. }
    constructor.
    - intros i b j c Hb Hc. by eapply tick_range, Htk.
    - intros i b j i' b' j' c Hb Hc Hb' Hc' Hne. eapply (iv_inj C m Hi); eauto.
    - intros i b j f Hb Hin. destruct (Hex i b j f Hb Hin) as [p He]. by eapply (iv_put C m Hi).
    - intros a Ha. rewrite <- Hd. apply (iv_rest C m Hi). intros i p j f t He.
      destruct He as (d & r & q & H1 & H2 & H3). pose proof (Hq _ _ _ _ H1) as ->.
      destruct (iv_body C m Hi _ _ _ _ H1) as [Hb _]. rewrite app_nil_r in Hb.
      assert (t = tk_of C i j) as -> by (unfold tk_of; rewrite H1; simpl; by rewrite H3).
      apply (Ha i d j f); [done|]. by eapply elem_of_list_lookup_2.
    - apply Hi.
  Qed.

  Lemma threads_init : threads_of init_cfg = map tthread bodies.
  Proof using. unfold threads_of, init_cfg. rewrite map_map. done. Qed.

  Theorem ticket_exec e :
    (exists m', exec_result e (map tthread bodies) m0 (Some m')) /\
    forall r, exec_result e (map tthread bodies) m0 r ->
      exists m', r = Some m' /\ exists tk, tickets tk m'.
  Proof using Hok.
    rewrite <- threads_init. apply exec_post.
    - intros sched H. destruct (run_inv sched _ _ init_inv) as (C' & m' & E & _). congruence.
    - intros m' (sched & ts' & Hr & Hf).
      destruct (run_inv sched _ _ init_inv) as (C' & m1 & E & Hi). rewrite E in Hr.
      injection Hr as <- <-. exists (tk_of C'). by apply final_tickets.
  Qed.

  (** ** The serial executor hands out tickets in iteration order *)
  Definition ordered (C : cfg) : Prop :=
    forall i i' j j' c t t', i < i' -> tick C i j c t -> tick C i' j' c t' -> t < t'.

  Lemma step_ordered C m i d r ins q m' r' :
    inv C m -> C !! i = Some (d, r, ins :: q) -> ordered C ->
    (forall k d' r' q', i < k -> C !! k = Some (d', r', q') -> d' = []) ->
    tstep ins m r = Some (m', r') ->
    ordered (<[i := (d ++ [ins], r', q)]> C).
  Proof using Hok.
    intros Hi HC Ho Hlater Hs.
    destruct (step_inv C m i d r ins q Hi HC) as (m1 & r1 & Hs1 & Hi1 & Hr1).
    rewrite Hs in Hs1. injection Hs1 as <- <-.
    set (C' := <[i := (d ++ [ins], r', q)]> C) in *.
    assert (Hlk : forall k, C' !! k = if decide (k = i) then Some (d ++ [ins], r', q) else C !! k)
      by (intros k; by eapply cfg_insert_lookup).
    pose proof (iv_body C m Hi i _ _ _ HC) as [_ Hl].
    assert (Htick : forall k j c t, tick C' k j c t ->
       tick C k j c t \/ (k = i /\ t = start_of c + cnt c (dones C))).
    { intros k j c t (d' & r2 & q' & H1 & H2 & H3). rewrite Hlk in H1.
      destruct (decide (k = i)) as [->|]; [|left; by exists d', r2, q'].
      injection H1 as <- <- <-. destruct ins as [a|a|j0 f0|].
      - subst r'. rewrite fetches_app in H2. change (fetches [TFetch a]) with [a] in H2.
        apply lookup_app_Some in H2 as [H2|[H2 H2']].
        + left. exists d, r, (TFetch a :: q). split; [done|]. split; [done|].
          rewrite lookup_app_l in H3; [done|]. apply lookup_lt_Some in H2. lia.
        + right. apply list_lookup_singleton_Some in H2' as [E <-].
          assert (j = length r) by lia. subst j. rewrite list_lookup_middle in H3 by done.
          split; [done|]. congruence.
      - left. subst r'. rewrite fetches_app in H2. change (fetches [TLoad a]) with (@nil iaddr) in H2.
        rewrite app_nil_r in H2. exists d, r, (TLoad a :: q). done.
      - left. subst r'. rewrite fetches_app in H2. change (fetches [TPut j0 f0]) with (@nil iaddr) in H2.
        rewrite app_nil_r in H2. exists d, r, (TPut j0 f0 :: q). done.
      - done. }
    intros k k' j j' c t t' Hkk H1 H2.
    apply Htick in H1 as [H1|[-> ->]]; apply Htick in H2 as [H2|[-> ->]].
    - by eapply (Ho k k').
    - pose proof (iv_range C m Hi _ _ _ _ H1). lia.
    - destruct H2 as (d' & r2 & q' & K1 & K2 & _). rewrite (Hlater _ _ _ _ Hkk K1) in K2. done.
    - lia.
  Qed.

  Lemma serial_thread q : forall C m i d r,
    inv C m -> C !! i = Some (d, r, q) -> ordered C ->
    (forall k d' r' q', i < k -> C !! k = Some (d', r', q') -> d' = []) ->
    exists m' r', run_thread r (map tstep q) m = Some m' /\
      inv (<[i := (d ++ q, r', [])]> C) m' /\ ordered (<[i := (d ++ q, r', [])]> C).
  Proof using Hok.
    induction q as [|ins q IH]; intros C m i d r Hi HC Ho Hl; simpl.
    - exists m, r. rewrite app_nil_r, list_insert_id by done. done.
    - destruct (step_inv C m i d r ins q Hi HC) as (m1 & r1 & Hs & Hi1 & _). rewrite Hs.
      pose proof (step_ordered C m i d r ins q m1 r1 Hi HC Ho Hl Hs) as Ho1.
      destruct (IH (<[i := (d ++ [ins], r1, q)]> C) m1 i (d ++ [ins]) r1) as (m' & r' & Hr & Hi' & Ho').
      + done.
      + apply list_lookup_insert. by apply lookup_lt_Some in HC.
      + done.
      + intros k d' r' q' Hk HC'. rewrite list_lookup_insert_ne in HC' by lia. by eapply Hl.
      + exists m', r'. rewrite list_insert_insert, <- app_assoc in Hi'.
        rewrite list_insert_insert, <- app_assoc in Ho'. done.
  Qed.

  Lemma serial_rest bs : forall C0 m,
    inv (C0 ++ map (fun b => ([], [], b)) bs) m ->
    ordered (C0 ++ map (fun b => ([], [], b)) bs) ->
    Forall (fun x => x.2 = []) C0 ->
    exists C' m', run_serial (map tthread bs) m = Some m' /\ inv C' m' /\ ordered C' /\
      finished (threads_of C').
  Proof using Hok.
    induction bs as [|b bs IH]; intros C0 m Hi Ho Hf; simpl.
    - simpl in Hi, Ho. rewrite app_nil_r in Hi, Ho. exists C0, m. split_and!; try done.
      unfold finished, threads_of. rewrite Forall_map. eapply Forall_impl; [exact Hf|].
      intros [[d r] q]. simpl. by intros ->.
    - simpl in Hi, Ho.
      destruct (serial_thread b (C0 ++ ([], [], b) :: map (fun b => ([], [], b)) bs) m (length C0) [] [])
        as (m1 & r1 & Hr & Hi1 & Ho1).
      + done.
      + by apply list_lookup_middle.
      + done.
      + intros k d' r' q' Hk HC. rewrite lookup_app_r in HC by lia.
        destruct (k - length C0) as [|k'] eqn:E; [lia|]. simpl in HC.
        change (map ?f bs) with (f <$> bs) in HC.
        rewrite list_lookup_fmap in HC. apply fmap_Some in HC as (x & _ & Ex). by injection Ex as -> -> ->.
      + rewrite Hr. replace (length C0) with (length C0 + 0) in Hi1, Ho1 by lia.
        rewrite insert_app_r in Hi1, Ho1. simpl in Hi1, Ho1.
        destruct (IH (C0 ++ [(b, r1, [])]) m1) as (C' & m' & H1 & H2 & H3 & H4).
        * by rewrite <- app_assoc.
        * by rewrite <- app_assoc.
        * apply Forall_app. split; [done|]. by constructor.
        * exists C', m'. done.
  Qed.

  Theorem ticket_serial r :
    exec_result SerialExecutor (map tthread bodies) m0 r ->
    exists m' tk, r = Some m' /\ tickets tk m' /\
      (forall i b j i' b' j' c, bodies !! i = Some b -> fetches b !! j = Some c ->
         bodies !! i' = Some b' -> fetches b' !! j' = Some c -> i < i' -> tk i j < tk i' j').
  Proof using Hok.
    intros Hr. simpl in Hr.
    destruct (serial_rest bodies [] m0) as (C' & m' & Hs & Hi & Ho & Hf).
    - apply init_inv.
    - intros i i' j j' c t t' _ (d & r' & q & H & H1 & _). simpl in H.
      apply init_cfg_lookup in H as (-> & -> & H). done.
    - constructor.
    - exists m', (tk_of C'). split; [congruence|].
      pose proof (final_tickets C' m' Hi Hf) as HT. split; [done|].
      assert (Htk : forall i b j c, bodies !! i = Some b -> fetches b !! j = Some c -> tick C' i j c (tk_of C' i j)).
      { intros i b j c Hb Hc. assert (i < length C') as Hlt.
        { rewrite (iv_len C' m' Hi). by apply lookup_lt_Some in Hb. }
        destruct (lookup_lt_is_Some_2 C' i Hlt) as [[[d r2] q] HC].
        assert (q = []) as ->.
        { unfold finished in Hf. rewrite Forall_lookup in Hf.
          specialize (Hf i (r2, map tstep q)). unfold threads_of in Hf.
          change (map (fun x => (x.1.2, map tstep x.2)) C') with ((fun x => (x.1.2, map tstep x.2)) <$> C') in Hf.
          rewrite list_lookup_fmap, HC in Hf. specialize (Hf eq_refl). simpl in Hf. by destruct q. }
        destruct (iv_body C' m' Hi _ _ _ _ HC) as [E Hl]. rewrite app_nil_r in E.
        assert (d = b) by congruence. subst d.
        exists b, r2, []. split; [done|]. split; [done|]. unfold tk_of. rewrite HC. simpl.
        destruct (r2 !! j) eqn:Er; [done|]. apply lookup_ge_None in Er. apply lookup_lt_Some in Hc. lia. }
      intros i b j i' b' j' c Hb Hc Hb' Hc' Hlt. by eapply (Ho i i'); eauto.
  Qed.
End ticket.

(** * Iterations with disjoint footprints *)
Section private.
  Context {L : Type}.
  Implicit Types (P : iaddr -> Prop) (m : imem) (ts : list (thread imem L)).

  Definition agree P m m' : Prop := shape m = shape m' /\ forall x, P x -> mget m x = mget m' x.

  (** Run alone from [m], a thread reaches [mf]; it reads and writes only inside [P]. *)
  Fixpoint confined P m (l : L) (acts : list (action imem L)) (mf : imem) : Prop :=
    match acts with
    | [] => m = mf
    | a :: rest => exists m1 l1, shape m1 = shape m /\
        (forall m', agree P m' m ->
           exists m'', a m' l = Some (m'', l1) /\ agree P m'' m1 /\
             forall x, ~ P x -> mget m'' x = mget m' x) /\
        confined P m1 l1 rest mf
    end.

  Context (A : nat -> iaddr -> Prop) (mfs : nat -> imem).
  Context (Hdis : forall i j x, A i x -> A j x -> i = j).

  Lemma private_run sched : forall ts m (mi : nat -> imem),
    (forall i l acts, ts !! i = Some (l, acts) -> confined (A i) (mi i) l acts (mfs i)) ->
    (forall i, i < length ts -> agree (A i) m (mi i)) ->
    exists ts' m' mi', run sched ts m = Some (ts', m') /\ shape m' = shape m /\
      length ts' = length ts /\
      (forall i l acts, ts' !! i = Some (l, acts) -> confined (A i) (mi' i) l acts (mfs i)) /\
      (forall i, i < length ts -> agree (A i) m' (mi' i)) /\
      (forall x, (forall i, i < length ts -> ~ A i x) -> mget m' x = mget m x).
  Proof using Hdis.
    induction sched as [|t sched IH]; intros ts m mi Hc Ha; simpl.
    { exists ts, m, mi. done. }
    destruct (ts !! t) as [[l [|a rest]]|] eqn:Ht; [by apply (IH ts m mi)| |by apply (IH ts m mi)].
    pose proof (lookup_lt_Some _ _ _ Ht) as Hlt.
    pose proof (Hc t l _ Ht) as (m1 & l1 & Hsh1 & Hstep & Hrest).
    destruct (Hstep m (Ha t Hlt)) as (m'' & Hs & [Hag1 Hag2] & Hoff). rewrite Hs.
    assert (Hsh : shape m'' = shape m).
    { destruct (Ha t Hlt) as [E _]. congruence. }
    destruct (IH (<[t := (l1, rest)]> ts) m'' (fun i => if decide (i = t) then m1 else mi i))
      as (ts' & m' & mi' & H1 & H2 & H3 & H4 & H5 & H6).
    - intros i l' acts Hi. destruct (decide (i = t)) as [->|Hne].
      + rewrite list_lookup_insert in Hi by done. by injection Hi as <- <-.
      + rewrite list_lookup_insert_ne in Hi by done. by apply Hc.
    - intros i Hi. rewrite insert_length in Hi. destruct (decide (i = t)) as [->|Hne]; [by split|].
      destruct (Ha i Hi) as [E1 E2]. split; [congruence|]. intros x Hx.
      rewrite Hoff; [by apply E2|]. intros Hx'. apply Hne. by eapply Hdis.
    - rewrite insert_length in H3, H5, H6.
      exists ts', m', mi'. split_and!; try done; [congruence|].
      intros x Hx. rewrite H6 by done. apply Hoff. by apply Hx.
  Qed.

  Theorem private_exec ts m :
    (forall i l acts, ts !! i = Some (l, acts) -> confined (A i) m l acts (mfs i)) ->
    forall e, (exists m', exec_result e ts m (Some m')) /\
    forall r, exec_result e ts m r -> exists m', r = Some m' /\ shape m' = shape m /\
      (forall i x, i < length ts -> A i x -> mget m' x = mget (mfs i) x) /\
      (forall x, (forall i, i < length ts -> ~ A i x) -> mget m' x = mget m x).
  Proof using Hdis.
    intros Hc. apply exec_post.
    - intros sched H. destruct (private_run sched ts m (fun _ => m) Hc) as (? & ? & ? & E & _); [done|].
      congruence.
    - intros m' (sched & ts' & Hr & Hf).
      destruct (private_run sched ts m (fun _ => m) Hc) as (ts2 & m2 & mi & E & H2 & H3 & H4 & H5 & H6); [done|].
      rewrite Hr in E. injection E as <- <-. split; [done|]. split; [|done].
      intros i x Hi Hx. destruct (H5 i Hi) as [_ E]. rewrite E by done.
      destruct (lookup_lt_is_Some_2 ts' i) as [[l acts] Hl]; [lia|].
      unfold finished in Hf. rewrite Forall_lookup in Hf. pose proof (Hf _ _ Hl) as Hn. simpl in Hn.
      subst acts. specialize (H4 _ _ _ Hl). simpl in H4. congruence.
  Qed.
End private.
