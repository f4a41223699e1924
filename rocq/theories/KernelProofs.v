(** Race-free kernels have one result, the same on every executor and for every
    interleaving. *)
From Verif Require Import Base Par ParProofs Exec ExecProofs Value Kernel.

Section proofs.
  Context {V : Type} `{HL : ValueLaws V}.
  Notation mem := (list (list V)).
  Notation addr := (nat * nat)%type.
  Implicit Types (m : mem) (a : addr) (s t : stmt V).

  Definition shape m : list nat := length <$> m.
  Definition in_shape (sh : list nat) a : Prop := exists n, sh !! a.1 = Some n /\ a.2 < n.

  Lemma mget_is_Some m a : in_shape (shape m) a -> is_Some (mget m a).
  Proof.
    intros (n & Hn & Hlt). unfold shape in Hn. rewrite list_lookup_fmap in Hn.
    apply fmap_Some in Hn as (arr & Harr & ->).
    unfold mget. rewrite Harr. simpl. by apply lookup_lt_is_Some_2.
  Qed.

  Lemma shape_mset m a v : shape (mset m a v) = shape m.
  Proof.
    unfold shape, mset. apply list_eq. intros i. rewrite !list_lookup_fmap.
    destruct (decide (i = a.1)) as [->|].
    - rewrite list_lookup_alter. destruct (m !! a.1); simpl; [|done]. by rewrite insert_length.
    - by rewrite list_lookup_alter_ne by done.
  Qed.

  Lemma mget_mset_eq m a v : in_shape (shape m) a -> mget (mset m a v) a = Some v.
  Proof.
    intros (n & Hn & Hlt). unfold shape in Hn. rewrite list_lookup_fmap in Hn.
    apply fmap_Some in Hn as (arr & Harr & ->).
    unfold mget, mset. rewrite list_lookup_alter, Harr. simpl. by rewrite list_lookup_insert.
  Qed.

  Lemma mget_mset_ne m a (b : addr) v : a <> b -> mget (mset m a v) b = mget m b.
  Proof.
    intros Hne. unfold mget, mset. destruct (decide (b.1 = a.1)) as [Heq|].
    - rewrite Heq, list_lookup_alter. destruct (m !! a.1) as [arr|]; simpl; [|done].
      rewrite list_lookup_insert_ne; [done|]. intros H2. apply Hne.
      destruct a, b; simpl in *; congruence.
    - by rewrite list_lookup_alter_ne by done.
  Qed.

  Lemma mset_comm m a (b : addr) v w : a <> b -> mset (mset m a v) b w = mset (mset m b w) a v.
  Proof.
    intros Hne. unfold mset. apply list_eq. intros i.
    destruct (decide (a.1 = b.1)) as [Heq|Hne1].
    - rewrite Heq. destruct (decide (i = b.1)) as [->|].
      + rewrite !list_lookup_alter. destruct (m !! b.1); simpl; [|done]. f_equal.
        apply list_insert_commute. intros H2. apply Hne. destruct a, b; simpl in *; congruence.
      + by rewrite !list_lookup_alter_ne by done.
    - destruct (decide (i = b.1)) as [->|].
      + rewrite !list_lookup_alter, !list_lookup_alter_ne, list_lookup_alter by done. done.
      + destruct (decide (i = a.1)) as [->|].
        * rewrite !list_lookup_alter_ne, !list_lookup_alter, list_lookup_alter_ne by done. done.
        * rewrite !list_lookup_alter_ne by done. done.
  Qed.

  Lemma mset_mset m a v w : mset (mset m a v) a w = mset m a w.
  Proof.
    unfold mset. apply list_eq. intros i.
    destruct (decide (i = a.1)) as [->|].
    - rewrite !list_lookup_alter. destruct (m !! a.1); simpl; [|done]. by rewrite list_insert_insert.
    - by rewrite !list_lookup_alter_ne by done.
  Qed.

  Definition stmt_addr s : addr :=
    match s with
    | SAtomicAdd a _ | SAtomicSub a _ | SAdd a _ | SSub a _ | SScale a _ | SSet a _ => a
    end.
  Definition stmt_atomic s : bool :=
    match s with SAtomicAdd _ _ | SAtomicSub _ _ => true | _ => false end.

  Definition stmt_fun s (x : V) : V :=
    match s with
    | SAtomicAdd _ v => vadd x v
    | SAtomicSub _ v => vsub x v
    | SAdd _ v => vadd x v
    | SSub _ v => vsub x v
    | SScale _ k => vscale k x
    | SSet _ v => v
    end.

  Definition apply_stmt m s : mem :=
    match mget m (stmt_addr s) with
    | Some x => mset m (stmt_addr s) (stmt_fun s x)
    | None => m
    end.

  Definition stmts_of (k : kernel V) (i : nat) : list (stmt V) := default [] (k i).

  Lemma shape_apply m s : shape (apply_stmt m s) = shape m.
  Proof. unfold apply_stmt. destruct (mget m (stmt_addr s)); [apply shape_mset|done]. Qed.

  Lemma shape_foldl l : forall m, shape (foldl apply_stmt m l) = shape m.
  Proof.
    induction l as [|s l IH]; intros m; simpl; [done|]. rewrite IH. apply shape_apply.
  Qed.

  Lemma mget_apply_eq m s :
    in_shape (shape m) (stmt_addr s) ->
    mget (apply_stmt m s) (stmt_addr s) = stmt_fun s <$> mget m (stmt_addr s).
  Proof.
    intros Hin. unfold apply_stmt. destruct (mget_is_Some _ _ Hin) as [x Hx]. rewrite Hx.
    by apply mget_mset_eq.
  Qed.

  Lemma mget_apply_ne m s a :
    stmt_addr s <> a -> mget (apply_stmt m s) a = mget m a.
  Proof.
    intros Hne. unfold apply_stmt. destruct (mget m (stmt_addr s)); [|done].
    by apply mget_mset_ne.
  Qed.

  (** Serial semantics of one body. *)
  Lemma run_body_serial body : forall l m,
    Forall (fun s => in_shape (shape m) (stmt_addr s)) body ->
    run_thread l (map step (concat (map compile1 body))) m = Some (foldl apply_stmt m body).
  Proof.
    induction body as [|s body IH]; intros l m Hb; simpl; [done|].
    apply Forall_cons in Hb as [Hs Hb].
    destruct (mget_is_Some _ _ Hs) as [x Hx].
    assert (apply_stmt m s = mset m (stmt_addr s) (stmt_fun s x)) as Ha.
    { unfold apply_stmt. by rewrite Hx. }
    assert (Forall (fun s => in_shape (shape (apply_stmt m s)) (stmt_addr s)) body) as _ by
      (eapply Forall_impl; [exact Hb|]; intros y; by rewrite shape_apply).
    assert (Forall (fun s0 => in_shape (shape (mset m (stmt_addr s) (stmt_fun s x))) (stmt_addr s0)) body)
      as Hb' by (eapply Forall_impl; [exact Hb|]; intros y; by rewrite shape_mset).
    rewrite Ha.
    destruct s; simpl in *; rewrite ?Hx; cbn -[mset mget]; rewrite ?Hx; apply (IH _ _ Hb').
  Qed.

  Lemma run_serial_bodies bodies : forall m,
    Forall (Forall (fun s => in_shape (shape m) (stmt_addr s))) bodies ->
    run_serial (map (fun ss => kthread (concat (map compile1 ss))) bodies) m
      = Some (foldl apply_stmt m (concat bodies)).
  Proof.
    induction bodies as [|bd bodies IH]; intros m Hb; simpl; [done|].
    apply Forall_cons in Hb as [Hb1 Hb].
    rewrite run_body_serial by done. rewrite IH.
    - by rewrite foldl_app.
    - eapply Forall_impl; [exact Hb|]. intros y Hy.
      eapply Forall_impl; [exact Hy|]. intros z. by rewrite shape_foldl.
  Qed.

  (** In-bounds kernels. *)
  Definition kernel_ok (sh : list nat) (start stop : nat) (k : kernel V) : Prop :=
    forall i, start <= i < stop ->
      exists b, k i = Some b /\ Forall (fun s => in_shape sh (stmt_addr s)) b.

  (** No two different iterations touch the same address, unless both accesses
      are atomic. *)
  Definition race_free (start stop : nat) (k : kernel V) : Prop :=
    forall i j s t, start <= i < stop -> start <= j < stop -> i <> j ->
      s ∈ stmts_of k i -> t ∈ stmts_of k j -> stmt_addr s = stmt_addr t ->
      stmt_atomic s = true /\ stmt_atomic t = true.

  Lemma iterations_bodies start stop (k : kernel V) sh :
    kernel_ok sh start stop k ->
    iterations start stop (fun i => kthread (body_of k i))
    = map (fun ss => kthread (concat (map compile1 ss))) (map (stmts_of k) (seq start (stop - start))).
  Proof.
    intros Hok. unfold iterations. rewrite map_map. apply map_ext_in.
    intros i Hi%in_seq. destruct (Hok i) as (b & Hb & _); [lia|].
    unfold body_of, stmts_of. by rewrite Hb.
  Qed.

  Lemma kernel_ok_bodies sh start stop k :
    kernel_ok sh start stop k ->
    Forall (Forall (fun s => in_shape sh (stmt_addr s))) (map (stmts_of k) (seq start (stop - start))).
  Proof.
    intros Hok. apply Forall_forall. intros b Hb. apply elem_of_list_fmap in Hb as (i & -> & Hi).
    apply elem_of_seq in Hi. destruct (Hok i) as (b & Hb & Hf); [lia|].
    unfold stmts_of. by rewrite Hb.
  Qed.

  Definition all_stmts start stop k : list (stmt V) :=
    concat (map (stmts_of k) (seq start (stop - start))).

  Lemma pfor_serial_loop start stop k m :
    kernel_ok (shape m) start stop k ->
    run_serial (iterations start stop (fun i => kthread (body_of k i))) m
    = Some (foldl apply_stmt m (all_stmts start stop k)).
  Proof.
    intros Hok. rewrite (iterations_bodies _ _ _ _ Hok).
    rewrite run_serial_bodies; [done|]. by apply kernel_ok_bodies.
  Qed.

  (** Instruction addresses. *)
  Definition instr_addr (i : instr V) : option addr :=
    match i with
    | AtomicAdd a _ | Load a | Store a _ | Write a _ => Some a
    | Crash => None
    end.

  Lemma instr_of_body b i :
    i ∈ concat (map compile1 b) ->
    exists s, s ∈ b /\ i ∈ compile1 s.
  Proof.
    intros Hi. apply elem_of_list_In, in_concat in Hi as (x & Hx & Hi).
    apply in_map_iff in Hx as (s & <- & Hs). exists s. by rewrite !elem_of_list_In.
  Qed.

  Lemma instr_of_stmt s i : i ∈ compile1 s ->
    instr_addr i = Some (stmt_addr s) /\
    (stmt_atomic s = true -> exists v, i = AtomicAdd (stmt_addr s) v).
  Proof.
    destruct s; simpl; rewrite ?elem_of_cons, ?elem_of_nil;
      intros Hi; repeat destruct Hi as [->|Hi]; try (by destruct Hi); split; simpl; eauto; done.
  Qed.

  Lemma step_total sh i a : instr_addr i = Some a -> in_shape sh a ->
    total (fun m => shape m = sh) (step i).
  Proof.
    intros Ha Hin m l Hm. subst sh.
    destruct (mget_is_Some _ _ Hin) as [x Hx].
    destruct i; simpl in Ha; try discriminate; injection Ha as ->; simpl; rewrite Hx.
    - do 2 eexists; split; [done|]. apply shape_mset.
    - eauto.
    - destruct l; do 2 eexists; (split; [done|]); [apply shape_mset|done].
    - do 2 eexists; split; [done|]. apply shape_mset.
  Qed.

  Lemma step_commute_ne sh i j a b :
    instr_addr i = Some a -> instr_addr j = Some b -> a <> b ->
    in_shape sh a -> in_shape sh b ->
    commute (fun m => shape m = sh) (step i) (step j).
  Proof.
    intros Hi Hj Hne Hina Hinb m la lb Hm. subst sh.
    destruct (mget_is_Some _ _ Hina) as [x Hx].
    destruct (mget_is_Some _ _ Hinb) as [y Hy].
    destruct i; simpl in Hi; try discriminate; injection Hi as ->;
    destruct j; simpl in Hj; try discriminate; injection Hj as ->;
    simpl; rewrite ?Hx, ?Hy; try destruct la; try destruct lb;
    do 5 eexists; split_and!;
    try reflexivity; cbn beta iota;
    rewrite ?mget_mset_ne, ?Hx, ?Hy by done; try reflexivity;
    by rewrite mset_comm.
  Qed.

  Lemma step_commute_atomic sh a v w : in_shape sh a ->
    commute (fun m => shape m = sh) (step (AtomicAdd a v)) (step (AtomicAdd a w)).
  Proof.
    intros Hin m la lb Hm. subst sh. destruct (mget_is_Some _ _ Hin) as [x Hx].
    simpl. rewrite Hx. do 5 eexists; split_and!; try reflexivity; cbn beta iota.
    - rewrite mget_mset_eq by done. rewrite mset_mset. reflexivity.
    - rewrite mget_mset_eq by done. rewrite mset_mset. do 3 f_equal.
      rewrite <- !vadd_assoc. f_equal. apply vadd_comm.
  Qed.

  (** [Hsame]: accesses of two iterations to one address commute. *)
  Lemma pfor_facts_gen start stop k sh :
    kernel_ok sh start stop k ->
    (forall i j s t ins jns, start <= i < stop -> start <= j < stop -> i <> j ->
       s ∈ stmts_of k i -> t ∈ stmts_of k j -> stmt_addr s = stmt_addr t -> in_shape sh (stmt_addr s) ->
       ins ∈ compile1 s -> jns ∈ compile1 t -> commute (fun m => shape m = sh) (step ins) (step jns)) ->
    all_total (fun m => shape m = sh) (iterations start stop (fun i => kthread (body_of k i))) /\
    all_commute (fun m => shape m = sh) (iterations start stop (fun i => kthread (body_of k i))).
  Proof.
    intros Hok Hsame.
    assert (forall i act, start <= i < stop -> act ∈ map step (body_of k i) ->
       exists s ins, s ∈ stmts_of k i /\ ins ∈ compile1 s /\ act = step ins /\
                     in_shape sh (stmt_addr s)) as Hact.
    { intros i act Hi Ha. apply elem_of_list_fmap in Ha as (ins & -> & Hins).
      destruct (Hok i Hi) as (b & Hb & Hin). unfold body_of in Hins. rewrite Hb in Hins.
      apply instr_of_body in Hins as (s & Hs & Hins).
      exists s, ins. unfold stmts_of. rewrite Hb. simpl. split_and!; auto.
      rewrite Forall_forall in Hin. by apply Hin. }
    split.
    - intros i th act Hth Ha. apply lookup_iterations in Hth as [-> Hlt]. simpl in Ha.
      destruct (Hact (start + i) act) as (s & ins & Hs & Hins & -> & Hin); [lia|done|].
      apply instr_of_stmt in Hins as [Hia _]. by eapply step_total.
    - intros i j ti tj act1 act2 Hij Hi Hj Ha Hb.
      apply lookup_iterations in Hi as [-> Hi]. apply lookup_iterations in Hj as [-> Hj].
      simpl in Ha, Hb.
      destruct (Hact (start + i) act1) as (s & ins & Hs & Hins & -> & Hin); [lia|done|].
      destruct (Hact (start + j) act2) as (t & jns & Ht & Hjns & -> & Hin'); [lia|done|].
      destruct (decide (stmt_addr s = stmt_addr t)) as [Heq|Hne].
      + apply (Hsame (start + i) (start + j) s t); try done; lia.
      + apply instr_of_stmt in Hins as [Hia Hia2]. apply instr_of_stmt in Hjns as [Hja Hja2].
        by eapply step_commute_ne.
  Qed.
  Lemma pfor_facts start stop k sh :
    kernel_ok sh start stop k -> race_free start stop k ->
    all_total (fun m => shape m = sh) (iterations start stop (fun i => kthread (body_of k i))) /\
    all_commute (fun m => shape m = sh) (iterations start stop (fun i => kthread (body_of k i))).
  Proof.
    intros Hok Hrf. apply pfor_facts_gen; [done|].
    intros i j s t ins jns Hi Hj Hij Hs Ht Heq Hin Hins Hjns.
    destruct (Hrf i j s t) as [H1 H2]; [lia..|done|done|done|].
    apply instr_of_stmt in Hins as [Hia Hia2]. apply instr_of_stmt in Hjns as [Hja Hja2].
    destruct (Hia2 H1) as [v ->]. destruct (Hja2 H2) as [w ->].
    rewrite Heq in *. by apply step_commute_atomic.
  Qed.

  (** No two iterations touch the same address, atomically or not: needs no law
      of the arithmetic. *)
  Definition disjoint start stop (k : kernel V) : Prop :=
    forall i j s t, start <= i < stop -> start <= j < stop -> i <> j ->
      s ∈ stmts_of k i -> t ∈ stmts_of k j -> stmt_addr s <> stmt_addr t.
  Theorem pfor_disjoint_iff e start stop k m r :
    kernel_ok (shape m) start stop k -> disjoint start stop k ->
    pfor e start stop k m r <-> r = Some (foldl apply_stmt m (all_stmts start stop k)).
  Proof.
    intros Hok Hd. pose proof (pfor_serial_loop _ _ _ _ Hok) as Hser.
    destruct (pfor_facts_gen start stop k (shape m) Hok) as [Ht Hc].
    { intros i j s t ins jns Hi Hj Hij Hs Ht Heq. by destruct (Hd i j s t). }
    split.
    - intros Hr. apply (exec_result_det _ _ _ _ _ Ht Hc eq_refl) in Hr. congruence.
    - intros ->. by apply exec_result_exists.
  Qed.

  (** The result of a race-free kernel. *)
  Theorem pfor_iff e start stop k m r :
    kernel_ok (shape m) start stop k -> race_free start stop k ->
    pfor e start stop k m r <-> r = Some (foldl apply_stmt m (all_stmts start stop k)).
  Proof.
    intros Hok Hrf. pose proof (pfor_serial_loop _ _ _ _ Hok) as Hser.
    destruct (pfor_facts _ _ _ _ Hok Hrf) as [Ht Hc]. split.
    - intros Hr. apply (exec_result_det _ _ _ _ _ Ht Hc eq_refl) in Hr. congruence.
    - intros ->. by apply exec_result_exists.
  Qed.

  (** On the serial executor races do not matter. *)
  Theorem pfor_serial_iff start stop k m r :
    kernel_ok (shape m) start stop k ->
    pfor SerialExecutor start stop k m r <-> r = Some (foldl apply_stmt m (all_stmts start stop k)).
  Proof.
    intros Hok. pose proof (pfor_serial_loop _ _ _ _ Hok) as Hser.
    unfold pfor. simpl. rewrite Hser. split; congruence.
  Qed.

  Lemma pseq_iff (p q : mem -> option mem -> Prop) m m1 r :
    (forall r, p m r <-> r = Some m1) -> pseq p q m r <-> q m1 r.
  Proof.
    intros Hp. unfold pseq. split.
    - intros [[Hx _]|(m' & Hx & Hq)]; apply Hp in Hx; congruence.
    - intros Hq. right. exists m1. split; [by apply Hp|done].
  Qed.

  (** ** Accumulating statements *)
  Definition additive s : bool :=
    match s with SAtomicAdd _ _ | SAtomicSub _ _ | SAdd _ _ | SSub _ _ => true | _ => false end.

  (** What a statement adds at address [a]. *)
  Definition contrib a s : V :=
    if decide (stmt_addr s = a) then
      match s with
      | SAtomicAdd _ v | SAdd _ v => v
      | SAtomicSub _ v | SSub _ v => vneg v
      | _ => vzero
      end
    else vzero.

  Lemma mget_foldl_additive l : forall m a,
    Forall (fun s => additive s = true) l ->
    Forall (fun s => in_shape (shape m) (stmt_addr s)) l ->
    mget (foldl apply_stmt m l) a = (fun x => vadd x (vsum (map (contrib a) l))) <$> mget m a.
  Proof.
    induction l as [|s l IH]; intros m a Hadd Hin; simpl.
    - destruct (mget m a); simpl; [by rewrite vadd_0_r|done].
    - apply Forall_cons in Hadd as [Hs Hadd]. apply Forall_cons in Hin as [Hi Hin].
      rewrite IH; [|done|]; cycle 1.
      { eapply Forall_impl; [exact Hin|]. intros y. by rewrite shape_apply. }
      unfold contrib at 2. destruct (decide (stmt_addr s = a)) as [<-|Hne].
      + rewrite mget_apply_eq by done. destruct (mget m (stmt_addr s)) as [x|]; simpl; [|done].
        f_equal. destruct s; simpl in *; try discriminate; unfold vsub; by rewrite <- !vadd_assoc.
      + rewrite mget_apply_ne by done. rewrite vadd_0_l. done.
  Qed.

  Lemma all_stmts_ok sh start stop k :
    kernel_ok sh start stop k ->
    Forall (fun s => in_shape sh (stmt_addr s)) (all_stmts start stop k).
  Proof.
    intros Hok. unfold all_stmts. apply Forall_concat. by apply kernel_ok_bodies.
  Qed.

  Definition kernel_additive start stop k : Prop :=
    forall i s, start <= i < stop -> s ∈ stmts_of k i -> additive s = true.

  Lemma all_stmts_additive start stop k :
    kernel_additive start stop k ->
    Forall (fun s => additive s = true) (all_stmts start stop k).
  Proof.
    intros Ha. unfold all_stmts. apply Forall_concat, Forall_forall.
    intros b Hb. apply elem_of_list_fmap in Hb as (i & -> & Hi). apply elem_of_seq in Hi.
    apply Forall_forall. intros s Hs. apply (Ha i); [lia|done].
  Qed.

  Lemma vsum_concat_map {A B} (f : B -> V) (g : A -> list B) (xs : list A) :
    vsum (map f (concat (map g xs))) = vsum (map (fun x => vsum (map f (g x))) xs).
  Proof.
    induction xs as [|x xs IH]; simpl; [done|]. by rewrite map_app, vsum_app, IH.
  Qed.

  (** Sum over the iterations of what each adds at [a]. *)
  Lemma contrib_all_stmts a start stop k :
    vsum (map (contrib a) (all_stmts start stop k))
    = vsum_over (stop - start) (fun i => vsum (map (contrib a) (stmts_of k (start + i)))).
  Proof.
    unfold all_stmts, vsum_over. rewrite vsum_concat_map.
    assert (map (Nat.add start) (seq 0 (stop - start)) = seq start (stop - start)) as Hs.
    { etransitivity; [apply (fmap_add_seq start 0 (stop - start))|]. by rewrite Nat.add_0_r. }
    rewrite <- Hs, map_map. done.
  Qed.

  (** Additive race-free kernels: exact result. *)
  Theorem pfor_additive e start stop k m :
    kernel_ok (shape m) start stop k -> race_free start stop k ->
    kernel_additive start stop k ->
    exists m', (forall r, pfor e start stop k m r <-> r = Some m') /\ shape m' = shape m /\
      forall a, mget m' a =
        (fun x => vadd x (vsum_over (stop - start)
            (fun i => vsum (map (contrib a) (stmts_of k (start + i)))))) <$> mget m a.
  Proof.
    intros Hok Hrf Hadd. exists (foldl apply_stmt m (all_stmts start stop k)).
    split; [intros r; by apply pfor_iff|]. split; [apply shape_foldl|].
    intros a. rewrite mget_foldl_additive; [|by apply all_stmts_additive|by apply all_stmts_ok].
    by rewrite contrib_all_stmts.
  Qed.

  Theorem pfor_additive_serial start stop k m :
    kernel_ok (shape m) start stop k -> kernel_additive start stop k ->
    exists m', (forall r, pfor SerialExecutor start stop k m r <-> r = Some m') /\
      shape m' = shape m /\
      forall a, mget m' a =
        (fun x => vadd x (vsum_over (stop - start)
            (fun i => vsum (map (contrib a) (stmts_of k (start + i)))))) <$> mget m a.
  Proof.
    intros Hok Hadd. exists (foldl apply_stmt m (all_stmts start stop k)).
    split; [intros r; by apply pfor_serial_iff|]. split; [apply shape_foldl|].
    intros a. rewrite mget_foldl_additive; [|by apply all_stmts_additive|by apply all_stmts_ok].
    by rewrite contrib_all_stmts.
  Qed.

  (** ** Kernels in which iteration i only updates the address [ad i], once. *)
  Lemma own_slot_iff (ad : nat -> addr) (st : nat -> stmt V) e start stop m k :
    (forall i, start <= i < stop -> k i = Some [st i]) ->
    (forall i, start <= i < stop -> stmt_addr (st i) = ad i /\ in_shape (shape m) (ad i)) ->
    (forall i j, start <= i < stop -> start <= j < stop -> ad i = ad j -> i = j) ->
    exists m', (forall r, pfor e start stop k m r <-> r = Some m') /\ shape m' = shape m /\
      (forall i, start <= i < stop -> mget m' (ad i) = stmt_fun (st i) <$> mget m (ad i)) /\
      (forall a, (forall i, start <= i < stop -> ad i <> a) -> mget m' a = mget m a).
  Proof.
    intros Hk Had Hinj. exists (foldl apply_stmt m (all_stmts start stop k)).
    assert (Hst : forall i, start <= i < stop -> stmts_of k i = [st i]).
    { intros i Hi. unfold stmts_of. by rewrite Hk. }
    split_and!.
    - intros r. apply pfor_disjoint_iff.
      + intros i Hi. exists [st i]. split; [by apply Hk|]. constructor; [|done].
        destruct (Had i Hi) as [-> ?]. done.
      + intros i j s t Hi Hj Hij Hs Ht Heq. rewrite Hst in Hs, Ht by done.
        apply elem_of_list_singleton in Hs as ->. apply elem_of_list_singleton in Ht as ->.
        destruct (Had i Hi) as [H1 _], (Had j Hj) as [H2 _]. rewrite H1, H2 in Heq.
        by apply Hinj in Heq.
    - apply shape_foldl.
    - assert (forall n, n <= stop - start ->
        forall i, start <= i < stop ->
        mget (foldl apply_stmt m (concat (map (stmts_of k) (seq start n)))) (ad i) =
        if decide (i < start + n) then stmt_fun (st i) <$> mget m (ad i) else mget m (ad i)) as Hg.
      { induction n as [|n IH]; intros Hn i Hi.
        - simpl. rewrite decide_False by lia. done.
        - rewrite seq_S, map_app, concat_app, foldl_app. simpl. rewrite Hst, app_nil_r by lia. simpl.
          destruct (Had (start + n)) as [Ha1 Ha2]; [lia|].
          destruct (decide (i = start + n)) as [->|Hne].
          + rewrite decide_True by lia. rewrite <- Ha1 at 1.
            rewrite mget_apply_eq by (rewrite shape_foldl, Ha1; done).
            rewrite Ha1, IH by lia. rewrite decide_False by lia. done.
          + rewrite mget_apply_ne.
            * rewrite IH by lia. destruct (decide (i < start + n)), (decide (i < start + S n)); lia || done.
            * rewrite Ha1. intros Heq. apply Hinj in Heq; lia. }
      intros i Hi. unfold all_stmts. rewrite Hg by lia. rewrite decide_True by lia. done.
    - intros a Ha.
      assert (forall n, n <= stop - start ->
        mget (foldl apply_stmt m (concat (map (stmts_of k) (seq start n)))) a = mget m a) as Hg.
      { induction n as [|n IH]; intros Hn; [done|].
        rewrite seq_S, map_app, concat_app, foldl_app. simpl. rewrite Hst, app_nil_r by lia. simpl.
        rewrite mget_apply_ne; [apply IH; lia|].
        destruct (Had (start + n)) as [-> _]; [lia|]. apply Ha. lia. }
      unfold all_stmts. by apply Hg.
  Qed.
End proofs.
