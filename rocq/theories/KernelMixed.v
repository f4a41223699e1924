(** Kernels that mix plain and atomic updates, under any arithmetic: if two
    iterations touch the same slot only atomically, every execution applies the
    statements one after the other in some order.  Nothing is assumed about the
    operations on values. *)
From Verif Require Import Base Par ParProofs Exec ExecProofs Value Kernel KernelProofs KernelAnyArith.

Section mixed.
  Context {V : Type} `{ValueType V}.
  Notation mem := (list (list V)).
  Notation addr := (nat * nat)%type.
  Implicit Types (m : mem) (a : addr) (s : stmt V).

  (** An iteration under way: its register, the statement it has loaded the
      operand of but not stored yet, and the statements still to come. *)
  Definition istate : Type := option V * option (stmt V) * list (stmt V).
  Definition todo (x : istate) : list (stmt V) := option_list x.1.2 ++ x.2.
  Definition render (x : istate) : thread mem (option V) :=
    (x.1.1, map step ((match x.1.2 with Some s => [Store (stmt_addr s) (stmt_fun s)] | None => [] end) ++ concat (map compile1 x.2))).

  Record inv (m : mem) (xs : list istate) : Prop := {
    inv_shape : forall t x, xs !! t = Some x -> Forall (fun s => in_shape (shape m) (stmt_addr s)) (todo x);
    inv_loaded : forall t l s r, xs !! t = Some (l, Some s, r) -> stmt_atomic s = false /\ l = mget m (stmt_addr s);
    inv_race : forall t u x y s s', t <> u -> xs !! t = Some x -> xs !! u = Some y -> s ∈ todo x -> s' ∈ todo y ->
      stmt_addr s = stmt_addr s' -> stmt_atomic s = true /\ stmt_atomic s' = true;
  }.

  (** Thread [t] performs its next statement [s]. *)
  Lemma inv_apply m xs t x s l r : inv m xs -> xs !! t = Some x -> todo x = s :: r -> inv (apply_stmt m s) (<[t := (l, None, r)]> xs).
  Proof.
    intros [I1 I2 I3] Ht Hx.
    assert (Hsub : forall u y, <[t := (l, None, r)]> xs !! u = Some y -> exists y', xs !! u = Some y' /\ (forall z, z ∈ todo y -> z ∈ todo y')).
    { intros u y Hu. destruct (decide (t = u)) as [<-|Hne].
      - rewrite list_lookup_insert in Hu by (by eapply lookup_lt_Some). injection Hu as <-. exists x. split; [done|].
        intros z Hz. rewrite Hx. by right.
      - rewrite list_lookup_insert_ne in Hu by done. eauto. }
    constructor.
    - intros u y Hu. destruct (Hsub u y Hu) as (y' & Hy' & Hs). rewrite shape_apply. pose proof (I1 _ _ Hy') as HF.
      rewrite Forall_forall in HF |- *. intros z Hz. apply HF, Hs, Hz.
    - intros u l' s' r' Hu. destruct (decide (t = u)) as [<-|Hne].
      + rewrite list_lookup_insert in Hu by (by eapply lookup_lt_Some). done.
      + rewrite list_lookup_insert_ne in Hu by done. destruct (I2 _ _ _ _ Hu) as [A B]. split; [done|].
        rewrite mget_apply_ne; [done|]. intros E.
        destruct (I3 t u x (l', Some s', r') s s') as [_ ?]; try done; [rewrite Hx; by left|by left|congruence].
    - intros u w y z a b Huw Hu Hw Ha Hb. destruct (Hsub u y Hu) as (y' & Hy' & Sy). destruct (Hsub w z Hw) as (z' & Hz' & Sz).
      eapply (I3 u w y' z'); eauto.
  Qed.
  Lemma inv_load m xs t l s r : inv m xs -> xs !! t = Some (l, None, s :: r) -> stmt_atomic s = false ->
    inv m (<[t := (mget m (stmt_addr s), Some s, r)]> xs).
  Proof.
    intros [I1 I2 I3] Ht Hs.
    assert (Hsub : forall u y, <[t := (mget m (stmt_addr s), Some s, r)]> xs !! u = Some y -> exists y', xs !! u = Some y' /\ todo y = todo y').
    { intros u y Hu. destruct (decide (t = u)) as [<-|Hne].
      - rewrite list_lookup_insert in Hu by (by eapply lookup_lt_Some). injection Hu as <-. eexists. split; [exact Ht|done].
      - rewrite list_lookup_insert_ne in Hu by done. eauto. }
    constructor.
    - intros u y Hu. destruct (Hsub u y Hu) as (y' & Hy' & ->). eauto.
    - intros u l' s' r' Hu. destruct (decide (t = u)) as [<-|Hne].
      + rewrite list_lookup_insert in Hu by (by eapply lookup_lt_Some). injection Hu as <- <- <-. done.
      + rewrite list_lookup_insert_ne in Hu by done. eauto.
    - intros u w y z a b Huw Hu Hw. destruct (Hsub u y Hu) as (y' & Hy' & ->). destruct (Hsub w z Hw) as (z' & Hz' & ->). eauto.
  Qed.

  Lemma run_skip t sched (ts : list (thread mem (option V))) m : (forall l act rest, ts !! t <> Some (l, act :: rest)) -> run (t :: sched) ts m = run sched ts m.
  Proof. intros Hn. cbn [run]. unfold thread, action in *. destruct (ts !! t) as [[l [|act rest]]|] eqn:E; try done. by destruct (Hn l act rest). Qed.
  Lemma run_take t sched (ts : list (thread mem (option V))) m l act rest m1 l1 :
    ts !! t = Some (l, act :: rest) -> act m l = Some (m1, l1) -> run (t :: sched) ts m = run sched (<[t := (l1, rest)]> ts) m1.
  Proof. intros E Ea. cbn [run]. unfold thread, action in *. by rewrite E, Ea. Qed.
  Lemma render_insert xs t x : <[t := render x]> (map render xs) = map render (<[t := x]> xs).
  Proof. change (map render (<[t := x]> xs)) with (render <$> <[t := x]> xs). by rewrite list_fmap_insert. Qed.
  Lemma todo_pick (xs : list istate) (t : nat) x s r l : xs !! t = Some x -> todo x = s :: r ->
    concat (map todo xs) ≡ₚ s :: concat (map todo (<[t := (l, None, r)]> xs)).
  Proof.
    intros Ht Hx. change (map todo (<[t := (l, None, r)]> xs)) with (todo <$> <[t := (l, None, r)]> xs). rewrite list_fmap_insert.
    apply concat_pick. change (map todo xs) with (todo <$> xs). rewrite list_lookup_fmap, Ht. cbn. by rewrite Hx.
  Qed.

  Lemma run_mixed sched : forall xs m, inv m xs -> exists xs' tr,
    run sched (map render xs) m = Some (map render xs', foldl apply_stmt m tr) /\ concat (map todo xs) ≡ₚ tr ++ concat (map todo xs').
  Proof.
    induction sched as [|t sched IH]; intros xs m Hi.
    - exists xs, []. done.
    - destruct (xs !! t) as [[[l p] r]|] eqn:Et.
      2:{ rewrite run_skip; [by apply IH|]. intros l a rest. change (map render xs) with (render <$> xs). rewrite list_lookup_fmap, Et. done. }
      assert (Hlk : map render xs !! t = Some (render (l, p, r))) by (change (map render xs) with (render <$> xs); by rewrite list_lookup_fmap, Et).
      pose proof (inv_shape _ _ Hi _ _ Et) as Hsh.
      (* a step with effect [apply_stmt m s] *)
      assert (Hstep : forall s r' (a : instr V) l1, todo (l, p, r) = s :: r' -> render (l, p, r) = (l, step a :: map step (concat (map compile1 r'))) ->
        step a m l = Some (apply_stmt m s, l1) -> exists xs' tr,
          run (t :: sched) (map render xs) m = Some (map render xs', foldl apply_stmt m tr) /\ concat (map todo xs) ≡ₚ tr ++ concat (map todo xs')).
      { intros s r' a l1 Htd Hre Ha. rewrite Hre in Hlk. rewrite (run_take _ _ _ _ _ _ _ _ _ Hlk Ha).
        change (l1, map step (concat (map compile1 r'))) with (render (l1, None, r')). rewrite render_insert.
        destruct (IH (<[t := (l1, None, r')]> xs) (apply_stmt m s)) as (xs' & tr & Hr & Hp); [by eapply inv_apply|].
        exists xs', (s :: tr). split; [exact Hr|]. rewrite (todo_pick _ _ _ _ _ l1 Et Htd), Hp. done. }
      destruct p as [s|].
      + destruct (inv_loaded _ _ Hi _ _ _ _ Et) as [Hna Hl]. cbn in Hsh. apply Forall_cons in Hsh as [Hs _].
        destruct (mget_is_Some _ _ Hs) as [x Hx]. apply (Hstep s r (Store (stmt_addr s) (stmt_fun s)) l); [done|done|].
        cbn [step]. rewrite Hl, Hx. unfold apply_stmt. by rewrite Hx.
      + destruct r as [|s r].
        { rewrite run_skip; [by apply IH|]. intros l' act rest Heq. unfold thread, action in *. rewrite Hlk in Heq. done. }
        cbn in Hsh. apply Forall_cons in Hsh as [Hs _]. destruct (mget_is_Some _ _ Hs) as [x Hx].
        destruct s as [a v|a v|a v|a v|a k|a v]; cbn [stmt_addr] in *.
        * apply (Hstep (SAtomicAdd a v) r (AtomicAdd a v) l); [done|done|]. cbn [step]. unfold apply_stmt. cbn [stmt_addr]. by rewrite Hx.
        * apply (Hstep (SAtomicSub a v) r (AtomicAdd a (vneg v)) l); [done|done|]. cbn [step]. unfold apply_stmt. cbn [stmt_addr]. by rewrite Hx.
        * assert (Ha : step (Load a) m l = Some (m, Some x)) by (cbn [step]; by rewrite Hx).
          rewrite (run_take _ _ _ _ _ _ _ _ _ Hlk Ha). change (map render xs) with (render <$> xs).
          destruct (IH (<[t := (Some x, Some (SAdd a v), r)]> xs) m) as (xs' & tr & Hr & Hp).
          { rewrite <- Hx. by apply (inv_load _ _ _ _ (SAdd a v) _ Hi Et). }
          exists xs', tr. split.
          -- rewrite <- Hr. f_equal. rewrite <- render_insert. done.
          -- rewrite <- Hp. change (map todo (<[t := (Some x, Some (SAdd a v), r)]> xs)) with (todo <$> <[t := (Some x, Some (SAdd a v), r)]> xs).
             rewrite list_fmap_insert, list_insert_id; [done|]. change (map todo xs) with (todo <$> xs). by rewrite list_lookup_fmap, Et.
        * assert (Ha : step (Load a) m l = Some (m, Some x)) by (cbn [step]; by rewrite Hx).
          rewrite (run_take _ _ _ _ _ _ _ _ _ Hlk Ha). change (map render xs) with (render <$> xs).
          destruct (IH (<[t := (Some x, Some (SSub a v), r)]> xs) m) as (xs' & tr & Hr & Hp).
          { rewrite <- Hx. by apply (inv_load _ _ _ _ (SSub a v) _ Hi Et). }
          exists xs', tr. split.
          -- rewrite <- Hr. f_equal. rewrite <- render_insert. done.
          -- rewrite <- Hp. change (map todo (<[t := (Some x, Some (SSub a v), r)]> xs)) with (todo <$> <[t := (Some x, Some (SSub a v), r)]> xs).
             rewrite list_fmap_insert, list_insert_id; [done|]. change (map todo xs) with (todo <$> xs). by rewrite list_lookup_fmap, Et.
        * assert (Ha : step (Load a) m l = Some (m, Some x)) by (cbn [step]; by rewrite Hx).
          rewrite (run_take _ _ _ _ _ _ _ _ _ Hlk Ha). change (map render xs) with (render <$> xs).
          destruct (IH (<[t := (Some x, Some (SScale a k), r)]> xs) m) as (xs' & tr & Hr & Hp).
          { rewrite <- Hx. by apply (inv_load _ _ _ _ (SScale a k) _ Hi Et). }
          exists xs', tr. split.
          -- rewrite <- Hr. f_equal. rewrite <- render_insert. done.
          -- rewrite <- Hp. change (map todo (<[t := (Some x, Some (SScale a k), r)]> xs)) with (todo <$> <[t := (Some x, Some (SScale a k), r)]> xs).
             rewrite list_fmap_insert, list_insert_id; [done|]. change (map todo xs) with (todo <$> xs). by rewrite list_lookup_fmap, Et.
        * apply (Hstep (SSet a v) r (Write a v) l); [done|done|]. cbn [step]. unfold apply_stmt. cbn [stmt_addr]. by rewrite Hx.
  Qed.

  (** A race-free kernel: every outcome is the statements in some order. *)
  Theorem pfor_mixed e start stop k m r : kernel_ok (shape m) start stop k -> race_free start stop k \/ e = SerialExecutor ->
    pfor e start stop k m r ->
    exists trace, trace ≡ₚ all_stmts start stop k /\
      (e = SerialExecutor -> trace = all_stmts start stop k) /\ r = Some (foldl apply_stmt m trace).
  Proof.
    intros Hok Hrf Hr. destruct (decide (e = SerialExecutor)) as [->|He].
    { exists (all_stmts start stop k). split; [done|]. split; [done|]. by apply pfor_serial_iff in Hr. }
    destruct Hrf as [Hrf|?]; [|done].
    set (xs := map (fun i => (None, None, stmts_of k i) : istate) (seq start (stop - start))).
    assert (Hxs : forall t x, xs !! t = Some x -> start <= start + t < stop /\ x = (None, None, stmts_of k (start + t))).
    { intros t x Hx. unfold xs in Hx. change (map ?f ?l) with (f <$> l) in Hx. rewrite list_lookup_fmap in Hx. apply fmap_Some in Hx as (i & Hi & ->).
      apply lookup_seq in Hi as [-> Hi]. split; [lia|done]. }
    assert (Hinv : inv m xs).
    { constructor.
      - intros t x Hx. destruct (Hxs t x Hx) as [Hlt ->]. destruct (Hok (start + t)) as (b & Eb & Hin); [lia|].
        unfold todo, stmts_of. rewrite Eb. done.
      - intros t l s rr Hx. destruct (Hxs t _ Hx) as [_ ?]. done.
      - intros t u x y s s' Htu Hx Hy Hs Hs'. destruct (Hxs t x Hx) as [Hlt ->], (Hxs u y Hy) as [Hlu ->].
        apply (Hrf (start + t) (start + u)); [lia|lia|lia|done|done]. }
    assert (Hit : iterations start stop (fun i => kthread (body_of k i)) = map render xs).
    { rewrite (iterations_bodies _ _ _ _ Hok). unfold xs. rewrite !map_map. apply map_ext. intros i. reflexivity. }
    assert (Htodo : concat (map todo xs) = all_stmts start stop k).
    { unfold all_stmts, xs. f_equal. rewrite !map_map. apply map_ext. intros i. reflexivity. }
    unfold pfor in Hr. rewrite Hit in Hr.
    assert (Hp : match r with Some m' => par_result (map render xs) m m' | None => exists sched, run sched (map render xs) m = None end) by (by destruct e).
    destruct r as [m'|].
    - destruct Hp as (sched & ts' & Hrun & Hf). destruct (run_mixed sched xs m Hinv) as (xs' & tr & Hr' & Hperm).
      rewrite Hr' in Hrun. injection Hrun as <- <-. exists tr. split; [|done]. rewrite <- Htodo, Hperm.
      assert (concat (map todo xs') = []) as ->; [|by rewrite app_nil_r].
      clear -Hf. induction xs' as [|[[l p] rr] xs' IH]; [done|]. cbn in Hf |- *. apply Forall_cons in Hf as [Hx Hf].
      rewrite (IH Hf), app_nil_r. cbn in Hx |- *. destruct p; [done|]. destruct rr as [|s rr]; [done|]. by destruct s.
    - destruct Hp as (sched & Hrun). destruct (run_mixed sched xs m Hinv) as (xs' & tr & Hr' & _). congruence.
  Qed.

  (** One accumulation pass, slot by slot. *)
  Theorem pfor_accumulate_mixed e start stop k m :
    kernel_ok (shape m) start stop k -> kernel_additive start stop k -> race_free start stop k \/ e = SerialExecutor ->
    ~ pfor e start stop k m None /\ (exists m', pfor e start stop k m (Some m')) /\
    forall m', pfor e start stop k m (Some m') -> shape m' = shape m /\
      forall a, exists l, l ≡ₚ terms a (all_stmts start stop k) /\
        (e = SerialExecutor -> l = terms a (all_stmts start stop k)) /\
        mget m' a = (fun x => foldl vadd x l) <$> mget m a.
  Proof.
    intros Hok Hadd Hrf. split; [|split].
    - intros Hr. destruct (pfor_mixed _ _ _ _ _ _ Hok Hrf Hr) as (? & _ & _ & ?). done.
    - eexists. by apply pfor_some.
    - intros m' Hr. destruct (pfor_mixed _ _ _ _ _ _ Hok Hrf Hr) as (tr & Hp & Hs & [= ->]). split; [apply shape_foldl|].
      intros a. exists (terms a tr). split; [by apply terms_perm|]. split; [intros E; by rewrite Hs|].
      apply mget_foldl_terms.
      + rewrite Hp. by apply all_stmts_additive.
      + rewrite Hp. by apply all_stmts_ok.
  Qed.
End mixed.

(** ** Every order of the iterations is possible on a parallel executor, whatever the kernel *)
Section orders.
  Context {S L : Type}.
  Lemma run_at (acts : list (action S L)) (ts : list (thread S L)) (t : nat) l s s' : ts !! t = Some (l, acts) -> run_thread l acts s = Some s' ->
    exists l', run (replicate (length acts) t) ts s = Some (<[t := (l', [])]> ts, s').
  Proof.
    intros Ht Hr. pose proof (lookup_lt_Some _ _ _ Ht) as Hlt. pose proof (take_drop_middle _ _ _ Ht) as E.
    destruct (run_one_thread acts (take t ts) l (drop (Datatypes.S t) ts) s s' Hr) as [l' H1]. exists l'.
    unfold thread, action in *. rewrite E, take_length_le in H1 by lia. rewrite H1. f_equal. f_equal.
    rewrite <- E at 3. rewrite insert_app_r_alt by (rewrite take_length_le; lia). rewrite take_length_le by lia.
    by rewrite Nat.sub_diag.
  Qed.
End orders.
Section every_order.
  Context {V : Type} `{ValueType V}.
  Notation mem := (list (list V)).
  Definition any_thread (ss : list (stmt V)) : thread mem (option V) := kthread (concat (map compile1 ss)).

  Lemma run_threads_in_order (bodies : list (list (stmt V))) (order : list nat) : forall (ts : list (thread mem (option V))) m,
    NoDup order -> (forall t : nat, t ∈ order -> exists b, bodies !! t = Some b /\ ts !! t = Some (any_thread b) /\ Forall (fun s => in_shape (shape m) (stmt_addr s)) b) ->
    exists sched ts', run sched ts m = Some (ts', foldl apply_stmt m (concat (map (fun u : nat => default [] (bodies !! u)) order))) /\
      length ts' = length ts /\
      (forall t : nat, t ∈ order -> exists l, ts' !! t = Some (l, [])) /\ (forall t : nat, t ∉ order -> ts' !! t = ts !! t).
  Proof.
    induction order as [|t order IH]; intros ts m Hnd Hin.
    - exists [], ts. split; [done|]. split; [done|]. split; [|done]. intros t Ht. by apply elem_of_nil in Ht.
    - apply NoDup_cons in Hnd as [Hnt Hnd]. destruct (Hin t) as (b & Hb & Htt & Hs); [by left|].
      pose proof (lookup_lt_Some _ _ _ Htt) as Hlt.
      destruct (run_at _ ts t None m (foldl apply_stmt m b) Htt) as [l' H1]; [by apply run_body_serial|].
      destruct (IH (<[t := (l', [])]> ts) (foldl apply_stmt m b)) as (sched & ts' & Hr & Hl & Hd & Ho).
      + done.
      + intros u Hu. destruct (Hin u) as (b' & ? & ? & ?); [by right|]. exists b'. split; [done|]. split.
        * rewrite list_lookup_insert_ne by (intros ->; done). done.
        * by rewrite shape_foldl.
      + eexists (_ ++ sched), ts'. split; [|split; [|split]].
        * rewrite run_app, H1, Hr. do 2 f_equal. cbn [map concat]. rewrite Hb. cbn [default from_option Datatypes.id]. by rewrite foldl_app.
        * by rewrite Hl, insert_length.
        * intros u Hu. apply elem_of_cons in Hu as [->|Hu]; [|by apply Hd].
          rewrite Ho by done. exists l'. by apply list_lookup_insert.
        * intros u Hu. apply not_elem_of_cons in Hu as [Hne Hu]. rewrite Ho by done. by apply list_lookup_insert_ne.
  Qed.
  Theorem pfor_every_order e start stop k (m : mem) (order : list nat) :
    e <> SerialExecutor -> kernel_ok (shape m) start stop k -> order ≡ₚ seq start (stop - start) ->
    pfor e start stop k m (Some (foldl apply_stmt m (concat (map (stmts_of k) order)))).
  Proof.
    intros He Hok Hord.
    assert (Hmem : forall i, i ∈ order -> start <= i < stop).
    { intros i Hi. rewrite Hord in Hi. apply elem_of_seq in Hi. lia. }
    assert (Hlk : forall i, start <= i < stop -> map (stmts_of k) (seq start (stop - start)) !! (i - start) = Some (stmts_of k i)).
    { intros i Hi. change (map (stmts_of k) (seq start (stop - start))) with (stmts_of k <$> seq start (stop - start)).
      rewrite list_lookup_fmap, lookup_seq_lt by lia. simpl. do 2 f_equal. lia. }
    destruct (run_threads_in_order (map (stmts_of k) (seq start (stop - start))) (map (fun i => i - start) order)
       (map any_thread (map (stmts_of k) (seq start (stop - start)))) m) as (sched & ts' & Hr & Hl & Hd & _).
    { assert (Hnd : NoDup order) by (rewrite Hord; apply NoDup_seq).
      clear -Hnd Hmem. induction order as [|i order IH]; simpl; [constructor|]. apply NoDup_cons in Hnd as [Hi Hnd].
      constructor; [|apply IH; [intros j Hj; apply Hmem; by right|done]].
      intros Hx. apply elem_of_list_fmap in Hx as (j & Ej & Hj). apply Hi.
      assert (i = j); [|by subst]. pose proof (Hmem i ltac:(by left)). pose proof (Hmem j ltac:(by right)). lia. }
    { intros t Ht. apply elem_of_list_fmap in Ht as (i & -> & Hi). exists (stmts_of k i). split; [auto|]. split.
      - change (map any_thread ?l) with (any_thread <$> l). rewrite list_lookup_fmap, Hlk by auto. done.
      - destruct (Hok i) as (b & Eb & Hin); [auto|]. unfold stmts_of. by rewrite Eb. }
    assert (Hpar : par_result (map any_thread (map (stmts_of k) (seq start (stop - start)))) m
                     (foldl apply_stmt m (concat (map (stmts_of k) order)))).
    { exists sched, ts'. split.
      - rewrite Hr. do 3 f_equal. f_equal. rewrite map_map. apply map_ext_in. intros i Hi%elem_of_list_In.
        by rewrite Hlk by auto.
      - apply Forall_forall. intros th Hth. apply elem_of_list_lookup in Hth as (t & Ht).
        destruct (Hd t) as [l E].
        + apply lookup_lt_Some in Ht. unfold thread, action in *. rewrite Hl, !map_length, seq_length in Ht.
          apply elem_of_list_fmap. exists (start + t). split; [lia|]. rewrite Hord. apply elem_of_seq. lia.
        + unfold thread, action in *. rewrite E in Ht. by injection Ht as <-. }
    unfold pfor. rewrite (iterations_bodies _ _ _ _ Hok). destruct e; [done|..]; exact Hpar.
  Qed.
End every_order.
