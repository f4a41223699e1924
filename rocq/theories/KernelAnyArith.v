(** Kernels of atomic additions under any arithmetic: nothing is assumed about
    [vadd] (floating-point addition is neither associative nor exact). *)
From Verif Require Import Base Par ParProofs Exec ExecProofs Value Kernel KernelProofs.

Section any.
  Context {V : Type} `{ValueType V}.
  Notation mem := (list (list V)).
  Notation addr := (nat * nat)%type.
  Implicit Types (m : mem) (a : addr) (s t : stmt V).

  Definition atomic_thread (ss : list (stmt V)) : thread mem (option V) := kthread (concat (map compile1 ss)).

  Lemma concat_pick (bodies : list (list (stmt V))) (t : nat) s ss : bodies !! t = Some (s :: ss) ->
    concat bodies ≡ₚ s :: concat (<[t := ss]> bodies).
  Proof.
    revert t. induction bodies as [|b bodies IH]; intros [|t] Ht; simpl in *; try done.
    - by injection Ht as ->.
    - rewrite (IH _ Ht). by rewrite <- Permutation_middle.
  Qed.

  (** Every execution applies the statements one after the other in some order. *)
  Lemma run_atomic sched : forall bodies m,
    Forall (Forall (fun s => stmt_atomic s = true /\ in_shape (shape m) (stmt_addr s))) bodies ->
    exists bodies' trace,
      run sched (map atomic_thread bodies) m = Some (map atomic_thread bodies', foldl apply_stmt m trace) /\
      concat bodies ≡ₚ trace ++ concat bodies'.
  Proof.
    induction sched as [|t sched IH]; intros bodies m Hb.
    - exists bodies, []. done.
    - assert (Hlk : (map atomic_thread bodies) !! t = atomic_thread <$> bodies !! t) by apply list_lookup_fmap.
      cbn [run]. unfold thread, action in *. rewrite Hlk.
      destruct (bodies !! t) as [[|s ss]|] eqn:Et; simpl; [by apply IH| |by apply IH].
      pose proof (Forall_lookup_1 _ _ _ _ Hb Et) as Hs. apply Forall_cons in Hs as [[Hat Hin] Hss].
      destruct (mget_is_Some _ _ Hin) as [x Hx].
      assert (exists v, compile1 s = [AtomicAdd (stmt_addr s) v] /\ stmt_fun s x = vadd x v) as (v & Ec & Ef).
      { destruct s; try discriminate; eexists; split; reflexivity. }
      rewrite Ec. cbn [app map]. cbn [step]. rewrite Hx, <- Ef.
      assert (Ha : apply_stmt m s = mset m (stmt_addr s) (stmt_fun s x)) by (unfold apply_stmt; by rewrite Hx).
      rewrite <- Ha.
      destruct (IH (<[t := ss]> bodies) (apply_stmt m s)) as (bodies' & tr & Hr & Hp).
      { apply Forall_insert; [|].
        - eapply Forall_impl; [exact Hb|]. intros b Hbb. eapply Forall_impl; [exact Hbb|]. intros y. by rewrite shape_apply.
        - eapply Forall_impl; [exact Hss|]. intros y. by rewrite shape_apply. }
      exists bodies', (s :: tr). split.
      + etransitivity; [|exact Hr]. f_equal.
        change (map atomic_thread (<[t := ss]> bodies)) with (atomic_thread <$> <[t := ss]> bodies).
        rewrite list_fmap_insert. done.
      + rewrite (concat_pick _ _ _ _ Et). simpl. by rewrite Hp.
  Qed.

  Definition kernel_atomic start stop (k : kernel V) : Prop :=
    forall i s, start <= i < stop -> s ∈ stmts_of k i -> stmt_atomic s = true.

  Theorem pfor_atomic_any e start stop k m r :
    kernel_ok (shape m) start stop k -> kernel_atomic start stop k ->
    pfor e start stop k m r ->
    exists trace, trace ≡ₚ all_stmts start stop k /\
      (e = SerialExecutor -> trace = all_stmts start stop k) /\ r = Some (foldl apply_stmt m trace).
  Proof.
    intros Hok Hat Hr.
    assert (Hb : Forall (Forall (fun s => stmt_atomic s = true /\ in_shape (shape m) (stmt_addr s)))
                   (map (stmts_of k) (seq start (stop - start)))).
    { apply Forall_forall. intros b Hb. apply elem_of_list_fmap in Hb as (i & -> & Hi). apply elem_of_seq in Hi.
      apply Forall_forall. intros s Hs. split; [apply (Hat i); [lia|done]|].
      destruct (Hok i) as (b & Eb & Hin); [lia|]. unfold stmts_of in Hs. rewrite Eb in Hs. simpl in Hs.
      rewrite Forall_forall in Hin. by apply Hin. }
    destruct e.
    - exists (all_stmts start stop k). split; [done|]. split; [done|]. by apply pfor_serial_iff in Hr.
    - unfold pfor in Hr. rewrite (iterations_bodies _ _ _ _ Hok) in Hr. simpl in Hr.
      destruct r as [m'|].
      + destruct Hr as (sched & ts' & Hr & Hf).
        destruct (run_atomic sched _ m Hb) as (bodies' & tr & Hr' & Hp).
        unfold atomic_thread in Hr'. rewrite Hr' in Hr. injection Hr as <- <-.
        exists tr. split; [|split; [done|done]].
        unfold all_stmts. rewrite Hp.
        assert (concat bodies' = []) as ->; [|by rewrite app_nil_r].
        clear -Hf. induction bodies' as [|b bs IH]; [done|]. simpl in *. unfold finished in Hf. simpl in Hf.
        apply Forall_cons in Hf as [Hb Hf]. rewrite (IH Hf). destruct b as [|s b]; [done|]. by destruct s.
      + destruct Hr as (sched & Hr). destruct (run_atomic sched _ m Hb) as (bodies' & tr & Hr' & Hp).
        unfold atomic_thread in Hr'. congruence.
    - unfold pfor in Hr. rewrite (iterations_bodies _ _ _ _ Hok) in Hr. simpl in Hr.
      destruct r as [m'|].
      + destruct Hr as (sched & ts' & Hr & Hf).
        destruct (run_atomic sched _ m Hb) as (bodies' & tr & Hr' & Hp).
        unfold atomic_thread in Hr'. rewrite Hr' in Hr. injection Hr as <- <-.
        exists tr. split; [|split; [done|done]].
        unfold all_stmts. rewrite Hp.
        assert (concat bodies' = []) as ->; [|by rewrite app_nil_r].
        clear -Hf. induction bodies' as [|b bs IH]; [done|]. simpl in *. unfold finished in Hf. simpl in Hf.
        apply Forall_cons in Hf as [Hb Hf]. rewrite (IH Hf). destruct b as [|s b]; [done|]. by destruct s.
      + destruct Hr as (sched & Hr). destruct (run_atomic sched _ m Hb) as (bodies' & tr & Hr' & Hp).
        unfold atomic_thread in Hr'. congruence.
  Qed.

  (** The serial loop is one of the possible executions. *)
  Lemma pfor_some e start stop k m :
    kernel_ok (shape m) start stop k -> pfor e start stop k m (Some (foldl apply_stmt m (all_stmts start stop k))).
  Proof.
    intros Hok. pose proof (pfor_serial_loop _ _ _ _ Hok) as Hser. unfold pfor. destruct e; simpl; [done|..];
      by apply serial_par.
  Qed.

  (** What the statements add at [a], in order. *)
  Definition term_of s : V :=
    match s with
    | SAtomicAdd _ v | SAdd _ v => v
    | SAtomicSub _ v | SSub _ v => vneg v
    | _ => vzero
    end.
  Definition terms a (l : list (stmt V)) : list V := term_of <$> filter (fun s => stmt_addr s = a) l.

  Lemma mget_foldl_terms l : forall m a,
    Forall (fun s => additive s = true) l -> Forall (fun s => in_shape (shape m) (stmt_addr s)) l ->
    mget (foldl apply_stmt m l) a = (fun x => foldl vadd x (terms a l)) <$> mget m a.
  Proof.
    induction l as [|s l IH]; intros m a Hadd Hin; simpl.
    - by destruct (mget m a).
    - apply Forall_cons in Hadd as [Hs Hadd]. apply Forall_cons in Hin as [Hi Hin].
      rewrite IH; [|done|]; cycle 1.
      { eapply Forall_impl; [exact Hin|]. intros y. by rewrite shape_apply. }
      unfold terms. rewrite filter_cons. destruct (decide (stmt_addr s = a)) as [<-|Hne].
      + rewrite mget_apply_eq by done. destruct (mget m (stmt_addr s)) as [x|]; simpl; [|done].
        f_equal. destruct s; simpl in *; try discriminate; done.
      + by rewrite mget_apply_ne.
  Qed.
  Lemma terms_app a l1 l2 : terms a (l1 ++ l2) = terms a l1 ++ terms a l2.
  Proof. unfold terms. by rewrite filter_app, fmap_app. Qed.
  Lemma terms_perm a l1 l2 : l1 ≡ₚ l2 -> terms a l1 ≡ₚ terms a l2.
  Proof. intros Hp. unfold terms. by rewrite Hp. Qed.
  Lemma terms_all a start stop k :
    terms a (all_stmts start stop k) = concat (map (fun i => terms a (stmts_of k i)) (seq start (stop - start))).
  Proof.
    unfold all_stmts. induction (seq start (stop - start)) as [|i l IH]; [done|]. simpl. by rewrite terms_app, IH.
  Qed.

  (** One accumulation pass, slot by slot. *)
  Theorem pfor_accumulate_any e start stop k m :
    kernel_ok (shape m) start stop k -> kernel_additive start stop k ->
    (e = SerialExecutor \/ kernel_atomic start stop k) ->
    ~ pfor e start stop k m None /\ (exists m', pfor e start stop k m (Some m')) /\
    forall m', pfor e start stop k m (Some m') -> shape m' = shape m /\
      forall a, exists l, l ≡ₚ terms a (all_stmts start stop k) /\
        (e = SerialExecutor -> l = terms a (all_stmts start stop k)) /\
        mget m' a = (fun x => foldl vadd x l) <$> mget m a.
  Proof.
    intros Hok Hadd Hat.
    assert (Hall : forall r, pfor e start stop k m r -> exists trace, trace ≡ₚ all_stmts start stop k /\
      (e = SerialExecutor -> trace = all_stmts start stop k) /\ r = Some (foldl apply_stmt m trace)).
    { intros r Hr. destruct Hat as [->|Hat]; [|by apply pfor_atomic_any].
      exists (all_stmts start stop k). split; [done|]. split; [done|]. by apply pfor_serial_iff in Hr. }
    split; [|split].
    - intros Hr. destruct (Hall _ Hr) as (? & _ & _ & ?). done.
    - eexists. by apply pfor_some.
    - intros m' Hr. destruct (Hall _ Hr) as (tr & Hp & Hs & [= ->]). split; [apply shape_foldl|].
      intros a. exists (terms a tr). split; [by apply terms_perm|]. split; [intros He; by rewrite (Hs He)|].
      apply mget_foldl_terms.
      + rewrite Hp. by apply all_stmts_additive.
      + rewrite Hp. by apply all_stmts_ok.
  Qed.

  (** ** Every order of the iterations is possible on a parallel executor *)
  Lemma run_whole_thread n : forall bodies (t : nat) ss m, length ss = n -> bodies !! t = Some ss ->
    Forall (fun s => stmt_atomic s = true /\ in_shape (shape m) (stmt_addr s)) ss ->
    run (replicate n t) (map atomic_thread bodies) m = Some (map atomic_thread (<[t := []]> bodies), foldl apply_stmt m ss).
  Proof.
    induction n as [|n IH]; intros bodies t ss m Hn Ht Hss.
    - destruct ss; [|done]. simpl. by rewrite list_insert_id.
    - destruct ss as [|s ss]; [done|]. apply Forall_cons in Hss as [[Hat Hin] Hss].
      assert (Hlk : (map atomic_thread bodies) !! t = atomic_thread <$> bodies !! t) by apply list_lookup_fmap.
      cbn [run replicate]. unfold thread, action in *. rewrite Hlk, Ht. simpl.
      destruct (mget_is_Some _ _ Hin) as [x Hx].
      assert (exists v, compile1 s = [AtomicAdd (stmt_addr s) v] /\ stmt_fun s x = vadd x v) as (v & Ec & Ef).
      { destruct s; try discriminate; eexists; split; reflexivity. }
      rewrite Ec. cbn [app map]. cbn [step]. rewrite Hx, <- Ef.
      assert (Ha : apply_stmt m s = mset m (stmt_addr s) (stmt_fun s x)) by (unfold apply_stmt; by rewrite Hx).
      rewrite <- Ha.
      transitivity (run (replicate n t) (map atomic_thread (<[t := ss]> bodies)) (apply_stmt m s)).
      { f_equal. change (map atomic_thread (<[t := ss]> bodies)) with (atomic_thread <$> <[t := ss]> bodies).
        rewrite list_fmap_insert. done. }
      pose proof (lookup_lt_Some _ _ _ Ht) as Hlt.
      rewrite (IH (<[t := ss]> bodies) t ss (apply_stmt m s)).
      + by rewrite list_insert_insert.
      + simpl in Hn. lia.
      + by apply list_lookup_insert.
      + eapply Forall_impl; [exact Hss|]. intros y. by rewrite shape_apply.
  Qed.
  Lemma run_in_order (order : list nat) : forall bodies m,
    NoDup order -> (forall t : nat, t ∈ order -> is_Some (bodies !! t)) ->
    Forall (Forall (fun s => stmt_atomic s = true /\ in_shape (shape m) (stmt_addr s))) bodies ->
    exists sched bodies', run sched (map atomic_thread bodies) m =
      Some (map atomic_thread bodies', foldl apply_stmt m (concat (map (fun u : nat => default [] (bodies !! u)) order))) /\
      length bodies' = length bodies /\
      (forall t : nat, t ∈ order -> bodies' !! t = Some []) /\ (forall t : nat, t ∉ order -> bodies' !! t = bodies !! t).
  Proof.
    induction order as [|t order IH]; intros bodies m Hnd Hin Hb.
    - exists [], bodies. split; [done|]. split; [done|]. split; [|done]. intros t Ht. by apply elem_of_nil in Ht.
    - apply NoDup_cons in Hnd as [Hnt Hnd]. destruct (Hin t) as [ss Hss]; [by left|].
      pose proof (Forall_lookup_1 _ _ _ _ Hb Hss) as Hs. pose proof (lookup_lt_Some _ _ _ Hss) as Hlt.
      pose proof (run_whole_thread (length ss) bodies t ss m eq_refl Hss Hs) as H1.
      destruct (IH (<[t := []]> bodies) (foldl apply_stmt m ss)) as (sched & bodies' & Hr & Hl & Hd & Ho).
      + done.
      + intros u Hu. rewrite list_lookup_insert_ne by (intros ->; done). apply Hin. by right.
      + apply Forall_insert; [|done]. eapply Forall_impl; [exact Hb|]. intros b Hbb.
        eapply Forall_impl; [exact Hbb|]. intros y. by rewrite shape_foldl.
      + exists (replicate (length ss) t ++ sched), bodies'. split; [|split; [|split]].
        * rewrite run_app, H1, Hr. do 2 f_equal. simpl. rewrite Hss. simpl. rewrite foldl_app. f_equal. f_equal.
          apply map_ext_in. intros u Hu%elem_of_list_In. rewrite list_lookup_insert_ne by (intros ->; done). done.
        * by rewrite Hl, insert_length.
        * intros u Hu. apply elem_of_cons in Hu as [->|Hu]; [|by apply Hd].
          rewrite Ho by done. by apply list_lookup_insert.
        * intros u Hu. apply not_elem_of_cons in Hu as [Hne Hu]. rewrite Ho by done. by apply list_lookup_insert_ne.
  Qed.
  Theorem pfor_any_order e start stop k m (order : list nat) :
    e <> SerialExecutor -> kernel_ok (shape m) start stop k -> kernel_atomic start stop k ->
    order ≡ₚ seq start (stop - start) ->
    pfor e start stop k m (Some (foldl apply_stmt m (concat (map (stmts_of k) order)))).
  Proof.
    intros He Hok Hat Hord.
    assert (Hb : Forall (Forall (fun s => stmt_atomic s = true /\ in_shape (shape m) (stmt_addr s)))
                   (map (stmts_of k) (seq start (stop - start)))).
    { apply Forall_forall. intros b Hb. apply elem_of_list_fmap in Hb as (i & -> & Hi). apply elem_of_seq in Hi.
      apply Forall_forall. intros s Hs. split; [apply (Hat i); [lia|done]|].
      destruct (Hok i) as (b & Eb & Hin); [lia|]. unfold stmts_of in Hs. rewrite Eb in Hs. simpl in Hs.
      rewrite Forall_forall in Hin. by apply Hin. }
    assert (Hmem : forall i, i ∈ order -> start <= i < stop).
    { intros i Hi. rewrite Hord in Hi. apply elem_of_seq in Hi. lia. }
    assert (Hlk : forall i, start <= i < stop -> map (stmts_of k) (seq start (stop - start)) !! (i - start) = Some (stmts_of k i)).
    { intros i Hi. change (map (stmts_of k) (seq start (stop - start))) with (stmts_of k <$> seq start (stop - start)).
      rewrite list_lookup_fmap, lookup_seq_lt by lia. simpl. do 2 f_equal. lia. }
    destruct (run_in_order (map (fun i => i - start) order) (map (stmts_of k) (seq start (stop - start))) m) as (sched & bodies' & Hr & Hl & Hd & _).
    { assert (Hnd : NoDup order) by (rewrite Hord; apply NoDup_seq).
      clear -Hnd Hmem. induction order as [|i order IH]; simpl; [constructor|]. apply NoDup_cons in Hnd as [Hi Hnd].
      constructor; [|apply IH; [intros j Hj; apply Hmem; by right|done]].
      intros Hx. apply elem_of_list_fmap in Hx as (j & Ej & Hj). apply Hi.
      assert (i = j); [|by subst]. pose proof (Hmem i ltac:(by left)). pose proof (Hmem j ltac:(by right)). lia. }
    { intros t Ht. apply elem_of_list_fmap in Ht as (i & -> & Hi). rewrite Hlk by auto. eauto. }
    { exact Hb. }
    assert (Hpar : par_result (map atomic_thread (map (stmts_of k) (seq start (stop - start)))) m
                     (foldl apply_stmt m (concat (map (stmts_of k) order)))).
    { exists sched, (map atomic_thread bodies'). split.
      - rewrite Hr. do 3 f_equal. f_equal. rewrite map_map. apply map_ext_in. intros i Hi%elem_of_list_In.
        by rewrite Hlk by auto.
      - apply Forall_forall. intros th Hth. apply elem_of_list_fmap in Hth as (b & -> & Hb').
        apply elem_of_list_lookup in Hb' as (t & Ht).
        rewrite Hd in Ht; [by injection Ht as <-|].
        apply lookup_lt_Some in Ht. rewrite Hl, map_length, seq_length in Ht.
        apply elem_of_list_fmap. exists (start + t). split; [lia|]. rewrite Hord. apply elem_of_seq. lia. }
    unfold pfor. rewrite (iterations_bodies _ _ _ _ Hok). destruct e; [done|..]; exact Hpar.
  Qed.
  Lemma omap_order {A B} (F : A -> option B) li : forall xs, li ≡ₚ omap F xs -> exists ys, ys ≡ₚ xs /\ omap F ys = li.
  Proof.
    induction li as [|y li IH]; intros xs Hp.
    - apply Permutation_nil_l in Hp. eauto.
    - assert (Hy : y ∈ omap F xs) by (rewrite <- Hp; by left).
      apply elem_of_list_omap in Hy as (x & Hx & EF). apply elem_of_Permutation in Hx as (xs0 & Hxs).
      rewrite Hxs in Hp. simpl in Hp. rewrite EF in Hp. apply Permutation_cons_inv in Hp.
      destruct (IH xs0 Hp) as (ys & Hys & Eys). exists (x :: ys). split; [by rewrite Hys, Hxs|]. cbn. rewrite EF. f_equal. exact Eys.
  Qed.
End any.
