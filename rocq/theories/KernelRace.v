(** Lost updates: what a kernel with plain (not atomic) updates of a shared
    element can do on a parallel executor. *)
From Verif Require Import Base Par ParProofs Exec ExecProofs Value Kernel KernelProofs.

Section acts.
  Context {S L : Type}.
  Fixpoint run_acts (l : L) (acts : list (action S L)) (s : S) : option (S * L) :=
    match acts with
    | [] => Some (s, l)
    | a :: rest => match a s l with Some (s', l') => run_acts l' rest s' | None => None end
    end.
  Lemma run_acts_thread acts : forall l s s', run_thread l acts s = Some s' -> exists l', run_acts l acts s = Some (s', l').
  Proof.
    induction acts as [|a acts IH]; intros l s s' E; cbn in *; [injection E as <-; eauto|].
    destruct (a s l) as [[s1 l1]|]; [by apply IH|done].
  Qed.
  Lemma run_acts_app a1 a2 : forall l s s1 l1, run_acts l a1 s = Some (s1, l1) -> run_acts l (a1 ++ a2) s = run_acts l1 a2 s1.
  Proof.
    induction a1 as [|a a1 IH]; intros l s s1 l1 E; cbn in *; [by injection E as <- <-|].
    destruct (a s l) as [[s2 l2]|]; [by apply IH|done].
  Qed.
  Lemma run_step t sched (ts : list (thread S L)) s l a rest s1 l1 :
    ts !! t = Some (l, a :: rest) -> a s l = Some (s1, l1) -> run (t :: sched) ts s = run sched (<[t := (l1, rest)]> ts) s1.
  Proof. intros E1 E2. cbn [run]. unfold thread, action in *. rewrite E1. cbn. rewrite E2. done. Qed.
  Lemma run_prefix t a1 a2 : forall (ts : list (thread S L)) l s s' l',
    run_acts l a1 s = Some (s', l') -> ts !! t = Some (l, a1 ++ a2) ->
    run (replicate (length a1) t) ts s = Some (<[t := (l', a2)]> ts, s').
  Proof.
    induction a1 as [|a a1 IH]; intros ts l s s' l' E Ht; cbn [run_acts app length replicate] in *.
    - injection E as <- <-. by rewrite list_insert_id.
    - destruct (a s l) as [[s1 l1]|] eqn:Ea; [|done]. rewrite (run_step t _ ts s l a _ s1 l1 Ht Ea).
      assert (Hlt : t < length ts) by by eapply lookup_lt_Some.
      rewrite (IH _ l1 s1 s' l' E) by (by rewrite list_lookup_insert).
      by rewrite list_insert_insert.
  Qed.
  Lemma run_serial_ext : forall (ts ts' : list (thread S L)) s,
    Forall2 (fun a b => a = b \/ (a.2 = [] /\ b.2 = [])) ts ts' -> run_serial ts s = run_serial ts' s.
  Proof.
    intros ts ts' s HF. revert s. induction HF as [|[l1 a1] [l2 a2] ts ts' Hab HF IH]; intros s; [done|].
    cbn. destruct Hab as [[= -> ->]|[Ea Eb]].
    - by destruct (run_thread l2 a2 s).
    - cbn in Ea, Eb. subst. cbn. apply IH.
  Qed.
End acts.

Section race.
  Context {V : Type} `{ValueLaws V}.
  Notation mem := (list (list V)).

  Lemma vsum_over_split n (g : nat -> V) t : t < n ->
    vsum_over n g = vadd (vsum_over n (fun j => if decide (j = t) then vzero else g j)) (g t).
  Proof.
    intros Ht. unfold vsum_over. replace n with (t + S (n - t - 1)) by lia.
    rewrite seq_app, !map_app, !vsum_app. cbn [seq map Nat.add vsum foldr].
    assert (E : forall a k, (t < a \/ a + k <= t) -> map (fun j => if decide (j = t) then vzero else g j) (seq a k) = map g (seq a k)).
    { intros a k Hk. apply map_ext_in. intros j [? ?]%in_seq. rewrite decide_False; [done|lia]. }
    rewrite (E 0 t) by lia. rewrite (E (Datatypes.S t)) by lia. rewrite decide_True by done.
    rewrite vadd_0_l, <- vadd_assoc. f_equal. apply vadd_comm.
  Qed.

  Definition plain (s : stmt V) : Prop := match s with SAdd _ _ | SSub _ _ => True | _ => False end.

  Lemma mget_foldl_ne l : forall (m : mem) a, Forall (fun s => stmt_addr s <> a) l -> mget (foldl apply_stmt m l) a = mget m a.
  Proof.
    induction l as [|s l IH]; intros m a HF; [done|]. apply Forall_cons in HF as [H1 H2]. cbn. rewrite IH by done. by apply mget_apply_ne.
  Qed.

  (** Two iterations, the first with a plain update of [a]: some schedule loses
      everything the second adds there. *)
  Theorem lost_update e start stop (k : kernel V) m i i' P s Q : e <> SerialExecutor ->
    kernel_ok (shape m) start stop k -> kernel_additive start stop k ->
    start <= i < stop -> start <= i' < stop -> i <> i' ->
    k i = Some (P ++ s :: Q) -> plain s -> Forall (fun t => stmt_addr t <> stmt_addr s) (P ++ Q) ->
    exists m' ms, pfor e start stop k m (Some m') /\ pfor SerialExecutor start stop k m (Some ms) /\
      shape m' = shape m /\ shape ms = shape m /\
      mget ms (stmt_addr s) = (fun x => vadd x (vsum (map (contrib (stmt_addr s)) (stmts_of k i')))) <$> mget m' (stmt_addr s).
  Proof.
    intros He Hok Hadd Hi Hi' Hne Hk Hpl HPQ. apply Forall_app in HPQ as [HP HQ].
    set (ts := iterations start stop (fun i => kthread (body_of k i))).
    set (t := i - start). set (t' := i' - start).
    assert (Hlen : length ts = stop - start) by (unfold ts, iterations; by rewrite map_length, seq_length).
    assert (Hts : forall j, start <= j < stop -> ts !! (j - start) = Some (kthread (body_of k j))).
    { intros j Hj. unfold ts, iterations. change (map ?f ?l) with (f <$> l). rewrite list_lookup_fmap, lookup_seq_lt by lia. cbn. do 3 f_equal. lia. }
    assert (Hb : forall j, start <= j < stop -> body_of k j = concat (map compile1 (stmts_of k j)) /\
              Forall (fun s => in_shape (shape m) (stmt_addr s)) (stmts_of k j)).
    { intros j Hj. destruct (Hok j Hj) as (b & Eb & Hf). unfold body_of, stmts_of. by rewrite Eb. }
    assert (Hsi : stmts_of k i = P ++ s :: Q) by (unfold stmts_of; by rewrite Hk).
    destruct (Hb i Hi) as [Ebi Hini]. rewrite Hsi in Ebi, Hini. apply Forall_app in Hini as [HinP [Hins HinQ]%Forall_cons].
    destruct (Hb i' Hi') as [Ebi' Hini'].
    set (a := stmt_addr s) in *.
    destruct (mget_is_Some _ _ Hins) as [x Hx].
    assert (Hf : exists f, compile1 s = [Load a; Store a f] /\ f x = vadd x (contrib a s)).
    { unfold contrib. rewrite decide_True by done. destruct s; try done; subst a; cbn; eauto. }
    destruct Hf as (f & Ef & Efx).
    (* phase 1 *)
    set (m1 := foldl apply_stmt m P).
    assert (S1 : shape m1 = shape m) by apply shape_foldl.
    assert (X1 : mget m1 a = Some x) by (unfold m1; rewrite mget_foldl_ne by done; exact Hx).
    destruct (run_acts_thread _ _ _ _ (run_body_serial P None m HinP)) as [l1 R1].
    assert (R1' : run_acts None (map step (concat (map compile1 P)) ++ [step (Load a)]) m = Some (m1, Some x)).
    { rewrite (run_acts_app _ _ _ _ _ _ R1). fold m1. cbn. rewrite X1. done. }
    set (rest := step (Store a f) :: map step (concat (map compile1 Q))).
    assert (T1 : ts !! t = Some (None, (map step (concat (map compile1 P)) ++ [step (Load a)]) ++ rest)).
    { unfold t. rewrite Hts by done. unfold kthread. rewrite Ebi, map_app, concat_app, map_app. cbn [map concat]. rewrite Ef. unfold rest.
      cbn [app map]. by rewrite <- app_assoc. }
    pose proof (run_prefix t _ _ ts _ _ _ _ R1' T1) as Q1.
    (* phase 2 *)
    set (m2 := foldl apply_stmt m1 (stmts_of k i')).
    assert (S2 : shape m2 = shape m) by (unfold m2; by rewrite shape_foldl).
    destruct (run_acts_thread _ _ _ _ (run_body_serial (stmts_of k i') None m1 ltac:(by rewrite S1))) as [l2 R2]. fold m2 in R2.
    assert (Htt : t <> t') by (unfold t, t'; lia).
    set (ts1 := <[t := (Some x, rest)]> ts) in *.
    assert (T2 : ts1 !! t' = Some (None, map step (concat (map compile1 (stmts_of k i'))) ++ [])).
    { unfold ts1. rewrite list_lookup_insert_ne by done. unfold t'. rewrite Hts by done. unfold kthread. by rewrite Ebi', app_nil_r. }
    pose proof (run_prefix t' _ _ ts1 _ _ _ _ R2 T2) as Q2.
    set (ts2 := <[t' := (l2, [])]> ts1) in *.
    (* phase 3 *)
    destruct (mget_is_Some m2 a ltac:(by rewrite S2)) as [y Hy].
    set (m3 := mset m2 a (f x)).
    assert (S3 : shape m3 = shape m) by (unfold m3; by rewrite shape_mset).
    set (m4 := foldl apply_stmt m3 Q).
    destruct (run_acts_thread _ _ _ _ (run_body_serial Q (Some x) m3 ltac:(by rewrite S3))) as [l4 R4]. fold m4 in R4.
    assert (R4' : run_acts (Some x) rest m2 = Some (m4, l4)).
    { unfold rest. cbn [run_acts step]. rewrite Hy. cbn. exact R4. }
    assert (T3 : ts2 !! t = Some (Some x, rest ++ [])).
    { unfold ts2, ts1. rewrite list_lookup_insert_ne by done. rewrite list_lookup_insert; [by rewrite app_nil_r|]. exact (lookup_lt_Some _ _ _ T1). }
    pose proof (run_prefix t _ _ ts2 _ _ _ _ R4' T3) as Q3.
    set (ts4 := <[t := (l4, [])]> ts2) in *.
    assert (S4 : shape m4 = shape m) by (unfold m4; by rewrite shape_foldl).
    assert (X4 : mget m4 a = Some (vadd x (contrib a s))).
    { unfold m4. rewrite mget_foldl_ne by done. unfold m3. rewrite mget_mset_eq by (by rewrite S2). by rewrite Efx. }
    (* phase 4 *)
    set (k' := fun j => if decide (j = i \/ j = i') then Some [] else k j).
    assert (Hok' : kernel_ok (shape m4) start stop k').
    { rewrite S4. intros j Hj. unfold k'. destruct (decide _); [exists []; split; [done|constructor]|by apply Hok]. }
    assert (Hadd' : kernel_additive start stop k').
    { intros j u Hj Hu. unfold stmts_of, k' in Hu. destruct (decide _); [by apply elem_of_nil in Hu|by apply (Hadd j)]. }
    assert (R5 : run_serial ts4 m4 = Some (foldl apply_stmt m4 (all_stmts start stop k'))).
    { rewrite <- (pfor_serial_loop _ _ _ _ Hok'). apply run_serial_ext. apply Forall2_same_length_lookup.
      assert (L4 : length ts4 = stop - start) by (unfold ts4, ts2, ts1; rewrite !insert_length; exact Hlen).
      split; [unfold iterations; by rewrite map_length, seq_length|].
      intros j u v Hu Hv.
      assert (Hj : j < stop - start) by (rewrite <- L4; by eapply lookup_lt_Some).
      unfold iterations in Hv. change (map ?f ?l) with (f <$> l) in Hv. rewrite list_lookup_fmap, lookup_seq_lt in Hv by lia. cbn in Hv. injection Hv as <-.
      unfold body_of, k'. destruct (decide (start + j = i \/ start + j = i')) as [Hd|Hd].
      - right. split; [|done]. unfold ts4 in Hu. destruct (decide (j = t)) as [->|Hjt].
        + rewrite list_lookup_insert in Hu; [by injection Hu as <-|]. exact (lookup_lt_Some _ _ _ T3).
        + assert (j = t') as -> by (unfold t, t' in *; lia).
          rewrite list_lookup_insert_ne in Hu by done. unfold ts2 in Hu.
          rewrite list_lookup_insert in Hu; [by injection Hu as <-|]. exact (lookup_lt_Some _ _ _ T2).
      - left. unfold ts4, ts2, ts1 in Hu. assert (j <> t /\ j <> t') as [? ?] by (unfold t, t'; lia).
        rewrite !list_lookup_insert_ne in Hu by done. replace j with (start + j - start) in Hu by lia. rewrite Hts in Hu by lia. injection Hu as <-. done. }
    set (m5 := foldl apply_stmt m4 (all_stmts start stop k')) in *.
    destruct (serial_par _ _ _ R5) as (sched & tsf & Hrun & Hfin).
    destruct (pfor_additive_serial start stop k m Hok Hadd) as (ms & Hms & Sms & Gms).
    exists m5, ms. split; [|split; [by apply Hms|split; [|split; [done|]]]].
    - assert (par_result ts m m5).
      { eexists (replicate _ t ++ replicate _ t' ++ replicate _ t ++ sched), tsf. split; [|exact Hfin].
        rewrite run_app, Q1. rewrite run_app, Q2. rewrite run_app, Q3. exact Hrun. }
      unfold pfor. destruct e; done.
    - unfold m5. by rewrite shape_foldl.
    - rewrite Gms, Hx. cbn [fmap option_fmap option_map].
      unfold m5. rewrite mget_foldl_additive; [|by apply all_stmts_additive|by apply all_stmts_ok].
      rewrite X4. cbn [fmap option_fmap option_map]. f_equal. rewrite contrib_all_stmts.
      rewrite (vsum_over_split _ _ t') by (unfold t'; lia).
      rewrite (vsum_over_split _ _ t) by (unfold t; lia). rewrite decide_False by done.
      replace (start + t) with i by (unfold t; lia). replace (start + t') with i' by (unfold t'; lia).
      assert (Ei : vsum (map (contrib a) (stmts_of k i)) = contrib a s).
      { rewrite Hsi. rewrite map_app. cbn [map]. rewrite vsum_app. cbn [vsum foldr].
        assert (Z : forall l, Forall (fun t => stmt_addr t <> a) l -> vsum (map (contrib a) l) = vzero).
        { intros l HF. induction HF as [|u l Hu HF IH]; [done|]. cbn. unfold contrib at 1. rewrite decide_False by done. rewrite vadd_0_l. exact IH. }
        change (foldr vadd vzero (map (contrib a) Q)) with (vsum (map (contrib a) Q)). rewrite !Z by done. by rewrite vadd_0_l, vadd_0_r. }
      rewrite Ei. rewrite <- !vadd_assoc. f_equal. rewrite !vadd_assoc. f_equal. rewrite vadd_comm. f_equal.
      apply vsum_over_ext. intros j Hj. unfold stmts_of, k'.
      destruct (decide (j = t)) as [->|N1].
      + rewrite decide_True by (left; unfold t; lia). done.
      + destruct (decide (j = t')) as [->|N2].
        * rewrite decide_True by (right; unfold t'; lia). done.
        * rewrite decide_False; [done|]. unfold t, t' in *. lia.
  Qed.
End race.
