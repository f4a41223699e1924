(** Own-slot kernels: every schedule writes exactly the range. *)
From Verif Require Import Base Par ParProofs Exec.

Lemma exec_result_det {S L} (Inv : S -> Prop) (e : executor) (ts : list (thread S L)) s r :
  all_total Inv ts -> all_commute Inv ts -> Inv s ->
  exec_result e ts s r -> run_serial ts s = r.
Proof.
  intros Ht Hc Hs H. destruct e; simpl in H; [done| |];
  (destruct r as [s'|];
   [by eapply confluence_result|
    destruct H as [sched H]; by destruct (confluence_safe Inv ts s Ht Hc Hs sched)]).
Qed.

Lemma exec_result_exists {S L} (e : executor) (ts : list (thread S L)) s s' :
  run_serial ts s = Some s' -> exec_result e ts s (Some s').
Proof. intros H. destruct e; simpl; auto using serial_par. Qed.

Lemma run_serial_total {S L} (Inv : S -> Prop) (ts : list (thread S L)) : forall s,
  all_total Inv ts -> Inv s -> exists s', run_serial ts s = Some s' /\ Inv s'.
Proof.
  induction ts as [|[l acts] ts IH]; intros s Ht Hs; simpl; [eauto|].
  destruct (run_thread_total Inv acts l s) as (s1 & -> & Hs1); auto.
  { intros a Ha. apply (Ht 0 (l, acts) a); auto. }
  apply IH; auto. intros i th a Hi. apply (Ht (Datatypes.S i) th a Hi).
Qed.

Lemma lookup_iterations {S L} start stop (k : nat -> thread S L) i th :
  iterations start stop k !! i = Some th ->
  th = k (start + i) /\ start + i < stop.
Proof.
  unfold iterations. rewrite list_lookup_fmap. intros H.
  apply fmap_Some in H as (x & Hx & ->). apply lookup_seq in Hx. destruct Hx as [-> Hx]. split; [done|lia].
Qed.

(** Reduce one action application with the lookups in the context. *)
Ltac slot_solve :=
  cbn beta iota;
  repeat first
    [ reflexivity
    | rewrite list_lookup_insert_ne by lia
    | match goal with H : ?l !! ?i = Some _ |- context [?l !! ?i] => rewrite H end
    | match goal with H : ?f ?i = Some _ |- context [?f ?i] => rewrite H end
    | match goal with H : ?f ?i ?v = Some _ |- context [?f ?i ?v] => rewrite H end
    | rewrite list_insert_commute by lia; reflexivity ].

(** Actions of an own-slot kernel. *)
Section own_slot.
  Context {V : Type}.
  Notation st := (list V).

  Lemma set_action_facts (n start stop : nat) (f : nat -> option V) :
    stop <= n ->
    (forall i, start <= i -> i < stop -> is_Some (f i)) ->
    all_total (fun s => length s = n) (iterations start stop (set_kernel f)) /\
    all_commute (fun s => length s = n) (iterations start stop (set_kernel f)).
  Proof.
    intros Hn Hf. split.
    - intros i th a Hi Ha. apply lookup_iterations in Hi as [-> Hlt].
      simpl in Ha. apply elem_of_list_singleton in Ha. subst a.
      intros s l Hs.
      destruct (lookup_lt_is_Some_2 s (start + i)) as [v Hv]; [lia|].
      destruct (Hf (start + i)) as [w Hw]; [lia..|].
      rewrite Hv, Hw. eexists _, _. split; [done|]. by rewrite insert_length.
    - intros i j ti tj a b Hij Hi Hj Ha Hb.
      apply lookup_iterations in Hi as [-> Hi].
      apply lookup_iterations in Hj as [-> Hj].
      simpl in Ha, Hb. apply elem_of_list_singleton in Ha, Hb. subst a b.
      intros s la lb Hs.
      destruct (lookup_lt_is_Some_2 s (start + i)) as [v Hv]; [lia|].
      destruct (lookup_lt_is_Some_2 s (start + j)) as [w Hw]; [lia|].
      destruct (Hf (start + i)) as [fi Hfi]; [lia..|].
      destruct (Hf (start + j)) as [fj Hfj]; [lia..|].
      do 5 eexists; split_and!; slot_solve.
  Qed.

  Lemma rmw_action_facts (n start stop : nat) (f : nat -> V -> option V) :
    stop <= n ->
    (forall i v, start <= i -> i < stop -> is_Some (f i v)) ->
    all_total (fun s => length s = n) (iterations start stop (rmw_kernel f)) /\
    all_commute (fun s => length s = n) (iterations start stop (rmw_kernel f)).
  Proof.
    intros Hn Hf. split.
    - intros i th a Hi Ha. apply lookup_iterations in Hi as [-> Hlt].
      simpl in Ha. rewrite !elem_of_cons in Ha. destruct Ha as [->|[->|Ha]].
      3: by apply elem_of_nil in Ha.
      + intros s l Hs.
        destruct (lookup_lt_is_Some_2 s (start + i)) as [v Hv]; [lia|].
        rewrite Hv. eauto.
      + intros s [v|] Hs; [|eauto].
        destruct (lookup_lt_is_Some_2 s (start + i)) as [v' Hv]; [lia|].
        destruct (Hf (start + i) v) as [w Hw]; [lia..|].
        rewrite Hv, Hw. eexists _, _. split; [done|]. by rewrite insert_length.
    - intros i j ti tj a b Hij Hi Hj Ha Hb.
      apply lookup_iterations in Hi as [-> Hi].
      apply lookup_iterations in Hj as [-> Hj].
      simpl in Ha, Hb. rewrite !elem_of_cons, elem_of_nil in Ha, Hb.
      intros s la lb Hs.
      destruct (lookup_lt_is_Some_2 s (start + i)) as [v Hv]; [lia|].
      destruct (lookup_lt_is_Some_2 s (start + j)) as [w Hw]; [lia|].
      destruct Ha as [->|[->|[]]], Hb as [->|[->|[]]].
      + do 5 eexists; split_and!; slot_solve.
      + destruct lb as [vb|]; [|do 5 eexists; split_and!; slot_solve].
        destruct (Hf (start + j) vb) as [fj Hfj]; [lia..|].
        do 5 eexists; split_and!; slot_solve.
      + destruct la as [va|]; [|do 5 eexists; split_and!; slot_solve].
        destruct (Hf (start + i) va) as [fi Hfi]; [lia..|].
        do 5 eexists; split_and!; slot_solve.
      + destruct la as [va|], lb as [vb|].
        * destruct (Hf (start + i) va) as [fi Hfi]; [lia..|].
          destruct (Hf (start + j) vb) as [fj Hfj]; [lia..|].
          do 5 eexists; split_and!; slot_solve.
        * destruct (Hf (start + i) va) as [fi Hfi]; [lia..|].
          do 5 eexists; split_and!; slot_solve.
        * destruct (Hf (start + j) vb) as [fj Hfj]; [lia..|].
          do 5 eexists; split_and!; slot_solve.
        * do 5 eexists; split_and!; slot_solve.
  Qed.

  (** Serial result, pointwise. *)
  Lemma rmw_serial (f : nat -> V -> option V) : forall k start s,
    start + k <= length s ->
    (forall i v, start <= i -> i < start + k -> is_Some (f i v)) ->
    exists s', run_serial (map (rmw_kernel f) (seq start k)) s = Some s' /\
      length s' = length s /\
      forall j, s' !! j = if decide (start <= j < start + k)
                          then s !! j ≫= f j else s !! j.
  Proof.
    induction k as [|k IH]; intros start s Hn Hf.
    - exists s. simpl. repeat split; auto. intros j. rewrite decide_False by lia. done.
    - destruct (lookup_lt_is_Some_2 s start) as [v Hv]; [lia|].
      destruct (Hf start v) as [w Hw]; [lia..|].
      cbn [map seq run_serial rmw_kernel run_thread]. rewrite Hv, Hv, Hw.
      destruct (IH (S start) (<[start := w]> s)) as (s' & Hr & Hl & Hp).
      { rewrite insert_length. lia. }
      { intros i u H1 H2. apply Hf; lia. }
      exists s'. split; [exact Hr|]. rewrite insert_length in Hl. split; [done|].
      intros j. rewrite Hp. destruct (decide (j = start)) as [->|Hne].
      + rewrite decide_False by lia. rewrite decide_True by lia.
        rewrite list_lookup_insert by lia. rewrite Hv. simpl. by rewrite Hw.
      + rewrite list_lookup_insert_ne by done.
        destruct (decide (S start <= j < S start + k)), (decide (start <= j < start + S k)); lia || done.
  Qed.

  Lemma set_serial (f : nat -> option V) : forall k start s,
    start + k <= length s ->
    (forall i, start <= i -> i < start + k -> is_Some (f i)) ->
    exists s', run_serial (map (set_kernel f) (seq start k)) s = Some s' /\
      length s' = length s /\
      forall j, s' !! j = if decide (start <= j < start + k)
                          then f j else s !! j.
  Proof.
    induction k as [|k IH]; intros start s Hn Hf.
    - exists s. simpl. repeat split; auto. intros j. rewrite decide_False by lia. done.
    - destruct (lookup_lt_is_Some_2 s start) as [v Hv]; [lia|].
      destruct (Hf start) as [w Hw]; [lia..|].
      cbn [map seq run_serial set_kernel run_thread]. rewrite Hv, Hw.
      destruct (IH (S start) (<[start := w]> s)) as (s' & Hr & Hl & Hp).
      { rewrite insert_length. lia. }
      { intros i H1 H2. apply Hf; lia. }
      exists s'. split; [exact Hr|]. rewrite insert_length in Hl. split; [done|].
      intros j. rewrite Hp. destruct (decide (j = start)) as [->|Hne].
      + rewrite decide_False by lia. rewrite decide_True by lia.
        rewrite list_lookup_insert by lia. by rewrite Hw.
      + rewrite list_lookup_insert_ne by done.
        destruct (decide (S start <= j < S start + k)), (decide (start <= j < start + S k)); lia || done.
  Qed.

  (** Any executor, any schedule. *)
  Lemma rmw_exec (f : nat -> V -> option V) e start stop s r :
    start <= stop -> stop <= length s ->
    (forall i v, start <= i -> i < stop -> is_Some (f i v)) ->
    exec_result e (iterations start stop (rmw_kernel f)) s r ->
    exists s', r = Some s' /\ length s' = length s /\
      forall j, s' !! j = if decide (start <= j < stop) then s !! j ≫= f j else s !! j.
  Proof.
    intros Hse Hn Hf Hr.
    destruct (rmw_action_facts (length s) start stop f Hn Hf) as [Ht Hc].
    apply (exec_result_det _ _ _ _ _ Ht Hc eq_refl) in Hr.
    destruct (rmw_serial f (stop - start) start s) as (s' & Hr' & Hl & Hp); [lia| |].
    { intros i v H1 H2. apply Hf; lia. }
    unfold iterations in Hr. rewrite Hr' in Hr. exists s'. split; [done|]. split; [done|].
    intros j. rewrite Hp. replace (start + (stop - start)) with stop by lia. done.
  Qed.

  Lemma rmw_exec_exists (f : nat -> V -> option V) e start stop s :
    start <= stop -> stop <= length s ->
    (forall i v, start <= i -> i < stop -> is_Some (f i v)) ->
    exists s', exec_result e (iterations start stop (rmw_kernel f)) s (Some s').
  Proof.
    intros Hse Hn Hf.
    destruct (rmw_serial f (stop - start) start s) as (s' & Hr' & _); [lia| |].
    { intros i v H1 H2. apply Hf; lia. }
    exists s'. by apply exec_result_exists.
  Qed.

  Lemma set_exec (f : nat -> option V) e start stop s r :
    start <= stop -> stop <= length s ->
    (forall i, start <= i -> i < stop -> is_Some (f i)) ->
    exec_result e (iterations start stop (set_kernel f)) s r ->
    exists s', r = Some s' /\ length s' = length s /\
      forall j, s' !! j = if decide (start <= j < stop) then f j else s !! j.
  Proof.
    intros Hse Hn Hf Hr.
    destruct (set_action_facts (length s) start stop f Hn Hf) as [Ht Hc].
    apply (exec_result_det _ _ _ _ _ Ht Hc eq_refl) in Hr.
    destruct (set_serial f (stop - start) start s) as (s' & Hr' & Hl & Hp); [lia| |].
    { intros i H1 H2. apply Hf; lia. }
    unfold iterations in Hr. rewrite Hr' in Hr. exists s'. split; [done|]. split; [done|].
    intros j. rewrite Hp. replace (start + (stop - start)) with stop by lia. done.
  Qed.

  Lemma set_exec_exists (f : nat -> option V) e start stop s :
    start <= stop -> stop <= length s ->
    (forall i, start <= i -> i < stop -> is_Some (f i)) ->
    exists s', exec_result e (iterations start stop (set_kernel f)) s (Some s').
  Proof.
    intros Hse Hn Hf.
    destruct (set_serial f (stop - start) start s) as (s' & Hr' & _); [lia| |].
    { intros i H1 H2. apply Hf; lia. }
    exists s'. by apply exec_result_exists.
  Qed.
End own_slot.

Lemma iterations_lookup : forall (S L : Type) start stop (k : nat -> thread S L) i,
  iterations start stop k !! i = if decide (start + i < stop) then Some (k (start + i)) else None.
Proof.
  intros S L start stop k i. unfold iterations. rewrite list_lookup_fmap.
  destruct (decide (start + i < stop)).
  - rewrite lookup_seq_lt by lia. done.
  - rewrite lookup_seq_ge by lia. done.
Qed.

Lemma run_serial_app {S L} (ts ts' : list (thread S L)) : forall s,
  run_serial (ts ++ ts') s = match run_serial ts s with
                             | Some s' => run_serial ts' s'
                             | None => None
                             end.
Proof.
  induction ts as [|[l acts] ts IH]; intros s; simpl; [done|].
  destruct (run_thread l acts s); [|done]. apply IH.
Qed.
