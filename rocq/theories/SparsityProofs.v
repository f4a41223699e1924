From Verif Require Import Base Par ParProofs Exec ExecProofs Kernel KernelProofs
  Reduce ReduceProofs Ticket TicketProofs Mesh MeshSpec Sparsity SparsitySpec.

(** * Counting *)
Definition cntif (P : nat -> bool) (n : nat) : nat :=
  sum_list (map (fun f => if P f then 1 else 0) (seq 0 n)).

Lemma sum_list_map_add {A} (f g : A -> nat) l :
  sum_list (map (fun x => f x + g x) l) = sum_list (map f l) + sum_list (map g l).
Proof. induction l; simpl; lia. Qed.
Lemma sum_list_map_0 {A} (l : list A) : sum_list (map (fun _ => 0) l) = 0.
Proof. induction l; simpl; lia. Qed.
Lemma sum_list_map_const {A} (l : list A) k : sum_list (map (fun _ => k) l) = k * length l.
Proof. induction l; simpl; lia. Qed.
Lemma sum_list_swap {A B} (g : A -> B -> nat) (xs : list A) (ys : list B) :
  sum_list (map (fun x => sum_list (map (g x) ys)) xs)
  = sum_list (map (fun y => sum_list (map (fun x => g x y) xs)) ys).
Proof.
  induction xs as [|x xs IH]; simpl.
  - by rewrite sum_list_map_0.
  - rewrite IH, <- sum_list_map_add. done.
Qed.
Lemma sum_list_map_ext {A} (f g : A -> nat) l : (forall x, x ∈ l -> f x = g x) ->
  sum_list (map f l) = sum_list (map g l).
Proof.
  intros H. f_equal. apply map_ext_in. intros x Hx. apply H. by apply elem_of_list_In.
Qed.
Lemma cnt_one_le n c start : c < start -> sum_list (map (fun x => if bool_decide (c = x) then 1 else 0) (seq start n)) = 0.
Proof.
  intros H. rewrite (sum_list_map_ext _ (fun _ => 0)); [apply sum_list_map_0|].
  intros x Hx. apply elem_of_seq in Hx. rewrite bool_decide_false by lia. done.
Qed.
Lemma sum_indicator c : forall n start, start <= c < start + n ->
  sum_list (map (fun x => if bool_decide (c = x) then 1 else 0) (seq start n)) = 1.
Proof.
  induction n as [|n IH]; intros start H; [lia|]. simpl.
  destruct (decide (c = start)) as [->|Hne].
  - rewrite bool_decide_true by done. rewrite cnt_one_le by lia. done.
  - rewrite bool_decide_false by done. rewrite IH by lia. done.
Qed.
Lemma cntif_filter (P : nat -> Prop) `{forall x, Decision (P x)} n :
  cntif (fun f => bool_decide (P f)) n = length (filter P (seq 0 n)).
Proof.
  unfold cntif. generalize (seq 0 n). intros l. induction l as [|x l IH]; simpl; [done|].
  destruct (decide (P x)).
  - rewrite bool_decide_true, filter_cons_True by done. simpl. lia.
  - rewrite bool_decide_false, filter_cons_False by done. lia.
Qed.

(** * tfor *)
Lemma tfor_bodies e start stop k (body : nat -> list tinstr) m r :
  (forall i, i < stop - start -> k (start + i) = Some (body i)) ->
  tfor e start stop k m r <-> exec_result e (map tthread (map body (seq 0 (stop - start)))) m r.
Proof.
  intros Hk. unfold tfor, iterations.
  assert (map (fun i => tthread (tbody (k i))) (seq start (stop - start))
          = map tthread (map body (seq 0 (stop - start)))) as ->; [|done].
  apply list_eq. intros i. change (map ?f ?l) with (f <$> l). rewrite !list_lookup_fmap.
  destruct (decide (i < stop - start)).
  - rewrite !lookup_seq_lt by lia. simpl. by rewrite Hk by lia.
  - rewrite !lookup_seq_ge by lia. done.
Qed.

Lemma bodies_lookup (body : nat -> list tinstr) n i b :
  map body (seq 0 n) !! i = Some b <-> i < n /\ b = body i.
Proof.
  change (map ?f ?l) with (f <$> l). rewrite list_lookup_fmap, fmap_Some. split.
  - intros (x & Hx & ->). apply lookup_seq in Hx as [-> Hx]. done.
  - intros [H ->]. exists i. split; [|done]. by apply lookup_seq.
Qed.

Lemma cnt_bodies a body n : cnt a (map body (seq 0 n)) = sum_list (map (fun i => cnt1 a (body i)) (seq 0 n)).
Proof. unfold cnt. by rewrite map_map. Qed.

Lemma cnt_other a (bodies : list (list tinstr)) :
  (forall b, b ∈ bodies -> a ∉ fetches b) -> cnt a bodies = 0.
Proof.
  intros H. unfold cnt. rewrite (sum_list_map_ext _ (fun _ => 0)); [apply sum_list_map_0|].
  intros b Hb. unfold cnt1. apply length_zero_iff_nil.
  specialize (H b Hb). induction (fetches b) as [|x l IH]; [done|].
  rewrite filter_cons_False; [apply IH; intros Hi; apply H; by constructor|].
  intros ->. apply H. by constructor.
Qed.

(** * One allocation phase *)
Section alloc.
  Context (nC nI nnz : nat) (len rp : nat -> nat).
  (** rows do not overlap and fit *)
  Context (Hrows : forall c c', c < c' -> c' < nC -> rp c + len c <= rp c').
  Context (Hnnz : forall c, c < nC -> rp c + len c <= nnz).

  Lemma row_inj c c' s s' : c < nC -> c' < nC -> s < len c -> s' < len c' ->
    rp c + s = rp c' + s' -> c = c' /\ s = s'.
  Proof using Hrows.
    intros Hc Hc' Hs Hs' E.
    destruct (decide (c < c')); [pose proof (Hrows c c'); lia|].
    destruct (decide (c' < c)); [pose proof (Hrows c' c); lia|].
    assert (c = c') by lia. subst. lia.
  Qed.

  Definition sp_shape : list nat := [nC; nI; nI; nC; nnz].

  Lemma in_sp_shape_0 c : c < nC -> in_shape sp_shape (0, c).
  Proof using. intros H. exists nC. done. Qed.
  Lemma in_sp_shape_4 x : x < nnz -> in_shape sp_shape (4, x).
  Proof using. intros H. exists nnz. done. Qed.

  Definition alloc_body (oa : nat) (g v : nat -> nat) (f : nat) : list tinstr :=
    [ TFetch (0, g f);
      TPut 0 (fun seg => ((oa, f), uint8 seg));
      TPut 0 (fun seg => ((4, rp (g f) + seg), v f)) ].

  Record alloc_post (e : executor) (m m' : imem) (oa : nat) (g v s0 : nat -> nat) (tk : nat -> nat) : Prop := {
    ap_range : forall f, f < nI -> s0 (g f) <= tk f < s0 (g f)
                 + cntif (fun f' => bool_decide (g f' = g f)) nI;
    ap_inj : forall f f', f < nI -> f' < nI -> f <> f' -> g f = g f' -> tk f <> tk f';
    ap_off : forall f, f < nI -> mget m' (oa, f) = Some (uint8 (tk f));
    ap_col : forall f, f < nI -> mget m' (4, rp (g f) + tk f) = Some (v f);
    ap_count : forall c, c < nC -> mget m' (0, c) = Some (s0 c + cntif (fun f => bool_decide (g f = c)) nI);
    ap_other : forall i x, i <> 0 -> i <> oa -> i <> 4 -> mget m' (i, x) = mget m (i, x);
    ap_col_other : forall x, (forall f, f < nI -> x <> rp (g f) + tk f) -> mget m' (4, x) = mget m (4, x);
    ap_shape : shape m' = shape m;
    ap_serial : e = SerialExecutor -> forall f f', f < f' -> f' < nI -> g f = g f' -> tk f < tk f';
  }.

  Lemma alloc_phase e m oa g v s0 k :
    shape m = sp_shape -> (oa = 1 \/ oa = 2) ->
    (forall f, f < nI -> g f < nC) ->
    (forall c, c < nC -> mget m (0, c) = Some (s0 c)) ->
    (forall c, c < nC -> s0 c + cntif (fun f => bool_decide (g f = c)) nI <= len c) ->
    (forall f, f < nI -> k f = Some (alloc_body oa g v f)) ->
    (exists m', tfor e 0 nI k m (Some m')) /\
    forall r, tfor e 0 nI k m r -> exists m' tk, r = Some m' /\ alloc_post e m m' oa g v s0 tk.
  Proof using Hrows Hnnz.
    intros Hsh Hoa Hg Hm0 Hlen Hk.
    set (bodies := map (alloc_body oa g v) (seq 0 nI)).
    assert (Htf : forall r, tfor e 0 nI k m r <-> exec_result e (map tthread bodies) m r).
    { intros r. unfold bodies. rewrite <- (Nat.sub_0_r nI) at 2. apply tfor_bodies.
      intros i Hi. simpl. apply Hk. lia. }
    assert (Hlk : forall i b, bodies !! i = Some b <-> i < nI /\ b = alloc_body oa g v i)
      by (intros; apply bodies_lookup).
    assert (Hft : forall i, fetches (alloc_body oa g v i) = [(0, g i)]) by done.
    assert (Hc0 : forall c, cnt (0, c) bodies = cntif (fun f => bool_decide (g f = c)) nI).
    { intros c. unfold bodies. rewrite cnt_bodies. unfold cntif. apply sum_list_map_ext.
      intros f _. unfold cnt1. rewrite Hft. destruct (decide (g f = c)) as [<-|Hne].
      - rewrite filter_cons_True, bool_decide_true by done. done.
      - rewrite filter_cons_False, bool_decide_false by congruence. done. }
    assert (Hc1 : forall i x, i <> 0 -> cnt (i, x) bodies = 0).
    { intros i x Hi. apply cnt_other. intros b Hb. apply elem_of_list_lookup in Hb as [j Hj].
      apply Hlk in Hj as [_ ->]. rewrite Hft. intros H. apply elem_of_list_singleton in H. congruence. }
    assert (Hst : forall c, c < nC -> start_of m (0, c) = s0 c).
    { intros c Hc. unfold start_of. by rewrite Hm0. }
    assert (Hput : forall i p j f c, is_put bodies i p j f c -> i < nI /\ j = 0 /\ c = (0, g i) /\
      ((p = 1 /\ f = (fun seg => ((oa, i), uint8 seg))) \/
       (p = 2 /\ f = (fun seg => ((4, rp (g i) + seg), v i))))).
    { intros i p j f c (b & Hb & Hp & Hj). apply Hlk in Hb as [Hi ->]. rewrite Hft in Hj.
      destruct p as [|[|[|p]]]; simpl in Hp; try discriminate; injection Hp as <- <-;
        simpl in Hj; injection Hj as <-; auto 10. }
    assert (Hrg : forall i t, i < nI -> range_of m bodies (0, g i) t -> t < len (g i)).
    { intros i t Hi [_ Ht]. rewrite Hc0, Hst in Ht by auto. pose proof (Hlen (g i) (Hg i Hi)). lia. }
    assert (Hok : ticket_ok m bodies).
    { constructor.
      - intros i b p ins Hb Hp. apply Hlk in Hb as [Hi ->].
        destruct p as [|[|[|p]]]; simpl in Hp; try discriminate; injection Hp as <-.
        + rewrite Hsh. apply in_sp_shape_0. auto.
        + simpl. unfold fetches. simpl. lia.
        + simpl. unfold fetches. simpl. lia.
      - intros i p j f c t Hp Ht. apply Hput in Hp as (Hi & -> & -> & [[-> ->]|[-> ->]]); simpl.
        + split; [|apply Hc1; lia]. rewrite Hsh. exists nI. destruct Hoa as [-> | ->]; done.
        + split; [|apply Hc1; lia]. rewrite Hsh. apply in_sp_shape_4.
          pose proof (Hrg i t Hi Ht). pose proof (Hnnz (g i) (Hg i Hi)). lia.
      - intros i p j f c t i' p' j' f' c' t' H1 H2 Ht Ht' Hne Htt _.
        apply Hput in H1 as (Hi & -> & -> & [[-> ->]|[-> ->]]);
        apply Hput in H2 as (Hi' & -> & -> & [[-> ->]|[-> ->]]); simpl.
        + intros E. injection E as E. congruence.
        + intros E. injection E as E. destruct Hoa; lia.
        + intros E. injection E as E. destruct Hoa; lia.
        + intros E. injection E as E.
          destruct (row_inj (g i) (g i') t t') as [E1 E2]; auto.
          assert (i <> i') by congruence.
          apply Htt; [congruence| |done]. by rewrite E1. }
    assert (Hpost : forall m' (tk : nat -> nat -> nat), tickets m bodies tk m' ->
      (e = SerialExecutor -> forall f f', f < f' -> f' < nI -> g f = g f' -> tk f 0 < tk f' 0) ->
      alloc_post e m m' oa g v s0 (fun f => tk f 0)).
    { intros m' tk HT Hser.
      assert (Hr1 : forall f, f < nI -> range_of m bodies (0, g f) (tk f 0)).
      { intros f Hf. apply (tk_range _ _ _ _ HT f (alloc_body oa g v f)); [by apply Hlk|done]. }
      assert (Hnotput : forall a, (forall f, f < nI -> (oa, f) <> a /\ (4, rp (g f) + tk f 0) <> a) ->
        mget m' a = (fun x => x + cnt a bodies) <$> mget m a).
      { intros a Ha. apply (tk_rest _ _ _ _ HT). intros i b j f Hb Hin. apply Hlk in Hb as [Hi ->].
        destruct (Ha i Hi) as [A1 A2].
        apply elem_of_cons in Hin as [?|Hin]; [done|].
        apply elem_of_cons in Hin as [E|Hin]; [by injection E as -> ->|].
        apply elem_of_list_singleton in Hin. by injection Hin as -> ->. }
      constructor.
      - intros f Hf. specialize (Hr1 f Hf). unfold range_of in Hr1. rewrite Hc0, Hst in Hr1 by auto.
        lia.
      - intros f f' Hf Hf' Hne E.
        apply (tk_inj _ _ _ _ HT f (alloc_body oa g v f) 0 f' (alloc_body oa g v f') 0 (0, g f)).
        + by apply Hlk.
        + done.
        + by apply Hlk.
        + by rewrite E.
        + congruence.
      - intros f Hf. apply (tk_put _ _ _ _ HT f (alloc_body oa g v f) 0 (fun seg => ((oa, f), uint8 seg))).
        + by apply Hlk.
        + apply elem_of_list_lookup_2 with 1. done.
      - intros f Hf. apply (tk_put _ _ _ _ HT f (alloc_body oa g v f) 0 (fun seg => ((4, rp (g f) + seg), v f))).
        + by apply Hlk.
        + apply elem_of_list_lookup_2 with 2. done.
      - intros c Hc. rewrite Hnotput.
        + rewrite Hm0, Hc0 by done. done.
        + intros f Hf. split; intros E; injection E as E; [destruct Hoa; lia|done].
      - intros i x H0 H1 H4. rewrite Hnotput.
        + rewrite Hc1 by done. destruct (mget m (i, x)); simpl; [|done]. by rewrite Nat.add_0_r.
        + intros f Hf. split; intros E; injection E as E; congruence.
      - intros x Hx. rewrite Hnotput.
        + rewrite Hc1 by done. destruct (mget m (4, x)); simpl; [|done]. by rewrite Nat.add_0_r.
        + intros f Hf. split; intros E; injection E as E; [destruct Hoa; lia|]. by apply (Hx f Hf).
      - apply (tk_shape _ _ _ _ HT).
      - done. }
    destruct (ticket_exec m bodies Hok e) as [Hex Hall]. split.
    - destruct Hex as [m' Hm']. exists m'. by apply Htf.
    - intros r Hr. apply Htf in Hr. destruct (decide (e = SerialExecutor)) as [He|He].
      + rewrite He in Hr. destruct (ticket_serial m bodies Hok r Hr) as (m' & tk & -> & HT & Hs).
        exists m', (fun f => tk f 0). split; [done|]. apply Hpost; [done|].
        intros _ f f' Hff Hf' E.
        apply (Hs f (alloc_body oa g v f) 0 f' (alloc_body oa g v f') 0 (0, g f)).
        * apply Hlk. split; [lia|done].
        * done.
        * by apply Hlk.
        * by rewrite E.
        * done.
      + destruct (Hall r Hr) as (m' & -> & tk & HT).
        exists m', (fun f => tk f 0). split; [done|]. by apply Hpost.
  Qed.
End alloc.

(** * Composition *)
Definition goodp {A} (p : option A -> Prop) (Q : A -> Prop) : Prop :=
  (exists a, p (Some a)) /\ forall x, p x -> exists a, x = Some a /\ Q a.
Definition good {B} (k : outcome B -> Prop) (R : B -> Prop) : Prop :=
  (exists b, k (Ok b)) /\ forall r, k r -> exists b, r = Ok b /\ R b.

Lemma good_ubind {A B} (p : option A -> Prop) (k : A -> outcome B -> Prop) Q R :
  goodp p Q -> (forall a, Q a -> good (k a) R) -> good (ubind p k) R.
Proof.
  intros [[a Ha] Hp] Hk. split.
  - destruct (Hp _ Ha) as (a' & E & HQ). injection E as <-.
    destruct (Hk a HQ) as [[b Hb] _]. exists b. right. eauto.
  - intros r [[Hn _]|(a' & Ha' & Hr)].
    + by destruct (Hp _ Hn) as (? & ? & _).
    + destruct (Hp _ Ha') as (a2 & E & HQ). injection E as <-. by apply (Hk a' HQ).
Qed.

Lemma good_weaken {B} (k : outcome B -> Prop) (R R' : B -> Prop) :
  good k R -> (forall b, R b -> R' b) -> good k R'.
Proof.
  intros [He Hr] Hi. split; [done|]. intros r H. destruct (Hr r H) as (b & -> & HR). eauto.
Qed.

Lemma shape_lookup (m : imem) i n : shape m !! i = Some n -> exists arr, m !! i = Some arr /\ length arr = n.
Proof.
  unfold shape. rewrite list_lookup_fmap. intros H. apply fmap_Some in H as (arr & H & ->). eauto.
Qed.

Lemma mem_ext (m m' : imem) : shape m = shape m' -> (forall a, mget m a = mget m' a) -> m = m'.
Proof.
  intros Hs Ha. apply list_eq. intros i.
  destruct (m !! i) as [x|] eqn:E1, (m' !! i) as [y|] eqn:E2.
  - f_equal. apply list_eq. intros j. specialize (Ha (i, j)). unfold mget in Ha. simpl in Ha.
    rewrite E1, E2 in Ha. done.
  - assert (shape m !! i = shape m' !! i) as E by (by rewrite Hs). unfold shape in E.
    rewrite !list_lookup_fmap, E1, E2 in E. done.
  - assert (shape m !! i = shape m' !! i) as E by (by rewrite Hs). unfold shape in E.
    rewrite !list_lookup_fmap, E1, E2 in E. done.
  - done.
Qed.

(** * Counting phase *)
Lemma incr_phase e start stop k (body : nat -> list tinstr) m :
  (forall i, i < stop - start -> k (start + i) = Some (body i)) ->
  (forall i ins, i < stop - start -> ins ∈ body i -> exists a, ins = TFetch a /\ in_shape (shape m) a) ->
  goodp (tfor e start stop k m) (fun m' => shape m' = shape m /\
    forall a, mget m' a = (fun x => x + sum_list (map (fun i => cnt1 a (body i)) (seq 0 (stop - start)))) <$> mget m a).
Proof.
  intros Hk Hb. set (bodies := map body (seq 0 (stop - start))).
  assert (Hlk : forall i b, bodies !! i = Some b <-> i < stop - start /\ b = body i)
    by (intros; apply bodies_lookup).
  assert (Hnp : forall i b j f, bodies !! i = Some b -> TPut j f ∈ b -> False).
  { intros i b j f H1 Hp. apply Hlk in H1 as [Hi ->]. by destruct (Hb i _ Hi Hp) as (a & ? & _). }
  assert (Hok : ticket_ok m bodies).
  { constructor.
    - intros i b p ins H1 Hp. apply Hlk in H1 as [Hi ->].
      destruct (Hb i ins Hi) as (a & -> & Ha); [by eapply elem_of_list_lookup_2|]. done.
    - intros i p j f c t (b & H1 & H2 & _). destruct (Hnp i b j f H1). by eapply elem_of_list_lookup_2.
    - intros i p j f c t i' p' j' f' c' t' (b & H1 & H2 & _). destruct (Hnp i b j f H1).
      by eapply elem_of_list_lookup_2. }
  destruct (ticket_exec m bodies Hok e) as [[m' Hm'] Hall]. split.
  - exists m'. by apply (tfor_bodies e start stop k body).
  - intros x Hx. apply (tfor_bodies e start stop k body) in Hx; [|done].
    destruct (Hall x Hx) as (m1 & -> & tk & HT). exists m1. split; [done|].
    split; [apply (tk_shape _ _ _ _ HT)|]. intros a. rewrite (tk_rest _ _ _ _ HT).
    + unfold bodies. by rewrite cnt_bodies.
    + intros i b j f H1 H2. by destruct (Hnp i b j f H1 H2).
Qed.

Lemma ifill_good e v arr : goodp (ifill e v arr) (fun z => z = replicate (length arr) v).
Proof.
  split.
  - apply set_exec_exists; [lia|lia|eauto].
  - intros x Hx. apply set_exec in Hx as (s' & -> & Hl & Hs); [|lia|lia|eauto].
    exists s'. split; [done|]. apply list_eq. intros i. rewrite Hs.
    destruct (decide (0 <= i < length arr)) as [H|H].
    + symmetry. apply lookup_replicate. lia.
    + rewrite !lookup_ge_None_2; [done| |].
      * rewrite replicate_length. lia.
      * lia.
Qed.

Lemma cnt1_two (a x y : iaddr) :
  cnt1 a [TFetch x; TFetch y] = (if bool_decide (x = a) then 1 else 0) + (if bool_decide (y = a) then 1 else 0).
Proof.
  unfold cnt1. assert (fetches [TFetch x; TFetch y] = [x; y]) as -> by done.
  destruct (decide (x = a)) as [->|H1].
  - rewrite filter_cons_True, bool_decide_true by done. destruct (decide (y = a)) as [->|H2].
    + rewrite filter_cons_True, bool_decide_true by done. done.
    + rewrite filter_cons_False, bool_decide_false by congruence. done.
  - rewrite filter_cons_False, (bool_decide_false (x = a)) by congruence. destruct (decide (y = a)) as [->|H2].
    + rewrite filter_cons_True, bool_decide_true by done. done.
    + rewrite filter_cons_False, bool_decide_false by congruence. done.
Qed.
Lemma cnt1_one (a x : iaddr) : cnt1 a [TFetch x] = (if bool_decide (x = a) then 1 else 0).
Proof.
  unfold cnt1. assert (fetches [TFetch x] = [x]) as -> by done.
  destruct (decide (x = a)) as [->|H1].
  - rewrite filter_cons_True, bool_decide_true by done. done.
  - rewrite filter_cons_False, (bool_decide_false (x = a)) by congruence. done.
Qed.

(** * Row layout from counts *)
Definition psum (len : nat -> nat) (c : nat) : nat := sum_list (map len (seq 0 c)).

Lemma psum_S len c : psum len (c + 1) = psum len c + len c.
Proof. unfold psum. rewrite Nat.add_1_r, seq_S, map_app, sum_list_app. simpl. lia. Qed.
Lemma psum_le len c c' : c <= c' -> psum len c <= psum len c'.
Proof.
  intros H. induction H as [|c' H IH]; [done|]. rewrite <- Nat.add_1_r, psum_S. lia.
Qed.
Lemma psum_rows len c c' : c < c' -> psum len c + len c <= psum len c'.
Proof. intros H. rewrite <- psum_S. apply psum_le. lia. Qed.
Lemma psum_take len n k : k <= n -> sum_list (take k (map len (seq 0 n))) = psum len k.
Proof.
  intros H. unfold psum. replace n with (k + (n - k)) by lia. rewrite seq_app, map_app.
  rewrite take_app_alt by (by rewrite map_length, seq_length). done.
Qed.

Section diag.
  Context (nC nI nnz : nat) (len rp : nat -> nat).
  Context (Hrows : forall c c', c < c' -> c' < nC -> rp c + len c <= rp c').
  Context (Hnnz : forall c, c < nC -> rp c + len c <= nnz).

  Definition diag_body (c : nat) : list tinstr :=
    [ TLoad (0, c);
      TPut 0 (fun n => ((3, c), uint8 n));
      TPut 0 (fun n => ((4, rp c + n), c));
      TPut 0 (fun n => ((0, c), n + 1)) ].

  Record diag_post (m m' : imem) (s0 : nat -> nat) : Prop := {
    dp_off : forall c, c < nC -> mget m' (3, c) = Some (uint8 (s0 c));
    dp_col : forall c, c < nC -> mget m' (4, rp c + s0 c) = Some c;
    dp_count : forall c, c < nC -> mget m' (0, c) = Some (s0 c + 1);
    dp_other : forall i x, i <> 0 -> i <> 3 -> i <> 4 -> mget m' (i, x) = mget m (i, x);
    dp_col_other : forall x, (forall c, c < nC -> x <> rp c + s0 c) -> mget m' (4, x) = mget m (4, x);
    dp_shape : shape m' = shape m;
  }.

  Lemma diag_phase e m s0 k :
    shape m = sp_shape nC nI nnz ->
    (forall c, c < nC -> mget m (0, c) = Some (s0 c)) ->
    (forall c, c < nC -> s0 c < len c) ->
    (forall c, c < nC -> k c = Some (diag_body c)) ->
    goodp (tfor e 0 nC k m) (fun m' => diag_post m m' s0).
  Proof using Hrows Hnnz.
    intros Hsh Hm0 Hlen Hk.
    set (A := fun (c : nat) (x : iaddr) => c < nC /\ (x = (0, c) \/ x = (3, c) \/ x = (4, rp c + s0 c))).
    set (m1 := fun c => mset m (3, c) (uint8 (s0 c))).
    set (m2 := fun c => mset (m1 c) (4, rp c + s0 c) c).
    set (m3 := fun c => mset (m2 c) (0, c) (s0 c + 1)).
    assert (Hs1 : forall c, shape (m1 c) = shape m) by (intros c; apply shape_mset).
    assert (Hs2 : forall c, shape (m2 c) = shape m) by (intros c; unfold m2; rewrite shape_mset; apply Hs1).
    assert (Hs3 : forall c, shape (m3 c) = shape m) by (intros c; unfold m3; rewrite shape_mset; apply Hs2).
    assert (Hi0 : forall c, c < nC -> in_shape (shape m) (0, c)) by (intros c Hc; rewrite Hsh; by exists nC).
    assert (Hi3 : forall c, c < nC -> in_shape (shape m) (3, c)) by (intros c Hc; rewrite Hsh; by exists nC).
    assert (Hi4 : forall c, c < nC -> in_shape (shape m) (4, rp c + s0 c)).
    { intros c Hc. rewrite Hsh. exists nnz. split; [done|]. simpl.
      pose proof (Hlen c Hc). pose proof (Hnnz c Hc). lia. }
    assert (Hput : forall c (a : iaddr) v (ma mb : imem), A c a -> in_shape (shape ma) a -> agree (A c) mb ma ->
       agree (A c) (mset mb a v) (mset ma a v)).
    { intros c a v ma mb Ha Hin [E1 E2]. split; [by rewrite !shape_mset|]. intros x Hx.
      destruct (decide (x = a)) as [->|Hne].
      - rewrite !mget_mset_eq by congruence. done.
      - rewrite !mget_mset_ne by done. by apply E2. }
    assert (Hdis : forall i j x, A i x -> A j x -> i = j).
    { intros i j x [Hi H1] [Hj H2].
      destruct H1 as [->|[->| ->]]; destruct H2 as [E|[E|E]]; try congruence.
      injection E as E. destruct (row_inj nC len rp Hrows i j (s0 i) (s0 j)) as [? _]; auto. }
    pose proof (private_exec (L := list nat) A m3 Hdis (map tthread (map diag_body (seq 0 nC))) m) as Hpe.
    assert (Hconf : forall i l acts, map tthread (map diag_body (seq 0 nC)) !! i = Some (l, acts) ->
               confined (A i) m l acts (m3 i)).
    { intros c l acts Hl. change (map tthread ?l) with (tthread <$> l) in Hl.
      rewrite list_lookup_fmap in Hl. apply fmap_Some in Hl as (b & Hb & E).
      apply bodies_lookup in Hb as [Hc ->]. injection E as -> ->.
      assert (A0 : A c (0, c)) by (split; auto).
      assert (A3 : A c (3, c)) by (split; auto).
      assert (A4 : A c (4, rp c + s0 c)) by (split; auto).
      simpl. exists m, [s0 c]. split; [done|]. split.
      { intros m' [E1 E2]. exists m'. rewrite (E2 _ A0), Hm0 by done. done. }
      exists (m1 c), [s0 c]. split; [done|]. split.
      { intros m' Hag. exists (mset m' (3, c) (uint8 (s0 c))). simpl.
        destruct (mget_is_Some m' (3, c)) as [x Hx]. { destruct Hag as [-> _]. auto. }
        rewrite Hx. split; [done|]. split; [by apply Hput; auto|].
        intros y Hy. apply mget_mset_ne. intros <-. by apply Hy. }
      exists (m2 c), [s0 c]. split; [unfold m2; by rewrite shape_mset|]. split.
      { intros m' Hag. exists (mset m' (4, rp c + s0 c) c). simpl.
        destruct (mget_is_Some m' (4, rp c + s0 c)) as [x Hx]. { destruct Hag as [-> _]. rewrite Hs1. auto. }
        rewrite Hx. split; [done|]. split; [apply Hput; auto; rewrite Hs1; auto|].
        intros y Hy. apply mget_mset_ne. intros <-. by apply Hy. }
      exists (m3 c), [s0 c]. split; [unfold m3; by rewrite shape_mset|]. split; [|done].
      intros m' Hag. exists (mset m' (0, c) (s0 c + 1)). simpl.
      destruct (mget_is_Some m' (0, c)) as [x Hx]. { destruct Hag as [-> _]. rewrite Hs2. auto. }
      rewrite Hx. split; [done|]. split; [apply Hput; auto; rewrite Hs2; auto|].
      intros y Hy. apply mget_mset_ne. intros <-. by apply Hy. }
    assert (Htf : forall r, tfor e 0 nC k m r <-> exec_result e (map tthread (map diag_body (seq 0 nC))) m r).
    { intros r. rewrite <- (Nat.sub_0_r nC) at 2. apply tfor_bodies. intros i Hi. simpl. apply Hk. lia. }
    destruct (Hpe Hconf e) as [[m' Hm'] Hall]. split.
    - exists m'. by apply Htf.
    - intros x Hx. apply Htf in Hx. destruct (Hall x Hx) as (mf & -> & Hshf & Hin & Hout).
      rewrite !map_length, seq_length in Hin, Hout.
      exists mf. split; [done|]. constructor.
      + intros c Hc. rewrite (Hin c (3, c)); [|done|split; auto].
        unfold m3, m2, m1. rewrite !mget_mset_ne by done. rewrite mget_mset_eq by auto. done.
      + intros c Hc. rewrite (Hin c (4, rp c + s0 c)); [|done|split; auto].
        unfold m3, m2. rewrite !mget_mset_ne by done. rewrite mget_mset_eq; [done|]. rewrite Hs1. auto.
      + intros c Hc. rewrite (Hin c (0, c)); [|done|split; auto].
        unfold m3. rewrite mget_mset_eq; [done|]. rewrite Hs2. auto.
      + intros i x' H0 H3 H4. apply Hout. intros c Hc [_ [E|[E|E]]]; congruence.
      + intros x' Hx'. apply Hout. intros c Hc [_ [E|[E|E]]]; try congruence.
        injection E as E. by apply (Hx' c).
      + done.
  Qed.
End diag.
