(** Schedule independence for commuting kernels. *)
From Verif Require Import Base Par.

Section confluence.
  Context {S L : Type}.
  Implicit Types (s : S) (l : L) (a b : action S L) (ts : list (thread S L)).

  Definition total (Inv : S -> Prop) a : Prop :=
    forall s l, Inv s -> exists s' l', a s l = Some (s', l') /\ Inv s'.

  (** Two actions give the same memory and registers in either order. *)
  Definition commute (Inv : S -> Prop) a b : Prop :=
    forall s la lb, Inv s ->
      exists sa la' sb lb' sab,
        a s la = Some (sa, la') /\ b s lb = Some (sb, lb') /\
        b sa lb = Some (sab, lb') /\ a sb la = Some (sab, la').

  Definition all_total Inv ts : Prop :=
    forall i th a, ts !! i = Some th -> a ∈ th.2 -> total Inv a.
  Definition all_commute Inv ts : Prop :=
    forall i j ti tj a b, i <> j -> ts !! i = Some ti -> ts !! j = Some tj ->
      a ∈ ti.2 -> b ∈ tj.2 -> commute Inv a b.

  Context (Inv : S -> Prop).

  Lemma run_thread_total acts : forall l s,
    (forall a, a ∈ acts -> total Inv a) -> Inv s ->
    exists s', run_thread l acts s = Some s' /\ Inv s'.
  Proof.
    induction acts as [|a acts IH]; intros l s Ht Hs; simpl.
    - eauto.
    - destruct (Ht a (elem_of_list_here _ _) s l Hs) as (s' & l' & Ha & Hs').
      rewrite Ha. apply IH; auto. intros a' Ha'. apply Ht. by constructor.
  Qed.

  Lemma run_thread_swap acts : forall a l la s s1 la',
    (forall b, b ∈ acts -> total Inv b) -> total Inv a ->
    (forall b, b ∈ acts -> commute Inv a b) -> Inv s ->
    a s la = Some (s1, la') ->
    exists s2 s3, run_thread l acts s = Some s2 /\ run_thread l acts s1 = Some s3 /\
      a s2 la = Some (s3, la') /\ Inv s2.
  Proof.
    induction acts as [|b acts IH]; intros a l la s s1 la' Ht Hta Hc Hs Ha; simpl.
    - exists s, s1. auto.
    - destruct (Hc b (elem_of_list_here _ _) s la l Hs)
        as (sa & la2 & sb & lb' & sab & H1 & H2 & H3 & H4).
      rewrite Ha in H1; injection H1 as <- <-.
      rewrite H2, H3.
      assert (Inv sb) as Hsb.
      { destruct (Ht b (elem_of_list_here _ _) s l Hs) as (x & y & Hx & Hy).
        rewrite H2 in Hx. by injection Hx as <- <-. }
      apply (IH a lb' la sb sab la'); auto.
      + intros c Hc'. apply Ht. by constructor.
      + intros c Hc'. apply Hc. by constructor.
  Qed.

  Lemma run_serial_front ts : forall t l a rest s s1 l1,
    all_total Inv ts -> all_commute Inv ts -> Inv s ->
    ts !! t = Some (l, a :: rest) -> a s l = Some (s1, l1) ->
    run_serial ts s = run_serial (<[t := (l1, rest)]> ts) s1.
  Proof.
    induction ts as [|[lh ah] ts IH]; intros t l a rest s s1 l1 Ht Hc Hs Hlk Ha; [done|].
    destruct t as [|t]; simpl in Hlk.
    - injection Hlk as -> ->. simpl. by rewrite Ha.
    - simpl.
      destruct (run_thread_swap ah a lh l s s1 l1) as (s2 & s3 & R2 & R3 & Ha2 & Hs2); auto.
      + intros b Hb. apply (Ht 0 (lh, ah) b); auto.
      + apply (Ht (Datatypes.S t) _ a Hlk). by constructor.
      + intros b Hb. apply (Hc (Datatypes.S t) 0 (l, a :: rest) (lh, ah)); auto. by constructor.
      + rewrite R2, R3. apply (IH t l a rest); auto.
        * intros i th b Hi. apply (Ht (Datatypes.S i) th b Hi).
        * intros i j ti tj b c Hij Hi Hj. apply (Hc (Datatypes.S i) (Datatypes.S j)); auto.
  Qed.

  Lemma shrink_lookup ts t l a rest l1 i th :
    ts !! t = Some (l, a :: rest) ->
    <[t := (l1, rest)]> ts !! i = Some th ->
    exists th0, ts !! i = Some th0 /\ forall b, b ∈ th.2 -> b ∈ th0.2.
  Proof.
    intros Ht Hi. destruct (decide (i = t)) as [->|Hne].
    - rewrite list_lookup_insert in Hi by (by apply lookup_lt_Some in Ht).
      injection Hi as <-. exists (l, a :: rest). split; [done|]. simpl. intros b Hb. by constructor.
    - rewrite list_lookup_insert_ne in Hi by auto. eauto.
  Qed.

  Lemma all_total_shrink ts t l a rest l1 :
    ts !! t = Some (l, a :: rest) -> all_total Inv ts ->
    all_total Inv (<[t := (l1, rest)]> ts).
  Proof.
    intros Ht H i th b Hi Hb.
    destruct (shrink_lookup ts t l a rest l1 i th Ht Hi) as (th0 & H0 & Hin).
    eauto.
  Qed.

  Lemma all_commute_shrink ts t l a rest l1 :
    ts !! t = Some (l, a :: rest) -> all_commute Inv ts ->
    all_commute Inv (<[t := (l1, rest)]> ts).
  Proof.
    intros Ht H i j ti tj b c Hij Hi Hj Hb Hc.
    destruct (shrink_lookup ts t l a rest l1 i ti Ht Hi) as (ti0 & Hi0 & Hini).
    destruct (shrink_lookup ts t l a rest l1 j tj Ht Hj) as (tj0 & Hj0 & Hinj).
    eapply (H i j); eauto.
  Qed.

  Lemma finished_serial ts : forall s, finished ts -> run_serial ts s = Some s.
  Proof.
    induction ts as [|[l acts] ts IH]; intros s Hf; simpl; [done|].
    inversion Hf as [|x y Hx Hy]; subst. simpl in Hx. subst acts. simpl. by apply IH.
  Qed.

  (** Any schedule is free of undefined behaviour and, once complete, has the
      effect of the serial execution. *)
  Lemma confluence sched : forall ts s,
    all_total Inv ts -> all_commute Inv ts -> Inv s ->
    exists ts' s', run sched ts s = Some (ts', s') /\ Inv s' /\
      (finished ts' -> run_serial ts s = Some s').
  Proof.
    induction sched as [|t sched IH]; intros ts s Ht Hc Hs; simpl.
    - exists ts, s. repeat split; auto. by apply finished_serial.
    - destruct (ts !! t) as [[l [|a rest]]|] eqn:Hlk; [by apply IH| |by apply IH].
      destruct (Ht t _ a Hlk (elem_of_list_here _ _) s l Hs) as (s1 & l1 & Ha & Hs1).
      rewrite Ha.
      destruct (IH (<[t := (l1, rest)]> ts) s1) as (ts' & s' & Hr & Hi & Hf); auto.
      + eapply all_total_shrink; eauto.
      + eapply all_commute_shrink; eauto.
      + exists ts', s'. repeat split; auto. intros Hfin.
        rewrite <- (Hf Hfin). eapply run_serial_front; eauto.
  Qed.

  Lemma confluence_safe ts s :
    all_total Inv ts -> all_commute Inv ts -> Inv s -> par_safe ts s.
  Proof.
    intros Ht Hc Hs sched. destruct (confluence sched ts s Ht Hc Hs) as (? & ? & -> & _). done.
  Qed.

  Lemma confluence_result ts s s' :
    all_total Inv ts -> all_commute Inv ts -> Inv s ->
    par_result ts s s' -> run_serial ts s = Some s'.
  Proof.
    intros Ht Hc Hs (sched & ts' & Hr & Hf).
    destruct (confluence sched ts s Ht Hc Hs) as (ts2 & s2 & Hr2 & _ & Hfin).
    rewrite Hr in Hr2. injection Hr2 as <- <-. auto.
  Qed.
End confluence.

(** The serial execution is one of the parallel ones. *)
Section serial_is_parallel.
  Context {S L : Type}.
  Implicit Types (ts : list (thread S L)).

  Lemma run_app sched1 sched2 : forall ts (s : S),
    run (sched1 ++ sched2) ts s =
    match run sched1 ts s with
    | Some (ts', s') => run sched2 ts' s'
    | None => None
    end.
  Proof.
    induction sched1 as [|t sched1 IH]; intros ts s; simpl; [done|].
    destruct (ts !! t) as [[l [|a rest]]|]; auto.
    destruct (a s l) as [[s' l']|]; auto.
  Qed.

  Lemma run_one_thread acts : forall (pre : list (thread S L)) (l : L) post (s s' : S),
    run_thread l acts s = Some s' ->
    exists l' : L, run (replicate (length acts) (length pre)) (pre ++ (l, acts) :: post) s
      = Some (pre ++ (l', []) :: post, s').
  Proof.
    induction acts as [|a acts IH]; intros pre l post s s' H; simpl in *.
    - injection H as ->. eauto.
    - rewrite list_lookup_middle by done.
      destruct (a s l) as [[s1 l1]|] eqn:Ha; [|done].
      replace (<[length pre := (l1, acts)]> (pre ++ (l, a :: acts) :: post))
        with (pre ++ (l1, acts) :: post).
      + by apply IH.
      + rewrite <- (Nat.add_0_r (length pre)) at 1. rewrite insert_app_r. done.
  Qed.

  Lemma serial_par_gen ts : forall pre (s s' : S),
    run_serial ts s = Some s' -> finished pre ->
    exists sched ts', run sched (pre ++ ts) s = Some (ts', s') /\ finished ts'.
  Proof.
    induction ts as [|[l acts] ts IH]; intros pre s s' H Hp; simpl in H.
    - injection H as ->. exists [], pre. rewrite app_nil_r. done.
    - destruct (run_thread l acts s) as [s1|] eqn:H1; [|done].
      destruct (run_one_thread acts pre l ts s s1 H1) as [l' Hr].
      destruct (IH (pre ++ [(l', [])]) s1 s' H) as (sched & ts' & Hr' & Hf).
      + apply Forall_app. split; [done|]. by constructor.
      + exists (replicate (length acts) (length pre) ++ sched), ts'.
        rewrite <- app_assoc in Hr'. simpl in Hr'.
        rewrite run_app. unfold thread in *. rewrite Hr. done.
  Qed.

  Lemma serial_par ts (s s' : S) : run_serial ts s = Some s' -> par_result ts s s'.
  Proof. intros H. apply (serial_par_gen ts [] s s' H). by constructor. Qed.
End serial_is_parallel.
