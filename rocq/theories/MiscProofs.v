From Verif Require Import Base Misc.

Lemma view_sticky size idxs fi : fi <> 0 -> view_accesses false size fi idxs = Ok fi.
Proof.
  intros Hf. induction idxs as [|i idxs IH]; simpl; [done|].
  unfold view_access. destruct (Nat.leb size i); simpl; [|done].
  destruct (Nat.eqb_spec fi 0); [done|]. done.
Qed.

Lemma view_first_bad size idxs :
  0 < size ->
  view_accesses false size 0 idxs =
    Ok (match first_bad size idxs with Some i => i | None => 0 end).
Proof.
  intros Hs. induction idxs as [|i idxs IH]; simpl; [done|].
  unfold view_access. destruct (Nat.leb_spec size i) as [H|H], (Nat.ltb_spec i size); try lia; simpl.
  - apply view_sticky. lia.
  - done.
Qed.

Lemma first_bad_spec size idxs :
  match first_bad size idxs with
  | None => forall i, i ∈ idxs -> i < size
  | Some i => i ∈ idxs /\ size <= i
  end.
Proof.
  induction idxs as [|i idxs IH]; simpl.
  - intros i Hi. by apply elem_of_nil in Hi.
  - destruct (Nat.ltb_spec i size) as [H|H].
    + destruct (first_bad size idxs) as [j|].
      * destruct IH. split; [by constructor|done].
      * intros j Hj. apply elem_of_cons in Hj as [->|Hj]; auto.
    + split; [by constructor|done].
Qed.

Lemma view_reports size idxs fi :
  0 < size -> view_accesses false size 0 idxs = Ok fi ->
  (fi = 0 <-> forall i, i ∈ idxs -> i < size) /\
  (fi <> 0 -> exists pre post, idxs = pre ++ fi :: post /\ size <= fi /\ forall i, i ∈ pre -> i < size).
Proof.
  intros Hs. rewrite view_first_bad by done. intros [= <-].
  pose proof (first_bad_spec size idxs) as H.
  destruct (first_bad size idxs) as [j|] eqn:E.
  - destruct H as [H1 H2]. split.
    + split; [lia|]. intros Hall. specialize (Hall j H1). lia.
    + intros _. clear H1. revert j E H2. induction idxs as [|i idxs IH]; intros j E H2; [done|].
      simpl in E. destruct (Nat.ltb_spec i size) as [Hi|Hi].
      * destruct (IH j E H2) as (pre & post & -> & _ & Hpre).
        exists (i :: pre), post. split; [done|]. split; [done|].
        intros k Hk. apply elem_of_cons in Hk as [->|Hk]; auto.
      * injection E as <-. exists [], idxs. split; [done|]. split; [done|].
        intros k Hk. by apply elem_of_nil in Hk.
  - split; [done|]. done.
Qed.

Lemma view_abort size idxs :
  (view_accesses true size 0 idxs = Ok 0 <-> forall i, i ∈ idxs -> i < size) /\
  (view_accesses true size 0 idxs = Exit <-> exists i, i ∈ idxs /\ size <= i).
Proof.
  induction idxs as [|i idxs [IH1 IH2]]; simpl.
  - split; split; try done.
    + intros _ i Hi. by apply elem_of_nil in Hi.
    + intros (i & Hi & _). by apply elem_of_nil in Hi.
  - unfold view_access. destruct (Nat.leb_spec size i) as [H|H]; simpl.
    + split; split; try done.
      * intros Hall. specialize (Hall i (elem_of_list_here _ _)). lia.
      * intros _. exists i. split; [by constructor|done].
    + split.
      * rewrite IH1. split.
        -- intros Hall k Hk. apply elem_of_cons in Hk as [->|Hk]; auto.
        -- intros Hall k Hk. apply Hall. by constructor.
      * rewrite IH2. split.
        -- intros (k & Hk & Hb). exists k. split; [by constructor|done].
        -- intros (k & Hk & Hb). apply elem_of_cons in Hk as [->|Hk]; [lia|eauto].
Qed.

Lemma time_loops_nth n : forall t k, k < n ->
  time_loops n t !! k = Some (Z.leb (t + Z.of_nat k + 1) 10).
Proof.
  induction n as [|n IH]; intros t k Hk; [lia|].
  destruct k as [|k]; simpl.
  - f_equal. f_equal. lia.
  - rewrite IH by lia. f_equal. f_equal. lia.
Qed.

Lemma time_exactly_ten n k : k < n -> time_loops n time_init !! k = Some (Nat.ltb k 10).
Proof.
  intros Hk. rewrite time_loops_nth by done. f_equal. unfold time_init.
  destruct (Nat.ltb_spec k 10), (Z.leb_spec (0 + Z.of_nat k + 1) 10); lia || done.
Qed.
