(** On the serial executor the sparsity pattern of a mesh is a function of the
    mesh. *)
From Verif Require Import Base Par Exec ExecProofs Reduce ReduceProofs Kernel Ticket Mesh Sparsity.

Lemma segments_det intervals offsets c1 o1 c2 o2 :
  scan_plan (length intervals) c1 o1 -> scan_plan (length intervals) c2 o2 ->
  segmentsFromIntervals intervals offsets c1 o1 = segmentsFromIntervals intervals offsets c2 o2.
Proof.
  intros H1 H2. destruct offsets as [|x offs]; [done|].
  destruct (decide (length offs = length intervals)) as [E|E].
  - destruct (segments_ok intervals x offs c1 o1 H1 E) as (l1 & -> & L1 & P1).
    destruct (segments_ok intervals x offs c2 o2 H2 E) as (l2 & -> & L2 & P2).
    do 3 f_equal. apply (list_eq_same_length l1 l2 (length intervals)); [done|done|].
    intros i a b Hi Ha Hb. rewrite P1 in Ha by done. rewrite P2 in Hb by done. congruence.
  - unfold segmentsFromIntervals. rewrite (proj2 (Nat.eqb_neq _ _)); [done|congruence].
Qed.

Lemma ubind_det {A B} (p : option A -> Prop) (k : A -> outcome B -> Prop) r r' :
  (forall x y, p x -> p y -> x = y) -> (forall a x y, k a x -> k a y -> x = y) ->
  ubind p k r -> ubind p k r' -> r = r'.
Proof.
  intros Hp Hk [[H1 ->]|(a & H1 & H2)] [[G1 ->]|(b & G1 & G2)]; [done| | |].
  - pose proof (Hp _ _ H1 G1). discriminate.
  - pose proof (Hp _ _ H1 G1). discriminate.
  - pose proof (Hp _ _ H1 G1) as E. injection E as <-. by apply (Hk a).
Qed.
Lemma tfor_det a b k m x y : tfor SerialExecutor a b k m x -> tfor SerialExecutor a b k m y -> x = y.
Proof. unfold tfor, exec_result. congruence. Qed.

Lemma sp_update_serial_det m p r r' : sp_update SerialExecutor m p r -> sp_update SerialExecutor m p r' -> r = r'.
Proof.
  unfold sp_update. apply ubind_det; [intros x y; apply tfor_det|].
  intros m1 x y. destruct m1 as [|counts [|nOff [|oOff [|dOff [|cols [|? ?]]]]]]; try (intros -> ->; done).
  intros (c1 & o1 & P1 & H1) (c2 & o2 & P2 & H2). rewrite (segments_det _ _ c2 o2 c1 o1 P2 P1) in H2.
  destruct (segmentsFromIntervals counts (sp_rowPtrs p) c1 o1) as [[t rp]|?| |]; try congruence.
  revert H1 H2. apply ubind_det; [unfold ifill, exec_result; congruence|]. intros z u v.
  apply ubind_det; [intros ? ?; apply tfor_det|]. intros m2 u' v'.
  apply ubind_det; [intros ? ?; apply tfor_det|]. intros m3 u2 v2.
  apply ubind_det; [intros ? ?; apply tfor_det|]. intros m4 u3 v3.
  destruct m4 as [|? [|? [|? [|? [|? [|? ?]]]]]]; congruence.
Qed.
Lemma sp_create_serial_det m r r' : sp_create SerialExecutor m r -> sp_create SerialExecutor m r' -> r = r'.
Proof. apply sp_update_serial_det. Qed.
