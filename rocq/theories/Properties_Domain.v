(** C110: domain fields and volume fields as objects: construction, copy, move,
    assignment, destruction. *)
From stdpp Require Import gmap strings.
From Verif Require Import Base Exec FieldMem FieldMemProofs DomainMem DomainSpec DomainMemProofs.

(** ** Every history of domain fields *)
(** Whatever objects a program creates, copies, moves, assigns, writes to and
    destroys, each array of each object holds what it holds when domain fields
    are plain values (DomainSpec), there is no undefined behaviour, and the
    program stops exactly when an assignment pairs arrays of different executors. *)
Theorem C110_value_semantics : forall V (alloc0 realloc0 : bool) (h : list (dop V)),
  match drun alloc0 realloc0 empty_dmem h, dspec_run ∅ h with
  | Ok m, Some s => forall x,
      (forall k, k < 7 -> dobserve m x k =
         match s !! x with
         | Some v => (fun p => (p.1, Some p.2)) <$> dv_arr v !! k
         | None => None
         end) /\
      d_tags m !! x = dv_tags <$> s !! x
  | Exit, None => True
  | _, _ => False
  end.
Proof.
  intros V alloc0 realloc0 h. pose proof (run_inv alloc0 realloc0 h empty_dmem ∅ (inv_empty _ _)) as H.
  destruct (drun alloc0 realloc0 empty_dmem h), (dspec_run ∅ h); try done. intros x. split.
  - intros k Hk. by apply (inv_observe alloc0 realloc0).
  - by apply (inv_tags alloc0 realloc0).
Qed.
Print Assumptions C110_value_semantics.

(** ** One operation after any history *)
(** Which domain fields an operation may change. *)
Definition changes {V} (c : dop V) (x : nat) : Prop :=
  match c with
  | DNew a _ _ _ _ _ _ _ _ | DCopyTo a _ _ | DCopy a _ | DAssign a _ _ | DDestroy a | DWrite a _ _ => x = a
  | DMove a b => x = a \/ x = b
  end.

Lemma frame_step {V} (s s' : gmap nat (dvalue V)) c x : dspec_step s c = Some s' -> ~ changes c x -> s' !! x = s !! x.
Proof.
  unfold dspec_step. intros H Hc. destruct (well_scoped (dlive s) c); [|by injection H as <-].
  destruct c as [a e cells vals refs fracs grads types offs|a e y|a y|a y|a y junk|a|a k f]; cbn in Hc.
  - injection H as <-. by rewrite lookup_insert_ne by congruence.
  - destruct (s !! y); injection H as <-; [|done]. by rewrite lookup_insert_ne by congruence.
  - destruct (s !! y); injection H as <-; [|done]. by rewrite lookup_insert_ne by congruence.
  - destruct (s !! y); injection H as <-; [|done]. by rewrite !lookup_insert_ne by naive_solver.
  - destruct (s !! a) eqn:Ea; [|by injection H as <-]. destruct (s !! y); [|by injection H as <-].
    destruct (decide _); [|done]. injection H as <-. by rewrite lookup_insert_ne by congruence.
  - injection H as <-. by rewrite lookup_delete_ne by congruence.
  - destruct (s !! a); injection H as <-; [|done]. by rewrite lookup_insert_ne by congruence.
Qed.
Lemma frame_run {V} (h : list (dop V)) s s' x : dspec_run s h = Some s' -> Forall (fun c => ~ changes c x) h -> s' !! x = s !! x.
Proof.
  revert s. induction h as [|c h IH]; intros s H Hc; cbn in H; [by injection H as <-|].
  apply Forall_cons in Hc as [Hc Hh]. destruct (dspec_step s c) as [s1|] eqn:E; [|done].
  rewrite (IH s1) by done. by eapply frame_step.
Qed.

Lemma after_history {V} alloc0 realloc0 (h : list (dop V)) m :
  drun alloc0 realloc0 empty_dmem h = Ok m -> exists s, inv alloc0 realloc0 m s.
Proof.
  intros Hr. pose proof (run_inv alloc0 realloc0 h empty_dmem ∅ (inv_empty _ _)) as H. rewrite Hr in H.
  destruct (dspec_run ∅ h) as [s|]; [by exists s|done].
Qed.
Lemma live_iff {V} alloc0 realloc0 (m : dmem V) s x : inv alloc0 realloc0 m s ->
  (is_Some (d_tags m !! x) <-> exists v, s !! x = Some v).
Proof. intros Hi. rewrite (inv_tags _ _ m s Hi x), fmap_is_Some. done. Qed.

(** A domain field is changed by nothing but operations on it: not by what
    happens to the one it was copied from, nor to copies made of it. *)
Theorem C110_independent : forall V (alloc0 realloc0 : bool) (h h' : list (dop V)) m m' x,
  drun alloc0 realloc0 empty_dmem h = Ok m -> drun alloc0 realloc0 m h' = Ok m' ->
  Forall (fun c => ~ changes c x) h' ->
  (forall k, k < 7 -> dobserve m' x k = dobserve m x k) /\ d_tags m' !! x = d_tags m !! x.
Proof.
  intros V alloc0 realloc0 h h' m m' x Hm Hm' Hc. destruct (after_history _ _ _ _ Hm) as [s Hi].
  pose proof (run_inv alloc0 realloc0 h' m s Hi) as H. rewrite Hm' in H.
  destruct (dspec_run s h') as [s'|] eqn:E; [|done]. pose proof (frame_run h' s s' x E Hc) as Hx. split.
  - intros k Hk. rewrite (inv_observe _ _ m' s' H), (inv_observe _ _ m s Hi) by done. by rewrite Hx.
  - rewrite (inv_tags _ _ m' s' H), (inv_tags _ _ m s Hi). by rewrite Hx.
Qed.
Print Assumptions C110_independent.

(** A copy has every array of the original, internal and boundary, on the same
    executors, and the same reported executor and sizes. *)
Theorem C110_copy : forall V (alloc0 realloc0 : bool) (h : list (dop V)) m x y,
  drun alloc0 realloc0 empty_dmem h = Ok m -> d_tags m !! x = None -> is_Some (d_tags m !! y) ->
  exists m', drun alloc0 realloc0 m [DCopy x y] = Ok m' /\
    (forall k, k < 7 -> dobserve m' x k = dobserve m y k) /\ d_tags m' !! x = d_tags m !! y.
Proof.
  intros V alloc0 realloc0 h m x y Hm Hx Hy. destruct (after_history _ _ _ _ Hm) as [s Hi].
  destruct (proj1 (live_iff alloc0 realloc0 m s y Hi) Hy) as [v Hv].
  assert (s !! x = None) as Hx' by (rewrite (inv_tags _ _ m s Hi) in Hx; by destruct (s !! x)).
  pose proof (run_inv alloc0 realloc0 [DCopy x y] m s Hi) as H. cbn [dspec_run] in H.
  unfold dspec_step in H. cbn [well_scoped] in H. unfold dlive in H.
  rewrite bool_decide_eq_false_2 in H by (rewrite Hx'; by intros [? ?]).
  rewrite bool_decide_eq_true_2 in H by (by rewrite Hv). cbn [negb andb] in H. rewrite Hv in H.
  destruct (drun alloc0 realloc0 m [DCopy x y]) as [m'| | |]; try done. exists m'. split; [done|]. split.
  - intros k Hk. rewrite (inv_observe _ _ m' _ H), (inv_observe _ _ m s Hi) by done. by rewrite lookup_insert, Hv.
  - rewrite (inv_tags _ _ m' _ H), (inv_tags _ _ m s Hi). by rewrite lookup_insert, Hv.
Qed.
Print Assumptions C110_copy.

(** Assignment: when each array is on the executor of its counterpart, every
    array takes the counterpart's contents and length; the reported executor of
    the domain field stays, that of its boundary data is taken over.  When some
    array is not, the program stops. *)
Theorem C110_assign : forall V (alloc0 realloc0 : bool) (h : list (dop V)) m x y junk tx ty,
  drun alloc0 realloc0 empty_dmem h = Ok m -> d_tags m !! x = Some tx -> d_tags m !! y = Some ty ->
  ((forall k, k < 7 -> fst <$> dobserve m x k = fst <$> dobserve m y k) ->
   exists m', drun alloc0 realloc0 m [DAssign x y junk] = Ok m' /\
     (forall k, k < 7 -> dobserve m' x k = dobserve m y k) /\
     d_tags m' !! x = Some (DTags (t_exec tx) (t_bexec ty) (t_nB ty) (t_nF ty))) /\
  ((exists k, k < 7 /\ fst <$> dobserve m x k <> fst <$> dobserve m y k) ->
   drun alloc0 realloc0 m [DAssign x y junk] = Exit).
Proof.
  intros V alloc0 realloc0 h m x y junk tx ty Hm Hx Hy. destruct (after_history _ _ _ _ Hm) as [s Hi].
  pose proof (inv_tags _ _ m s Hi x) as Tx. pose proof (inv_tags _ _ m s Hi y) as Ty. rewrite Hx in Tx. rewrite Hy in Ty.
  destruct (s !! x) as [v|] eqn:Ev; [|done]. destruct (s !! y) as [w|] eqn:Ew; [|done].
  cbn in Tx, Ty. injection Tx as ->. injection Ty as ->.
  assert (forall a (u : dvalue V), s !! a = Some u -> length (dv_arr u) = 7) as Hlen by (by destruct Hi as (? & ? & _ & _ & _ & Hl & _)).
  assert (forall k, k < 7 -> (fst <$> dobserve m x k = fst <$> dobserve m y k <-> fst <$> dv_arr v !! k = fst <$> dv_arr w !! k)) as Hf.
  { intros k Hk. rewrite !(inv_observe _ _ m s Hi), Ev, Ew by done. by destruct (dv_arr v !! k), (dv_arr w !! k). }
  assert ((forall k, k < 7 -> fst <$> dv_arr v !! k = fst <$> dv_arr w !! k) <-> map fst (dv_arr v) = map fst (dv_arr w)) as Hall.
  { split.
    - intros Ha. apply list_eq. intros k. change (map fst (dv_arr v)) with (fst <$> dv_arr v). change (map fst (dv_arr w)) with (fst <$> dv_arr w).
      rewrite !list_lookup_fmap. destruct (decide (k < 7)) as [Hk|Hk]; [by apply Ha|].
      rewrite (lookup_ge_None_2 (dv_arr v) k), (lookup_ge_None_2 (dv_arr w) k); [done|rewrite (Hlen y w Ew); lia|rewrite (Hlen x v Ev); lia].
    - intros Heq k _. rewrite <- !list_lookup_fmap. exact (f_equal (fun l => l !! k) Heq). }
  pose proof (run_inv alloc0 realloc0 [DAssign x y junk] m s Hi) as H. cbn [dspec_run] in H.
  unfold dspec_step in H. cbn [well_scoped] in H. unfold dlive in H.
  rewrite !bool_decide_eq_true_2 in H by (rewrite ?Ev, ?Ew; by eexists). cbn [andb] in H. rewrite Ev, Ew in H.
  split.
  - intros Ha. rewrite decide_True in H by (apply Hall; intros k Hk; by apply Hf, Ha).
    destruct (drun alloc0 realloc0 m [DAssign x y junk]) as [m'| | |]; try done. exists m'. split; [done|]. split.
    + intros k Hk. rewrite (inv_observe _ _ m' _ H), (inv_observe _ _ m s Hi) by done. by rewrite lookup_insert, Ew.
    + rewrite (inv_tags _ _ m' _ H). by rewrite lookup_insert.
  - intros (k & Hk & Hne). rewrite decide_False in H.
    + by destruct (drun alloc0 realloc0 m [DAssign x y junk]).
    + intros Heq. apply Hne, Hf; [done|]. by apply Hall.
Qed.
Print Assumptions C110_assign.

(** Moving from a domain field: the new one has all its arrays; the old one is
    left with an empty internal field but with all its boundary arrays (they are
    copied, not moved), so it is no longer consistent in size. *)
Theorem C110_move : forall V (alloc0 realloc0 : bool) (h : list (dop V)) m x y,
  drun alloc0 realloc0 empty_dmem h = Ok m -> d_tags m !! x = None -> is_Some (d_tags m !! y) ->
  exists m', drun alloc0 realloc0 m [DMove x y] = Ok m' /\
    (forall k, k < 7 -> dobserve m' x k = dobserve m y k) /\
    (exists e, dobserve m' y 0 = Some (e, Some [])) /\
    (forall k, 0 < k < 7 -> dobserve m' y k = dobserve m y k).
Proof.
  intros V alloc0 realloc0 h m x y Hm Hx Hy. destruct (after_history _ _ _ _ Hm) as [s Hi].
  destruct (proj1 (live_iff alloc0 realloc0 m s y Hi) Hy) as [v Hv].
  assert (s !! x = None) as Hx' by (rewrite (inv_tags _ _ m s Hi) in Hx; by destruct (s !! x)).
  assert (x <> y) as Hxy by congruence.
  pose proof (run_inv alloc0 realloc0 [DMove x y] m s Hi) as H. cbn [dspec_run] in H.
  unfold dspec_step in H. cbn [well_scoped] in H. unfold dlive in H.
  rewrite bool_decide_eq_false_2 in H by (rewrite Hx'; by intros [? ?]).
  rewrite bool_decide_eq_true_2 in H by (by rewrite Hv). cbn [negb andb] in H. rewrite Hv in H.
  assert (length (dv_arr v) = 7) as Hl by (destruct Hi as (? & ? & _ & _ & _ & Hl & _); by eapply Hl).
  destruct (drun alloc0 realloc0 m [DMove x y]) as [m'| | |]; try done. exists m'. split; [done|]. split; [|split].
  - intros k Hk. rewrite (inv_observe _ _ m' _ H), (inv_observe _ _ m s Hi) by done.
    rewrite lookup_insert_ne by done. by rewrite lookup_insert, Hv.
  - rewrite (inv_observe _ _ m' _ H) by lia. rewrite lookup_insert. cbn [dv_arr].
    destruct (dv_arr v) as [|[e d] r]; [done|]. by exists e.
  - intros k Hk. rewrite (inv_observe _ _ m' _ H), (inv_observe _ _ m s Hi) by lia. rewrite lookup_insert, Hv. cbn [dv_arr].
    destruct (dv_arr v) as [|[e d] r]; [done|]. destruct k; [lia|]. done.
Qed.
Print Assumptions C110_move.

(** No array of one domain field shares memory with another array, of the same or
    of another domain field. *)
Theorem C110_no_sharing : forall V (alloc0 realloc0 : bool) (h : list (dop V)) m x k y j o o' a,
  drun alloc0 realloc0 empty_dmem h = Ok m -> k < 7 -> j < 7 ->
  objs (d_mem m) !! (7 * x + k) = Some o -> objs (d_mem m) !! (7 * y + j) = Some o' ->
  o_ptr o = Some a -> o_ptr o' = Some a -> x = y /\ k = j.
Proof.
  intros V alloc0 realloc0 h m x k y j o o' a Hm Hk Hj Ho Ho' Ha Ha'. destruct (after_history _ _ _ _ Hm) as [s Hi].
  destruct Hi as (h0 & σ & Hr & _). pose proof (history_owner alloc0 realloc0 h0 _ _ _ _ _ _ Hr Ho Ho' Ha Ha'). lia.
Qed.
Print Assumptions C110_no_sharing.

(** Destroying every domain field releases every block (when requests of size 0
    yield null pointers; compare C58). *)
Theorem C110_no_leak : forall V (h : list (dop V)) m,
  drun false false empty_dmem h = Ok m -> d_tags m = ∅ -> heap (d_mem m) = ∅.
Proof.
  intros V h m Hm Ht. destruct (after_history _ _ _ _ Hm) as [s Hi]. pose proof (inv_tags _ _ m s Hi) as Tg.
  destruct Hi as (h0 & σ & Hr & Hs & Hσ & _ & _).
  apply map_eq. intros a. rewrite lookup_empty. destruct (heap (d_mem m) !! a) as [d|] eqn:E; [|done]. exfalso.
  destruct (no_leak_history h0 _ Hr a) as (z & o & Hz & Ho); [by rewrite E|].
  pose proof (history_values false false h0) as HV. rewrite Hr, Hs in HV. specialize (HV z). unfold observe in HV. rewrite Hz in HV.
  rewrite (Nat.div_mod_eq z 7) in HV. rewrite Hσ in HV by (apply Nat.mod_upper_bound; lia).
  specialize (Tg (z / 7)). rewrite Ht, lookup_empty in Tg. by destruct (s !! (z / 7)).
Qed.
Print Assumptions C110_no_leak.

(** ** Not vacuous: a history that copies, writes to the copy, moves, assigns *)
Definition sample_domain : list (dop nat) :=
  [DNew 0 SerialExecutor [1; 2; 3] [10; 20] [0; 0] [0; 0] [0; 0] [7; 7] [0; 1; 2];
   DCopy 1 0; DWrite 1 0 (fun _ v => v + 100); DWrite 1 1 (fun _ v => v + 5);
   DMove 2 1; DNew 3 SerialExecutor [9] [] [] [] [] [] [0]; DAssign 3 2 (fun _ _ => 0); DDestroy 1].
Example C110_nonvacuous :
  match drun false true empty_dmem sample_domain with Ok m =>
  dobserve m 0 0 = Some (SerialExecutor, Some [1; 2; 3]) /\
  dobserve m 0 1 = Some (SerialExecutor, Some [10; 20]) /\
  dobserve m 3 0 = Some (SerialExecutor, Some [101; 102; 103]) /\
  dobserve m 3 1 = Some (SerialExecutor, Some [15; 25]) /\
  d_tags m !! 3 = Some (DTags SerialExecutor SerialExecutor 2 2) /\ d_tags m !! 1 = None
  | _ => False end.
Proof. vm_compute. repeat split. Qed.
Example C110_stops : drun false true empty_dmem
  [DNew 0 SerialExecutor [1] [] [] [] [] [] [0]; DCopyTo 1 CPUExecutor 0; DAssign 1 0 (fun _ _ => 0)] = Exit.
Proof. vm_compute. reflexivity. Qed.
