(** C122: the SUNDIALS vectors of the Runge-Kutta integrator as objects: what a
    handle refers to after any history of creating, copying, moving, destroying,
    giving an executor to, initialising and writing such objects. *)
From Verif Require Import Base Par Exec ExecProofs Fields FieldsProofs Value Kernel Dsl DslSpec TimeInt TimeIntProofs SkVector SkVectorProofs.
Local Open Scope nat_scope.

(** Specification.  [reads w k e data]: sunNVectorToField(k.sunNVector(), f) gives
    every field [f] on [e] of that length the values [data], whatever the schedule. *)
Definition reads (w : skWorld) (k : nat) (e : executor) (data : list Qc) : Prop :=
  forall f, length f = length data -> surely (sk_read w k e f) data.
(** Every use of the handle is undefined behaviour. *)
Definition unusable (w : skWorld) (k : nat) : Prop :=
  forall e f, (forall r, sk_read w k e f r <-> r = UB) /\ (forall r, sk_step (SkFrom k e f) w r <-> r = UB).
(** k.setExecutor(e); k.initNVector(n); fieldToSunNVector(field, k.sunNVector()) *)
Definition prepare (k : nat) (e : executor) (field : list Qc) : list skOp :=
  [SkSetExecutor k e; SkInit k (length field); SkFrom k e field].
(** The object made last. *)
Definition newest (w : skWorld) : nat := length (sw_objs w) - 1.

Local Lemma dead_unusable w k : dead w k -> unusable w k.
Proof.
  intros Hd e f. destruct (access_ub w k e) as [Ha|[[v x] Ha]].
  - unfold sk_read. cbn [sk_step]. by rewrite Ha.
  - apply access_ok in Ha as (H1 & H2 & H3 & _). destruct (Hd _ H1) as (y & Hy & Hy'). congruence.
Qed.
Local Lemma unusable_dead w k : coherent w -> unusable w k -> dead w k.
Proof.
  intros Hc Hu v Hv. unfold sk_handle in Hv. destruct (sk_at w k) as [o|] eqn:Ek; [|discriminate]. cbn in Hv.
  pose proof (handle_lt _ Hc _ _ _ Ek Hv) as Hlt. apply lookup_lt_is_Some in Hlt as [x Hx].
  exists x. split; [done|]. destruct (nv_live x) eqn:El; [|done]. exfalso.
  assert (Hh : sk_handle w k = Some v) by (unfold sk_handle; by rewrite Ek).
  destruct x as [lv sp d]. cbn in El. subst lv.
  pose proof (read_at w k sp v d d Hh Hx eq_refl) as Hr.
  destruct (Hu sp d) as [Hu1 _]. pose proof (proj1 (Hu1 _) (proj2 (Hr (Ok d)) eq_refl)). discriminate.
Qed.
Local Lemma coherent_of ops w : sk_run ops sk_empty (Ok w) -> coherent w.
Proof. apply history_coherent. Qed.
Local Lemma sole_reads w k e data : sole w k e data -> reads w k e data.
Proof. intros (v & Hk & Hv & _) f Hf. eapply read_at; [|done|done]. unfold sk_handle. by rewrite Hk. Qed.

Local Lemma prepare_sole k e field w w' : coherent w -> sk_run (prepare k e field) w (Ok w') -> sole w' k e field.
Proof.
  intros Hc H. apply run_ok in H as (w1 & H1 & H). apply run_ok in H as (w2 & H2 & H). apply run_one in H.
  pose proof (step_coherent _ _ _ Hc H1) as Hc1. pose proof (step_coherent _ _ _ Hc1 H2) as Hc2.
  apply init_sole in H2 as (o & data & Hk & Hl & Hs); [|done].
  assert (sk_space o = e) as He.
  { cbn in H1. destruct (sk_at w k) as [o'|] eqn:Ek; [|discriminate]. injection H1 as ->.
    rewrite at_ins in Hk by (by eapply at_lt). by injection Hk as <-. }
  rewrite He in Hs. destruct Hs as (v & Hat & Hv & Ho).
  assert (Hh : sk_handle w2 k = Some v) by (unfold sk_handle; by rewrite Hat).
  apply (write_at _ _ _ _ _ field Hh Hv (eq_sym Hl)) in H as [= ->].
  exists v. split; [done|]. split; [|done]. cbn. rewrite list_lookup_insert; [done|]. by apply lookup_lt_Some in Hv.
Qed.

(** A live object that is given an executor, initialised and written can be: every
    outcome is a success, there is one, and the field comes back. *)
Theorem C122_initialised_vector_returns_the_field :
  forall ops w k e field, sk_run ops sk_empty (Ok w) -> is_Some (sk_at w k) ->
  (exists w', sk_run (prepare k e field) w (Ok w')) /\
  forall r, sk_run (prepare k e field) w r -> exists w', r = Ok w' /\ reads w' k e field /\
    forall j, j <> k -> sk_handle w' j <> sk_handle w' k.
Proof.
  intros ops w k e field Hw [o Hk]. apply coherent_of in Hw. pose proof (at_lt _ _ _ Hk) as Hlt.
  set (w1 := SkWorld (<[k := Some (SkVec e KDefault None)]> (sw_objs w)) (drop_kv (sk_kv o) (sw_vecs w))).
  assert (H1 : sk_step (SkSetExecutor k e) w (Ok w1)) by (cbn; by rewrite Hk).
  pose proof (step_coherent _ _ _ Hw H1) as Hc1.
  assert (Hk1 : sk_at w1 k = Some (SkVec e KDefault None)) by (by apply at_ins).
  assert (Hgood : forall data : list Qc, length data = length field -> exists w2,
    sk_step (SkInit k (length field)) w1 (Ok w2) /\ exists w', surely (sk_step (SkFrom k e field) w2) w').
  { intros data Hd. exists (SkWorld (<[k := Some (SkVec e (KOwns (length (sw_vecs w1))) (Some (length (sw_vecs w1))))]> (sw_objs w1))
      (sw_vecs w1 ++ [NVec true e data])). split.
    - cbn [sk_step]. rewrite Hk1. exists data. split; [done|]. done.
    - eexists. eapply (write_at _ _ _ (length (sw_vecs w1)) data); [| |by symmetry].
      + unfold sk_handle. rewrite at_ins; [done|]. by eapply at_lt.
      + cbn. by rewrite list_lookup_middle. }
  split.
  - destruct (Hgood field eq_refl) as (w2 & H2 & w' & H3). exists w'. left. exists w1. split; [done|].
    left. exists w2. split; [done|]. left. exists w'. split; [by apply H3|done].
  - intros r Hr. assert (exists w', r = Ok w') as [w' ->].
    { cbn [prepare sk_run] in Hr. destruct Hr as [(a & Ha & Hr)|Hbad].
      2:{ cbn [sk_step] in Hbad. rewrite Hk in Hbad. destruct Hbad as [(x & [=] & _)|[[[=] _]|[[=] _]]]. }
      assert (a = w1) as ->. { cbn [sk_step] in Ha. rewrite Hk in Ha. by injection Ha as ->. }
      destruct Hr as [(w2 & H2 & Hr)|Hbad].
      2:{ cbn [sk_step] in Hbad. rewrite Hk1 in Hbad.
          destruct Hbad as [(x & (d & _ & [=]) & _)|[[(d & _ & [=]) _]|[(d & _ & [=]) _]]]. }
      pose proof (init_sole _ _ _ _ Hc1 H2) as (o1 & data & Ho1 & Hd & v & Hat & Hv & _).
      rewrite Hk1 in Ho1. injection Ho1 as <-. cbn [sk_space] in *.
      assert (Hh : sk_handle w2 k = Some v) by (unfold sk_handle; by rewrite Hat).
      pose proof (write_at _ _ _ _ _ field Hh Hv (eq_sym Hd)) as H3.
      destruct Hr as [(w3 & H4 & ->)|[(x & H4 & _)|[[H4 _]|[H4 _]]]]; [by eexists|apply H3 in H4; discriminate..]. }
    exists w'. split; [done|]. pose proof (prepare_sole _ _ _ _ _ Hw Hr) as Hs. split; [by apply sole_reads|].
    destruct Hs as (v & Hat & _ & Ho). intros j Hj. unfold sk_handle. rewrite Hat. cbn.
    destruct (sk_at w' j) as [a|] eqn:Ea; [|done]. cbn. by eapply Ho.
Qed.
Print Assumptions C122_initialised_vector_returns_the_field.

(** Operations on other objects, existing or made later, never change it. *)
Theorem C122_vectors_are_independent :
  forall ops k e field ops' w,
  sk_run (ops ++ prepare k e field ++ ops') sk_empty (Ok w) -> Forall (fun op => ~ names k op) ops' ->
  reads w k e field.
Proof.
  intros ops k e field ops' w H Hn. apply run_app_ok in H as (w1 & H1 & H). apply run_app_ok in H as (w2 & H2 & H).
  pose proof (coherent_of _ _ H1) as Hc1. pose proof (run_coherent _ _ _ Hc1 H2) as Hc2.
  apply sole_reads. exact (run_sole _ _ _ _ _ _ Hc2 Hn (prepare_sole _ _ _ _ _ Hc1 H2) ltac:(eassumption)).
Qed.
Print Assumptions C122_vectors_are_independent.

(** The situation after a copy. *)
Local Lemma copied ops k e field ops' w :
  sk_run (ops ++ prepare k e field ++ ops' ++ [SkCopy k]) sk_empty (Ok w) -> Forall (fun op => ~ names k op) ops' ->
  exists v u data, k <> newest w /\ u <> v /\ length data = length field /\
    sk_at w k = Some (SkVec e (KOwns v) (Some v)) /\ sk_at w (newest w) = Some (SkVec e (KOwns u) (Some v)) /\
    sw_vecs w !! v = Some (NVec true e field) /\ sw_vecs w !! u = Some (NVec true e data) /\
    newest w < length (sw_objs w) /\ coherent w /\
    forall j o, sk_at w j = Some o -> sk_sv o = Some u -> False.
Proof.
  intros H Hn. pose proof (coherent_of _ _ H) as Hw.
  apply run_app_ok in H as (w1 & H1 & H). apply run_app_ok in H as (w2 & H2 & H).
  apply run_app_ok in H as (w3 & H3 & H). apply run_one in H.
  pose proof (coherent_of _ _ H1) as Hc1. pose proof (run_coherent _ _ _ Hc1 H2) as Hc2. pose proof (run_coherent _ _ _ Hc2 H3) as Hc3.
  assert (Hs : sole w3 k e field) by (exact (run_sole _ _ _ _ _ _ Hc2 Hn (prepare_sole _ _ _ _ _ Hc1 H2) ltac:(eassumption))).
  destruct Hs as (v & Hat & Hv & Ho). cbn [sk_step] in H. rewrite Hat in H. cbn [sk_kv] in H. rewrite Hv in H.
  destruct H as (data & Hd & [= ->]). cbn [sk_space nv_space nv_data] in *.
  pose proof (at_lt _ _ _ Hat) as Hk. pose proof (lookup_lt_Some _ _ _ Hv) as Hvl.
  assert (newest (SkWorld (sw_objs w3 ++ [Some (SkVec e (KOwns (length (sw_vecs w3))) (Some v))]) (sw_vecs w3 ++ [NVec true e data])) = length (sw_objs w3)) as E.
  { unfold newest. cbn. rewrite app_length. cbn. lia. }
  exists v, (length (sw_vecs w3)), data. rewrite E. split; [lia|]. split; [lia|]. split; [done|].
  split; [by rewrite at_app_old|]. split; [by rewrite at_new|]. split; [cbn; by rewrite lookup_app_l|].
  split; [cbn; by rewrite list_lookup_middle|]. split; [cbn; rewrite app_length; cbn; lia|]. split; [done|].
  intros j o Hj Hu. apply at_app_inv in Hj as [[Hj _]|[-> [= <-]]].
  - pose proof (handle_lt _ Hc3 _ _ _ Hj Hu). lia.
  - cbn in Hu. injection Hu as Hu. lia.
Qed.
Local Lemma written w k j e v data field : sk_handle w k = Some v -> sk_handle w j = Some v ->
  sw_vecs w !! v = Some (NVec true e data) -> length field = length data ->
  exists w', surely (sk_step (SkFrom k e field) w) w' /\ reads w' k e field /\ reads w' j e field.
Proof.
  intros Hk Hj Hv Hl. eexists. split; [by eapply write_at|].
  assert (Hv' : <[v:=NVec true e field]> (sw_vecs w) !! v = Some (NVec true e field)).
  { apply list_lookup_insert. by apply lookup_lt_Some in Hv. }
  split; intros f Hf; eapply read_at; try done; done.
Qed.

(** A copy is the same vector: the copy's handle is the original's, it reads what
    the original holds, and what is written through one is read through both. *)
Theorem C122_a_copy_shares_the_vector :
  forall ops k e field ops' w,
  sk_run (ops ++ prepare k e field ++ ops' ++ [SkCopy k]) sk_empty (Ok w) -> Forall (fun op => ~ names k op) ops' ->
  let c := newest w in
  c <> k /\ is_Some (sk_at w c) /\ sk_handle w c = sk_handle w k /\ reads w c e field /\ reads w k e field /\
  forall field', length field' = length field ->
    (exists w', surely (sk_step (SkFrom c e field') w) w' /\ reads w' c e field' /\ reads w' k e field') /\
    (exists w', surely (sk_step (SkFrom k e field') w) w' /\ reads w' k e field' /\ reads w' c e field').
Proof.
  intros ops k e field ops' w H Hn c. destruct (copied _ _ _ _ _ _ H Hn) as (v & u & data & Hne & _ & _ & Hk & Hc & Hv & _ & _ & _ & _).
  fold c in Hne, Hc. assert (Hhk : sk_handle w k = Some v) by (unfold sk_handle; by rewrite Hk).
  assert (Hhc : sk_handle w c = Some v) by (unfold sk_handle; by rewrite Hc).
  split; [done|]. split; [by rewrite Hc|]. split; [congruence|].
  split; [intros f Hf; by eapply read_at|]. split; [intros f Hf; by eapply read_at|].
  intros field' Hl. split; by eapply written.
Qed.
Print Assumptions C122_a_copy_shares_the_vector.

(** Once a handle is unusable it stays so, whatever happens to any object, until
    that very object is initialised. *)
Theorem C122_unusable_until_initialised :
  forall ops w k ops' w', sk_run ops sk_empty (Ok w) -> k < length (sw_objs w) -> unusable w k ->
  Forall (fun op => forall n, op <> SkInit k n) ops' -> sk_run ops' w (Ok w') -> unusable w' k.
Proof.
  intros ops w k ops' w' Hw Hk Hu Hn H. apply coherent_of in Hw. apply dead_unusable.
  eapply run_dead; [done|done|by apply unusable_dead|done].
Qed.
Print Assumptions C122_unusable_until_initialised.

(** An object just made, given an executor or destroyed is unusable. *)
Theorem C122_fresh_objects_are_unusable :
  forall op w w', sk_step op w (Ok w') ->
  match op with
  | SkNew => unusable w' (newest w')
  | SkSetExecutor k _ | SkFree k => unusable w' k
  | _ => True
  end.
Proof.
  intros op w w' H. destruct op as [|k|k|k|k e|k n|k e field]; try done.
  - cbn in H. injection H as ->. apply dead_unusable. intros v Hv. unfold sk_handle, newest in Hv. cbn [sw_objs] in Hv.
    rewrite app_length in Hv. cbn [length] in Hv. replace (length (sw_objs w) + 1 - 1) with (length (sw_objs w)) in Hv by lia.
    rewrite at_new in Hv. discriminate.
  - cbn in H. destruct (sk_at w k) as [o|] eqn:E; [|discriminate]. injection H as ->. apply dead_unusable. intros v Hv.
    unfold sk_handle in Hv. rewrite at_ins in Hv by (by eapply at_lt). discriminate.
  - cbn in H. destruct (sk_at w k) as [o|] eqn:E; [|discriminate]. injection H as ->. apply dead_unusable. intros v Hv.
    unfold sk_handle in Hv. rewrite at_ins in Hv by (by eapply at_lt). discriminate.
Qed.
Print Assumptions C122_fresh_objects_are_unusable.

Local Lemma owner_gone op w w' k c v o x : k <> c -> sk_at w k = Some o -> sk_kv o = KOwns v -> sk_handle w c = Some v ->
  sw_vecs w !! v = Some x -> op = SkFree k \/ (exists e, op = SkSetExecutor k e) \/ (exists n, op = SkInit k n) ->
  sk_step op w (Ok w') -> dead w' c.
Proof.
  intros Hne Hk Ho Hh Hx Hop Hs u Hu. pose proof (at_lt _ _ _ Hk) as Hlt. pose proof (lookup_lt_Some _ _ _ Hx) as Hvl.
  destruct Hop as [->|[[e ->]|[n ->]]]; cbn [sk_step] in Hs; rewrite Hk in Hs.
  - injection Hs as ->. unfold sk_handle in Hu. rewrite at_ins_ne in Hu by done. fold (sk_handle w c) in Hu.
    rewrite Hh in Hu. injection Hu as <-. rewrite Ho. eexists. split; [by apply drop_same|done].
  - injection Hs as ->. unfold sk_handle in Hu. rewrite at_ins_ne in Hu by done. fold (sk_handle w c) in Hu.
    rewrite Hh in Hu. injection Hu as <-. rewrite Ho. eexists. split; [by apply drop_same|done].
  - destruct Hs as (d & _ & [= ->]). unfold sk_handle in Hu. rewrite at_ins_ne in Hu by done. fold (sk_handle w c) in Hu.
    rewrite Hh in Hu. injection Hu as <-. rewrite Ho. eexists. cbn [sw_vecs]. rewrite lookup_app_l by (by rewrite drop_length).
    split; [by apply drop_same|done].
Qed.

(** After the original was destroyed, re-initialised or given an executor, every use
    of the copy is undefined behaviour, until the copy itself is initialised. *)
Theorem C122_a_copy_dies_with_the_original :
  forall ops k e field ops' w op w1 ops'' w',
  sk_run (ops ++ prepare k e field ++ ops' ++ [SkCopy k]) sk_empty (Ok w) -> Forall (fun op => ~ names k op) ops' ->
  op = SkFree k \/ (exists e', op = SkSetExecutor k e') \/ (exists n, op = SkInit k n) -> sk_step op w (Ok w1) ->
  Forall (fun op => forall n, op <> SkInit (newest w) n) ops'' -> sk_run ops'' w1 (Ok w') ->
  unusable w' (newest w).
Proof.
  intros ops k e field ops' w op w1 ops'' w' H Hn Hop H1 Hn2 H2.
  destruct (copied _ _ _ _ _ _ H Hn) as (v & u & data & Hne & _ & _ & Hk & Hc & Hv & _ & Hlt & Hw & _).
  apply dead_unusable. eapply run_dead; [|done| |done].
  - apply step_objs in H1. lia.
  - eapply (owner_gone op w w1 k (newest w) v); [done|done|done| |done|done|done]. unfold sk_handle. by rewrite Hc.
Qed.
Print Assumptions C122_a_copy_dies_with_the_original.

(** A copy of a copy is another vector, with unspecified values: nothing written
    through the original or through the first copy is seen by it; destroying the
    original leaves it as it is, destroying the first copy makes it unusable. *)
Theorem C122_a_copy_of_a_copy_shares_neither :
  forall ops k e field ops' w w2,
  sk_run (ops ++ prepare k e field ++ ops' ++ [SkCopy k]) sk_empty (Ok w) -> Forall (fun op => ~ names k op) ops' ->
  sk_step (SkCopy (newest w)) w (Ok w2) ->
  let c := newest w in let d := newest w2 in
  exists data, length data = length field /\ reads w2 d e data /\ reads w2 k e field /\ reads w2 c e field /\
  (forall j field' w3, j = k \/ j = c -> sk_step (SkFrom j e field') w2 (Ok w3) -> reads w3 d e data) /\
  (forall w3, sk_step (SkFree k) w2 (Ok w3) -> reads w3 d e data /\ unusable w3 c) /\
  (forall w3, sk_step (SkFree c) w2 (Ok w3) -> unusable w3 d /\ reads w3 k e field).
Proof.
  intros ops k e field ops' w w2 H Hn Hs c d.
  destruct (copied _ _ _ _ _ _ H Hn) as (v & u & data & Hne & Huv & Hl & Hk & Hc & Hv & Hu & Hlt & Hw & Hnone). fold c in Hne, Hc, Hlt.
  pose proof (step_coherent _ _ _ Hw Hs) as Hw2.
  cbn [sk_step] in Hs. fold c in Hs. rewrite Hc in Hs. cbn [sk_kv] in Hs. rewrite Hu in Hs. destruct Hs as (data2 & Hd2 & [= E]).
  cbn [sk_space nv_space nv_data] in *.
  pose proof (at_lt _ _ _ Hk) as Hkl. pose proof (lookup_lt_Some _ _ _ Hv) as Hvl. pose proof (lookup_lt_Some _ _ _ Hu) as Hul.
  assert (Hd : d = length (sw_objs w)). { unfold d, newest. rewrite E. cbn. rewrite app_length. cbn. lia. }
  assert (Hd' : sk_at w2 d = Some (SkVec e (KOwns (length (sw_vecs w))) (Some u))) by (rewrite Hd, E; by apply at_new).
  assert (Hk' : sk_at w2 k = Some (SkVec e (KOwns v) (Some v))) by (rewrite E, at_app_old by done; done).
  assert (Hc' : sk_at w2 c = Some (SkVec e (KOwns u) (Some v))) by (rewrite E, at_app_old by done; done).
  assert (Hv2 : sw_vecs w2 !! v = Some (NVec true e field)) by (rewrite E; cbn; by rewrite lookup_app_l).
  assert (Hu2 : sw_vecs w2 !! u = Some (NVec true e data)) by (rewrite E; cbn; by rewrite lookup_app_l).
  assert (Hdk : d <> k) by lia. assert (Hdc : d <> c) by lia. clear E Hk Hc Hv Hu Hnone.
  assert (Hhk : sk_handle w2 k = Some v) by (unfold sk_handle; by rewrite Hk').
  assert (Hhc : sk_handle w2 c = Some v) by (unfold sk_handle; by rewrite Hc').
  assert (Hhd : sk_handle w2 d = Some u) by (unfold sk_handle; by rewrite Hd').
  exists data. split; [done|]. split; [intros f Hf; by eapply read_at|]. split; [intros f Hf; by eapply read_at|].
  split; [intros f Hf; by eapply read_at|]. split; [|split].
  - intros j field' w3 Hj Hs. apply from_ok in Hs as (v' & x & dd & Ha & ->). apply access_ok in Ha as (Hh & _).
    assert (v' = v) as -> by (destruct Hj as [->| ->]; congruence).
    intros f Hf. eapply read_at; [exact Hhd| |done]. cbn. by rewrite list_lookup_insert_ne.
  - intros w3 Hs. split.
    + cbn [sk_step] in Hs. rewrite Hk' in Hs. injection Hs as ->. intros f Hf. eapply (read_at _ _ _ u); [| |done].
      * unfold sk_handle. rewrite at_ins_ne by done. by rewrite Hd'.
      * transitivity (drop_kv (KOwns v) (sw_vecs w2) !! u); [done|]. by rewrite drop_other by congruence.
    + apply dead_unusable. eapply (owner_gone (SkFree k) w2 w3 k c v); try done. by left.
  - intros w3 Hs. split.
    + apply dead_unusable. eapply (owner_gone (SkFree c) w2 w3 c d u); try done. by left.
    + cbn [sk_step] in Hs. rewrite Hc' in Hs. injection Hs as ->. intros f Hf. eapply (read_at _ _ _ v); [| |done].
      * unfold sk_handle. rewrite at_ins_ne by done. by rewrite Hk'.
      * transitivity (drop_kv (KOwns u) (sw_vecs w2) !! v); [done|]. by rewrite drop_other by congruence.
Qed.
Print Assumptions C122_a_copy_of_a_copy_shares_neither.

(** Moving hands the vector over; the object moved from keeps a handle on it, sees
    what is written, may be destroyed without harm, and dies with the new owner. *)
Theorem C122_a_move_hands_the_vector_over :
  forall ops k e field ops' w,
  sk_run (ops ++ prepare k e field ++ ops' ++ [SkMove k]) sk_empty (Ok w) -> Forall (fun op => ~ names k op) ops' ->
  let m := newest w in
  m <> k /\ sk_handle w m = sk_handle w k /\ reads w m e field /\ reads w k e field /\
  (forall field', length field' = length field ->
    exists w', surely (sk_step (SkFrom m e field') w) w' /\ reads w' m e field' /\ reads w' k e field') /\
  (forall op w', op = SkFree k \/ (exists e', op = SkSetExecutor k e') \/ (exists n, op = SkInit k n) ->
    sk_step op w (Ok w') -> reads w' m e field) /\
  (forall op w1 ops'' w', op = SkFree m \/ (exists e', op = SkSetExecutor m e') \/ (exists n, op = SkInit m n) ->
    sk_step op w (Ok w1) -> Forall (fun op => forall n, op <> SkInit k n) ops'' -> sk_run ops'' w1 (Ok w') -> unusable w' k).
Proof.
  intros ops k e field ops' w H Hn m.
  apply run_app_ok in H as (w1 & H1 & H). apply run_app_ok in H as (w2 & H2 & H).
  apply run_app_ok in H as (w3 & H3 & H). apply run_one in H.
  pose proof (coherent_of _ _ H1) as Hc1. pose proof (run_coherent _ _ _ Hc1 H2) as Hc2. pose proof (run_coherent _ _ _ Hc2 H3) as Hc3.
  assert (Hs : sole w3 k e field) by (exact (run_sole _ _ _ _ _ _ Hc2 Hn (prepare_sole _ _ _ _ _ Hc1 H2) ltac:(eassumption))).
  destruct Hs as (v & Hat & Hv & Ho). cbn [sk_step] in H. rewrite Hat in H. injection H as E. cbn [sk_space sk_kv sk_sv] in *.
  pose proof (at_lt _ _ _ Hat) as Hk. pose proof (lookup_lt_Some _ _ _ Hv) as Hvl.
  assert (Hm : m = length (sw_objs w3)). { unfold m, newest. rewrite E. cbn. rewrite app_length, insert_length. cbn. lia. }
  assert (Hmk : m <> k) by lia.
  assert (Hm' : sk_at w m = Some (SkVec e (KOwns v) (Some v))).
  { rewrite Hm, E. unfold sk_at. cbn. rewrite list_lookup_middle; [done|]. by rewrite insert_length. }
  assert (Hk' : sk_at w k = Some (SkVec e KMovedFrom (Some v))).
  { rewrite E. unfold sk_at. cbn. rewrite lookup_app_l by (by rewrite insert_length). by rewrite list_lookup_insert. }
  assert (Hv' : sw_vecs w !! v = Some (NVec true e field)) by (rewrite E; done). clear E Hv Hat Ho.
  assert (Hhk : sk_handle w k = Some v) by (unfold sk_handle; by rewrite Hk').
  assert (Hhm : sk_handle w m = Some v) by (unfold sk_handle; by rewrite Hm').
  split; [done|]. split; [congruence|]. split; [intros f Hf; by eapply read_at|]. split; [intros f Hf; by eapply read_at|].
  split; [intros field' Hl; by eapply written|]. split.
  - intros op w' Hop Hs. intros f Hf. eapply (read_at _ _ _ v); [| |done].
    + unfold sk_handle. destruct Hop as [->|[[e' ->]|[n ->]]]; cbn [sk_step] in Hs; rewrite Hk' in Hs.
      * injection Hs as ->. rewrite at_ins_ne by done. by rewrite Hm'.
      * injection Hs as ->. rewrite at_ins_ne by done. by rewrite Hm'.
      * destruct Hs as (d & _ & [= ->]). rewrite at_ins_ne by done. by rewrite Hm'.
    + destruct Hop as [->|[[e' ->]|[n ->]]]; cbn [sk_step] in Hs; rewrite Hk' in Hs.
      * injection Hs as ->. done.
      * injection Hs as ->. done.
      * destruct Hs as (d & _ & [= ->]). cbn. rewrite lookup_app_l; [done|]. by apply lookup_lt_Some in Hv'.
  - intros op w4 ops'' w' Hop H4 Hn2 H5. apply dead_unusable. eapply run_dead; [|done| |done].
    + apply step_objs in H4. pose proof (at_lt _ _ _ Hk'). lia.
    + by eapply (owner_gone op w w4 m k v).
Qed.
Print Assumptions C122_a_move_hands_the_vector_over.

(** Through a field on another executor than the vector's, every use is undefined. *)
Theorem C122_other_executors_are_undefined :
  forall ops k e field ops' w e' f,
  sk_run (ops ++ prepare k e field ++ ops') sk_empty (Ok w) -> Forall (fun op => ~ names k op) ops' -> e' <> e ->
  (forall r, sk_read w k e' f r <-> r = UB) /\ (forall r, sk_step (SkFrom k e' f) w r <-> r = UB).
Proof.
  intros ops k e field ops' w e' f H Hn He. apply run_app_ok in H as (w1 & H1 & H). apply run_app_ok in H as (w2 & H2 & H).
  pose proof (coherent_of _ _ H1) as Hc1. pose proof (run_coherent _ _ _ Hc1 H2) as Hc2.
  assert (Hs : sole w k e field) by (exact (run_sole _ _ _ _ _ _ Hc2 Hn (prepare_sole _ _ _ _ _ Hc1 H2) ltac:(eassumption))).
  destruct Hs as (v & Hat & Hv & _). assert (Ha : sk_access w k e' = UB).
  { destruct (access_ub w k e') as [Ha|[[u x] Ha]]; [done|]. apply access_ok in Ha as (Hh & Hx & _ & Hx').
    unfold sk_handle in Hh. rewrite Hat in Hh. injection Hh as <-. rewrite Hv in Hx. injection Hx as <-. cbn in Hx'. congruence. }
  unfold sk_read. cbn [sk_step]. by rewrite Ha.
Qed.
Print Assumptions C122_other_executors_are_undefined.

(** A concrete history: make, prepare with three values, use another object, copy. *)
Theorem C122_instance :
  exists w, sk_run ([SkNew; SkNew] ++ prepare 0 GPUExecutor [1; 0; 1]%Qc ++ [SkInit 1 2; SkNew] ++ [SkCopy 0]) sk_empty (Ok w) /\
    Forall (fun op => ~ names 0 op) [SkInit 1 2; SkNew] /\ newest w = 3 /\
    exists w1, sk_step (SkFree 0) w (Ok w1) /\ exists w2, sk_run [SkSetExecutor 1 CPUExecutor; SkMove 2] w1 (Ok w2).
Proof.
  assert (Hw1 : sk_run [SkNew; SkNew] sk_empty (Ok (SkWorld [Some (SkVec CPUExecutor KDefault None); Some (SkVec CPUExecutor KDefault None)] []))).
  { left. eexists. split; [reflexivity|]. left. eexists. split; reflexivity. }
  destruct (C122_initialised_vector_returns_the_field _ _ 0 GPUExecutor [1; 0; 1]%Qc Hw1) as [[w2 H2] _]; [by eexists|].
  pose proof (run_ok _ _ _ _ H2) as (wa & Ha & Hb). apply run_ok in Hb as (wb & Hb & Hc). apply run_one in Hc.
  cbn in Ha. injection Ha as ->. cbn in Hb. destruct Hb as (data & _ & [= ->]).
  apply from_ok in Hc as (v & x & d & Hacc & Ew2). apply access_ok in Hacc as (Hh & Hx & _). cbn in Hh. injection Hh as <-. cbn in Hx. injection Hx as <-.
  cbn in Ew2.
  exists (SkWorld [Some (SkVec GPUExecutor (KOwns 0) (Some 0)); Some (SkVec CPUExecutor (KOwns 1) (Some 1));
                   Some (SkVec CPUExecutor KDefault None); Some (SkVec GPUExecutor (KOwns 2) (Some 0))]
                  [NVec true GPUExecutor d; NVec true CPUExecutor [0; 0]%Qc; NVec true GPUExecutor d]).
  split; [|split; [|split; [reflexivity|]]].
  - apply run_app. left. eexists. split; [exact Hw1|]. apply run_app. left. exists w2. split; [exact H2|]. subst w2.
    left. eexists. split; [exists [0; 0]%Qc; split; reflexivity|]. left. eexists. split; [reflexivity|].
    left. eexists. split; [exists d; split; reflexivity|reflexivity].
  - repeat constructor; cbn; lia.
  - eexists. split; [reflexivity|]. eexists. left. eexists. split; [reflexivity|]. left. eexists. split; reflexivity.
Qed.
Print Assumptions C122_instance.
