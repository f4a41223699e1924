(** Facts about the SUNDIALS vector objects: support for C122. *)
From Verif Require Import Base Par Exec ExecProofs Fields FieldsProofs Value Kernel Dsl DslSpec TimeInt TimeIntProofs SkVector.

(** Does the operation name object [k]? *)
Definition names (k : nat) (op : skOp) : Prop :=
  match op with
  | SkNew => False
  | SkCopy j | SkMove j | SkFree j | SkSetExecutor j _ | SkInit j _ | SkFrom j _ _ => j = k
  end.
(** k.sunNVector() *)
Definition sk_handle (w : skWorld) (k : nat) : option nat := sk_at w k ≫= sk_sv.

Lemma run_app ops ops' w r : sk_run (ops ++ ops') w r <-> rseq (sk_run ops w) (sk_run ops') r.
Proof.
  revert w r. induction ops as [|op ops IH]; intros w r; cbn [sk_run app].
  - split.
    + intros H. left. by exists w.
    + intros [(a & [= <-] & H)|[(x & [=] & _)|[[[=] _]|[[=] _]]]]. done.
  - unfold rseq. split.
    + intros [(a & Ha & H)|[(x & Hx & ->)|[[H ->]|[H ->]]]].
      * apply IH in H as [(b & Hb & H)|[(x & Hx & ->)|[[H ->]|[H ->]]]].
        -- left. exists b. split; [|done]. left. by exists a.
        -- right; left. exists x. split; [|done]. left. by exists a.
        -- right; right; left. split; [|done]. left. by exists a.
        -- right; right; right. split; [|done]. left. by exists a.
      * right; left. exists x. split; [|done]. right; left. by exists x.
      * right; right; left. split; [|done]. right; right; by left.
      * right; right; right. split; [|done]. right; right; by right.
    + intros [(b & H & Hb)|[(x & H & ->)|[[H ->]|[H ->]]]].
      * destruct H as [(a & Ha & H)|[(x & Hx & [=])|[[H [=]]|[H [=]]]]].
        left. exists a. split; [done|]. apply IH. left. by exists b.
      * destruct H as [(a & Ha & H)|[(y & Hy & [= <-])|[[H [=]]|[H [=]]]]].
        -- left. exists a. split; [done|]. apply IH. right; left. by exists x.
        -- right; left. by exists x.
      * destruct H as [(a & Ha & H)|[(y & Hy & [=])|[[H _]|[H [=]]]]].
        -- left. exists a. split; [done|]. apply IH. right; right; by left.
        -- right; right; by left.
      * destruct H as [(a & Ha & H)|[(y & Hy & [=])|[[H [=]]|[H _]]]].
        -- left. exists a. split; [done|]. apply IH. right; right; by right.
        -- right; right; by right.
Qed.
Lemma run_ok op ops w w' : sk_run (op :: ops) w (Ok w') -> exists w1, sk_step op w (Ok w1) /\ sk_run ops w1 (Ok w').
Proof. intros [H|[(x & _ & [=])|[[_ [=]]|[_ [=]]]]]. done. Qed.
Lemma run_app_ok ops ops' w w' : sk_run (ops ++ ops') w (Ok w') -> exists w1, sk_run ops w (Ok w1) /\ sk_run ops' w1 (Ok w').
Proof. intros H. apply run_app in H as [H|[(x & _ & [=])|[[_ [=]]|[_ [=]]]]]. done. Qed.
Lemma run_one op w w' : sk_run [op] w (Ok w') -> sk_step op w (Ok w').
Proof. intros H. apply run_ok in H as (w1 & H & [= <-]). done. Qed.

(** Looking objects up after a change. *)
Lemma at_app_old w k l v : k < length (sw_objs w) -> sk_at (SkWorld (sw_objs w ++ l) v) k = sk_at w k.
Proof. intros H. unfold sk_at. cbn. by rewrite lookup_app_l. Qed.
Lemma at_new w o v : sk_at (SkWorld (sw_objs w ++ [o]) v) (length (sw_objs w)) = o.
Proof. unfold sk_at. cbn. rewrite list_lookup_middle by done. done. Qed.
Lemma at_lt w k o : sk_at w k = Some o -> k < length (sw_objs w).
Proof. unfold sk_at. intros H. destruct (sw_objs w !! k) eqn:E; [|discriminate]. by apply lookup_lt_Some in E. Qed.
Lemma at_ins w k o v : k < length (sw_objs w) -> sk_at (SkWorld (<[k := o]> (sw_objs w)) v) k = o.
Proof. intros H. unfold sk_at. cbn. by rewrite list_lookup_insert. Qed.
Lemma at_ins_ne w k j o v : j <> k -> sk_at (SkWorld (<[k := o]> (sw_objs w)) v) j = sk_at w j.
Proof. intros H. unfold sk_at. cbn. by rewrite list_lookup_insert_ne. Qed.
Lemma at_vecs w v j : sk_at (SkWorld (sw_objs w) v) j = sk_at w j.
Proof. done. Qed.
Lemma at_app_inv w o v j a : sk_at (SkWorld (sw_objs w ++ [o]) v) j = Some a ->
  sk_at w j = Some a /\ j < length (sw_objs w) \/ j = length (sw_objs w) /\ o = Some a.
Proof.
  intros H. destruct (decide (j < length (sw_objs w))) as [Hj|Hj].
  - rewrite at_app_old in H by done. by left.
  - assert (j = length (sw_objs w)) as ->.
    { apply at_lt in H. cbn in H. rewrite app_length in H. cbn in H. lia. }
    rewrite at_new in H. by right.
Qed.

(** Looking N_Vectors up after a deletion. *)
Lemma drop_length kv l : length (drop_kv kv l) = length l.
Proof. destruct kv; cbn; try done. unfold delete_vec. by rewrite alter_length. Qed.
Lemma drop_same v l x : l !! v = Some x -> drop_kv (KOwns v) l !! v = Some (NVec false (nv_space x) (nv_data x)).
Proof. intros H. cbn. unfold delete_vec. rewrite list_lookup_alter, H. done. Qed.
Lemma drop_other kv l v : kv <> KOwns v -> drop_kv kv l !! v = l !! v.
Proof.
  intros H. destruct kv as [|u|]; cbn; try done. unfold delete_vec. rewrite list_lookup_alter_ne; [done|]. congruence.
Qed.
Lemma drop_dead kv l v x : l !! v = Some x -> nv_live x = false ->
  exists y, drop_kv kv l !! v = Some y /\ nv_live y = false.
Proof.
  intros H Hx. destruct kv as [|u|]; cbn; eauto. unfold delete_vec. destruct (decide (u = v)) as [->|Hn].
  - rewrite list_lookup_alter, H. cbn. eauto.
  - rewrite list_lookup_alter_ne by done. eauto.
Qed.

(** What holds after every history. *)
Record coherent (w : skWorld) : Prop := {
  owner_live : forall k o v, sk_at w k = Some o -> sk_kv o = KOwns v ->
    exists data, sw_vecs w !! v = Some (NVec true (sk_space o) data);
  one_owner : forall k k' o o' v, sk_at w k = Some o -> sk_at w k' = Some o' ->
    sk_kv o = KOwns v -> sk_kv o' = KOwns v -> k = k';
  handle_lt : forall k o v, sk_at w k = Some o -> sk_sv o = Some v -> v < length (sw_vecs w);
}.

(** What writing through a handle does. *)
Lemma from_ok k e field w w' : sk_step (SkFrom k e field) w (Ok w') ->
  exists v x data, sk_access w k e = Ok (v, x) /\ w' = SkWorld (sw_objs w) (<[v := NVec true (nv_space x) data]> (sw_vecs w)).
Proof.
  cbn [sk_step]. destruct (sk_access w k e) as [[v x]| | |]; try discriminate.
  intros [(data & _ & [= ->])|[(y & _ & [=])|[[_ [=]]|[_ [=]]]]]. by exists v, x, data.
Qed.
Lemma access_ok w k e v x : sk_access w k e = Ok (v, x) <->
  sk_handle w k = Some v /\ sw_vecs w !! v = Some x /\ nv_live x = true /\ nv_space x = e.
Proof.
  unfold sk_access, sk_handle. destruct (sk_at w k) as [o|]; cbn; [|split; [discriminate|by intros []]].
  destruct (sk_sv o) as [u|]; [|split; [discriminate|by intros []]].
  split.
  - destruct (sw_vecs w !! u) as [y|] eqn:E; [|discriminate].
    destruct (nv_live y) eqn:El; cbn; [|discriminate].
    destruct (exec_eqb (nv_space y) e) eqn:Ee; [|discriminate]. intros [= <- <-].
    destruct (nv_space y), e; try discriminate; done.
  - intros ([= ->] & -> & -> & <-). cbn. by rewrite exec_eqb_refl.
Qed.
Lemma access_ub w k e : sk_access w k e = UB \/ exists p, sk_access w k e = Ok p.
Proof.
  unfold sk_access. destruct (sk_at w k) as [o|]; [|by left]. destruct (sk_sv o) as [v|]; [|by left].
  destruct (sw_vecs w !! v) as [x|]; [|by left]. destruct (_ && _); eauto.
Qed.

Lemma step_coherent op w w' : coherent w -> sk_step op w (Ok w') -> coherent w'.
Proof.
  intros [Hl Hu Hh] Hs. destruct op as [|k|k|k|k e|k n|k e field].
  - cbn in Hs. injection Hs as ->. split.
    + intros j o v Hj Hk. apply at_app_inv in Hj as [[Hj _]|[_ [= <-]]]; [eauto|discriminate].
    + intros j j' o o' v Hj Hj' Hk Hk'. apply at_app_inv in Hj as [[Hj _]|[_ [= <-]]]; [|discriminate].
      apply at_app_inv in Hj' as [[Hj' _]|[_ [= <-]]]; [|discriminate]. eauto.
    + intros j o v Hj Hv. apply at_app_inv in Hj as [[Hj _]|[_ [= <-]]]; [cbn; eauto|discriminate].
  - cbn in Hs. destruct (sk_at w k) as [o|] eqn:Ek; [|discriminate]. destruct (sk_kv o) as [|v|] eqn:Ev.
    + injection Hs as ->. split.
      * intros j a u Hj Hk. apply at_app_inv in Hj as [[Hj _]|[_ [= <-]]]; [eauto|discriminate].
      * intros j j' a a' u Hj Hj' Hk Hk'. apply at_app_inv in Hj as [[Hj _]|[_ [= <-]]]; [|discriminate].
        apply at_app_inv in Hj' as [[Hj' _]|[_ [= <-]]]; [|discriminate]. eauto.
      * intros j a u Hj Hv. apply at_app_inv in Hj as [[Hj _]|[_ [= <-]]]; [cbn; eauto|discriminate].
    + destruct (Hl _ _ _ Ek Ev) as [d Ed]. rewrite Ed in Hs. destruct Hs as (data & Hd & [= ->]). cbn [nv_space] in *. split.
      * intros j a u Hj Hk. apply at_app_inv in Hj as [[Hj _]|[_ [= <-]]].
        -- destruct (Hl _ _ _ Hj Hk) as [d' Ed']. exists d'. cbn. rewrite lookup_app_l; [done|]. by apply lookup_lt_Some in Ed'.
        -- cbn in Hk. injection Hk as <-. exists data. cbn. by rewrite list_lookup_middle.
      * intros j j' a a' u Hj Hj' Hk Hk'.
        apply at_app_inv in Hj as [[Hj _]|[-> [= <-]]]; apply at_app_inv in Hj' as [[Hj' _]|[-> [= <-]]]; eauto.
        -- cbn in Hk'. injection Hk' as <-. destruct (Hl _ _ _ Hj Hk) as [d' Ed']. apply lookup_lt_Some in Ed'. lia.
        -- cbn in Hk. injection Hk as <-. destruct (Hl _ _ _ Hj' Hk') as [d' Ed']. apply lookup_lt_Some in Ed'. lia.
      * intros j a u Hj Hv. cbn. rewrite app_length. apply at_app_inv in Hj as [[Hj _]|[-> [= <-]]].
        -- specialize (Hh _ _ _ Hj Hv). lia.
        -- cbn in Hv. injection Hv as <-. apply lookup_lt_Some in Ed. lia.
    + discriminate.
  - cbn in Hs. destruct (sk_at w k) as [o|] eqn:Ek; [|discriminate]. injection Hs as ->.
    pose proof (at_lt _ _ _ Ek) as Hk.
    assert (Hinv : forall j a, sk_at (SkWorld (<[k:=Some (SkVec (sk_space o) KMovedFrom (sk_sv o))]> (sw_objs w) ++
        [Some (SkVec (sk_space o) (sk_kv o) (sk_sv o))]) (sw_vecs w)) j = Some a ->
        j <> k /\ sk_at w j = Some a /\ j < length (sw_objs w) \/ j = k /\ a = SkVec (sk_space o) KMovedFrom (sk_sv o) \/
        j = length (sw_objs w) /\ a = o).
    { intros j a Hj. set (w1 := SkWorld (<[k:=Some (SkVec (sk_space o) KMovedFrom (sk_sv o))]> (sw_objs w)) (sw_vecs w)).
      change (sk_at (SkWorld (sw_objs w1 ++ [Some (SkVec (sk_space o) (sk_kv o) (sk_sv o))]) (sw_vecs w)) j = Some a) in Hj.
      apply at_app_inv in Hj as [[Hj Hlt]|[-> [= <-]]].
      - unfold w1 in Hj, Hlt. cbn in Hlt. rewrite insert_length in Hlt. destruct (decide (j = k)) as [->|Hn].
        + rewrite at_ins in Hj by done. injection Hj as <-. right; by left.
        + rewrite at_ins_ne in Hj by done. by left.
      - right; right. split; [unfold w1; cbn; by rewrite insert_length|by destruct o]. }
    split.
    + intros j a v Hj Hv. destruct (Hinv _ _ Hj) as [(_ & Hj' & _)|[[-> ->]|[-> ->]]]; [cbn; eauto|discriminate|cbn; eauto].
    + intros j j' a a' v Hj Hj' Hv Hv'.
      destruct (Hinv _ _ Hj) as [(Hn & Ha & _)|[[-> ->]|[-> ->]]]; [|discriminate|];
      destruct (Hinv _ _ Hj') as [(Hn' & Ha' & _)|[[-> ->]|[-> ->]]]; try discriminate; eauto.
      * exfalso. apply Hn. eauto.
      * exfalso. apply Hn'. eauto.
    + intros j a v Hj Hv. destruct (Hinv _ _ Hj) as [(_ & Hj' & _)|[[-> ->]|[-> ->]]]; cbn; eauto.
  - cbn in Hs. destruct (sk_at w k) as [o|] eqn:Ek; [|discriminate]. injection Hs as ->.
    pose proof (at_lt _ _ _ Ek) as Hk.
    assert (Hinv : forall j a v, sk_at (SkWorld (<[k:=None]> (sw_objs w)) v) j = Some a -> j <> k /\ sk_at w j = Some a).
    { intros j a v Hj. destruct (decide (j = k)) as [->|Hn]; [by rewrite at_ins in Hj|]. rewrite at_ins_ne in Hj by done. done. }
    split.
    + intros j a v Hj Hv. apply Hinv in Hj as [Hn Hj]. cbn. rewrite drop_other; [eauto|]. intros E. apply Hn. eauto.
    + intros j j' a a' v Hj Hj' Hv Hv'. apply Hinv in Hj as [Hn Hj]. apply Hinv in Hj' as [Hn' Hj']. eauto.
    + intros j a v Hj Hv. apply Hinv in Hj as [Hn Hj]. cbn. rewrite drop_length. eauto.
  - cbn in Hs. destruct (sk_at w k) as [o|] eqn:Ek; [|discriminate]. injection Hs as ->.
    pose proof (at_lt _ _ _ Ek) as Hk.
    assert (Hinv : forall j a v, sk_at (SkWorld (<[k:=Some (SkVec e KDefault None)]> (sw_objs w)) v) j = Some a ->
      j <> k /\ sk_at w j = Some a \/ j = k /\ a = SkVec e KDefault None).
    { intros j a v Hj. destruct (decide (j = k)) as [->|Hn].
      - rewrite at_ins in Hj by done. injection Hj as <-. by right.
      - rewrite at_ins_ne in Hj by done. by left. }
    split.
    + intros j a v Hj Hv. apply Hinv in Hj as [[Hn Hj]|[-> ->]]; [|discriminate]. cbn. rewrite drop_other; [eauto|]. intros E. apply Hn. eauto.
    + intros j j' a a' v Hj Hj' Hv Hv'. apply Hinv in Hj as [[Hn Hj]|[-> ->]]; [|discriminate].
      apply Hinv in Hj' as [[Hn' Hj']|[-> ->]]; [|discriminate]. eauto.
    + intros j a v Hj Hv. apply Hinv in Hj as [[Hn Hj]|[-> ->]]; [|discriminate]. cbn. rewrite drop_length. eauto.
  - cbn in Hs. destruct (sk_at w k) as [o|] eqn:Ek; [|discriminate]. destruct Hs as (data & Hd & [= ->]).
    pose proof (at_lt _ _ _ Ek) as Hk.
    assert (Hinv : forall j a v, sk_at (SkWorld (<[k:=Some (SkVec (sk_space o) (KOwns (length (sw_vecs w))) (Some (length (sw_vecs w))))]> (sw_objs w)) v) j = Some a ->
      j <> k /\ sk_at w j = Some a \/ j = k /\ a = SkVec (sk_space o) (KOwns (length (sw_vecs w))) (Some (length (sw_vecs w)))).
    { intros j a v Hj. destruct (decide (j = k)) as [->|Hn].
      - rewrite at_ins in Hj by done. injection Hj as <-. by right.
      - rewrite at_ins_ne in Hj by done. by left. }
    split.
    + intros j a v Hj Hv. apply Hinv in Hj as [[Hn Hj]|[-> ->]]; cbn in *.
      * destruct (Hl _ _ _ Hj Hv) as [d Ed]. exists d. rewrite lookup_app_l.
        -- rewrite drop_other; [done|]. intros E. apply Hn. eauto.
        -- rewrite drop_length. by apply lookup_lt_Some in Ed.
      * injection Hv as <-. exists data. rewrite lookup_app_r; rewrite drop_length; [|done]. by rewrite Nat.sub_diag.
    + intros j j' a a' v Hj Hj' Hv Hv'. apply Hinv in Hj as [[Hn Hj]|[-> ->]]; apply Hinv in Hj' as [[Hn' Hj']|[-> ->]]; cbn in *; eauto.
      * injection Hv' as <-. destruct (Hl _ _ _ Hj Hv) as [d Ed]. apply lookup_lt_Some in Ed. lia.
      * injection Hv as <-. destruct (Hl _ _ _ Hj' Hv') as [d Ed]. apply lookup_lt_Some in Ed. lia.
    + intros j a v Hj Hv. cbn. rewrite app_length, drop_length. cbn. apply Hinv in Hj as [[Hn Hj]|[-> ->]]; cbn in *.
      * specialize (Hh _ _ _ Hj Hv). lia.
      * injection Hv as <-. lia.
  - apply from_ok in Hs as (v & x & data & Ha & ->). apply access_ok in Ha as (_ & Hv & Hx & _). split.
    + intros j a u Hj Hu'. rewrite at_vecs in Hj. cbn. destruct (Hl _ _ _ Hj Hu') as [d Ed].
      destruct (decide (u = v)) as [->|Hn].
      * assert (x = NVec true (sk_space a) d) as -> by congruence. cbn. exists data.
        rewrite list_lookup_insert; [done|]. by apply lookup_lt_Some in Hv.
      * rewrite list_lookup_insert_ne by congruence. eauto.
    + intros j j' a a' u Hj Hj'. rewrite at_vecs in Hj, Hj'. eauto.
    + intros j a u Hj Hu'. rewrite at_vecs in Hj. cbn. rewrite insert_length. eauto.
Qed.
Lemma run_coherent ops w w' : coherent w -> sk_run ops w (Ok w') -> coherent w'.
Proof.
  revert w. induction ops as [|op ops IH]; intros w Hw H; [by injection H as ->|].
  apply run_ok in H as (w1 & H1 & H2). eapply IH; [|done]. by eapply step_coherent.
Qed.
Lemma history_coherent ops w : sk_run ops sk_empty (Ok w) -> coherent w.
Proof.
  apply run_coherent. split; intros; match goal with H : sk_at sk_empty ?k = _ |- _ => destruct k; discriminate end.
Qed.

(** Objects are never renumbered. *)
Lemma step_objs op w w' : sk_step op w (Ok w') -> length (sw_objs w) <= length (sw_objs w').
Proof.
  intros Hs. destruct op as [|k|k|k|k e|k n|k e field].
  - cbn in Hs. injection Hs as ->. cbn. rewrite app_length. lia.
  - cbn in Hs. destruct (sk_at w k) as [o|]; [|discriminate]. destruct (sk_kv o) as [|v|]; [| |discriminate].
    + injection Hs as ->. cbn. rewrite app_length. lia.
    + destruct (sw_vecs w !! v); [|discriminate]. destruct Hs as (d & _ & [= ->]). cbn. rewrite app_length. lia.
  - cbn in Hs. destruct (sk_at w k) as [o|]; [|discriminate]. injection Hs as ->. cbn. rewrite app_length, insert_length. lia.
  - cbn in Hs. destruct (sk_at w k) as [o|]; [|discriminate]. injection Hs as ->. cbn. by rewrite insert_length.
  - cbn in Hs. destruct (sk_at w k) as [o|]; [|discriminate]. injection Hs as ->. cbn. by rewrite insert_length.
  - cbn in Hs. destruct (sk_at w k) as [o|]; [|discriminate]. destruct Hs as (d & _ & [= ->]). cbn. by rewrite insert_length.
  - apply from_ok in Hs as (v & x & d & _ & ->). done.
Qed.

(** The object [k] holds [data], in an N_Vector no other object has a handle on. *)
Definition sole (w : skWorld) (k : nat) (e : executor) (data : list Qc) : Prop :=
  exists v, sk_at w k = Some (SkVec e (KOwns v) (Some v)) /\ sw_vecs w !! v = Some (NVec true e data) /\
    forall j o, j <> k -> sk_at w j = Some o -> sk_sv o <> Some v.
Lemma init_sole k n w w' : coherent w -> sk_step (SkInit k n) w (Ok w') ->
  exists o data, sk_at w k = Some o /\ length data = n /\ sole w' k (sk_space o) data.
Proof.
  intros [Hl Hu Hh] Hs. cbn in Hs. destruct (sk_at w k) as [o|] eqn:Ek; [|discriminate].
  destruct Hs as (data & Hd & [= ->]). exists o, data. split; [done|]. split; [done|].
  exists (length (sw_vecs w)). pose proof (at_lt _ _ _ Ek) as Hk. split; [|split].
  - by apply at_ins.
  - cbn. rewrite lookup_app_r; rewrite drop_length; [|done]. by rewrite Nat.sub_diag.
  - intros j a Hn Hj Hv. rewrite at_ins_ne in Hj by done. specialize (Hh _ _ _ Hj Hv). lia.
Qed.
Lemma step_sole op k e data w w' : coherent w -> ~ names k op -> sole w k e data -> sk_step op w (Ok w') -> sole w' k e data.
Proof.
  intros [Hl Hu Hh] Hn (v & Hk & Hv & Ho) Hs. pose proof (at_lt _ _ _ Hk) as Hlt.
  assert (Howner : forall j o, j <> k -> sk_at w j = Some o -> sk_kv o <> KOwns v).
  { intros j o Hj Ej E. apply Hj. by eapply (Hu j k o _ v). }
  exists v. destruct op as [|j|j|j|j f|j n|j f field]; cbn [names] in Hn.
  - cbn in Hs. injection Hs as ->. split; [by rewrite at_app_old|]. split; [done|].
    intros i o Hi Ei. apply at_app_inv in Ei as [[Ei _]|[_ [= <-]]]; [eauto|discriminate].
  - cbn in Hs. destruct (sk_at w j) as [o|] eqn:Ej; [|discriminate]. destruct (sk_kv o) as [|u|] eqn:Eu; [| |discriminate].
    + injection Hs as ->. split; [by rewrite at_app_old|]. split; [done|].
      intros i a Hi Ei. apply at_app_inv in Ei as [[Ei _]|[_ [= <-]]]; [eauto|discriminate].
    + destruct (sw_vecs w !! u) as [x|] eqn:Ex; [|discriminate]. destruct Hs as (d & _ & [= ->]).
      split; [by rewrite at_app_old|]. split; [cbn; rewrite lookup_app_l; [done|by apply lookup_lt_Some in Hv]|].
      intros i a Hi Ei. apply at_app_inv in Ei as [[Ei _]|[_ [= <-]]]; [eauto|]. cbn.
      intros [= ->]. by apply (Howner j o).
  - cbn in Hs. destruct (sk_at w j) as [o|] eqn:Ej; [|discriminate]. injection Hs as ->. pose proof (at_lt _ _ _ Ej) as Hj.
    split; [|split; [done|]].
    + unfold sk_at. cbn. rewrite lookup_app_l by (by rewrite insert_length). by rewrite list_lookup_insert_ne.
    + intros i a Hi Ei. set (w1 := SkWorld (<[j:=Some (SkVec (sk_space o) KMovedFrom (sk_sv o))]> (sw_objs w)) (sw_vecs w)).
      change (sk_at (SkWorld (sw_objs w1 ++ [Some (SkVec (sk_space o) (sk_kv o) (sk_sv o))]) (sw_vecs w)) i = Some a) in Ei.
      apply at_app_inv in Ei as [[Ei _]|[_ [= <-]]]; [|cbn; eauto].
      unfold w1 in Ei. destruct (decide (i = j)) as [->|Hij].
      * rewrite at_ins in Ei by done. injection Ei as <-. cbn. eauto.
      * rewrite at_ins_ne in Ei by done. eauto.
  - cbn in Hs. destruct (sk_at w j) as [o|] eqn:Ej; [|discriminate]. injection Hs as ->.
    split; [rewrite at_ins_ne by congruence; done|]. split; [cbn; rewrite drop_other; eauto|].
    intros i a Hi Ei. destruct (decide (i = j)) as [->|Hij].
    + rewrite at_ins in Ei; [discriminate|by eapply at_lt].
    + rewrite at_ins_ne in Ei by done. eauto.
  - cbn in Hs. destruct (sk_at w j) as [o|] eqn:Ej; [|discriminate]. injection Hs as ->.
    split; [rewrite at_ins_ne by congruence; done|]. split; [cbn; rewrite drop_other; eauto|].
    intros i a Hi Ei. destruct (decide (i = j)) as [->|Hij].
    + rewrite at_ins in Ei; [injection Ei as <-; done|by eapply at_lt].
    + rewrite at_ins_ne in Ei by done. eauto.
  - cbn in Hs. destruct (sk_at w j) as [o|] eqn:Ej; [|discriminate]. destruct Hs as (d & _ & [= ->]).
    split; [rewrite at_ins_ne by congruence; done|]. split.
    { cbn. rewrite lookup_app_l by (rewrite drop_length; by apply lookup_lt_Some in Hv). rewrite drop_other; eauto. }
    intros i a Hi Ei. destruct (decide (i = j)) as [->|Hij].
    + rewrite at_ins in Ei by (by eapply at_lt). injection Ei as <-. cbn. intros [= E]. apply lookup_lt_Some in Hv. lia.
    + rewrite at_ins_ne in Ei by done. eauto.
  - apply from_ok in Hs as (u & x & d & Ha & ->). apply access_ok in Ha as (Hh' & Hx & _).
    split; [done|]. split; [|done]. cbn. rewrite list_lookup_insert_ne; [done|]. intros ->.
    unfold sk_handle in Hh'. destruct (sk_at w j) as [o|] eqn:Ej; [|discriminate]. cbn in Hh'. by eapply Ho.
Qed.
Lemma run_sole ops k e data w w' : coherent w -> Forall (fun op => ~ names k op) ops -> sole w k e data ->
  sk_run ops w (Ok w') -> sole w' k e data.
Proof.
  revert w. induction ops as [|op ops IH]; intros w Hw Hn Hk H; [by injection H as ->|].
  apply run_ok in H as (w1 & H1 & H2). apply Forall_cons in Hn as [Hn1 Hn2].
  eapply IH; [by eapply step_coherent|done|by eapply step_sole|done].
Qed.

(** Writing and reading when the sizes agree. *)
Lemma access_at w k e v data : sk_handle w k = Some v -> sw_vecs w !! v = Some (NVec true e data) ->
  sk_access w k e = Ok (v, NVec true e data).
Proof. intros H1 H2. by apply access_ok. Qed.
Lemma write_at w k e v data field : sk_handle w k = Some v -> sw_vecs w !! v = Some (NVec true e data) ->
  length field = length data ->
  surely (sk_step (SkFrom k e field) w) (SkWorld (sw_objs w) (<[v := NVec true e field]> (sw_vecs w))).
Proof.
  intros H1 H2 Hl. intros r. cbn [sk_step]. rewrite (access_at _ _ _ _ _ H1 H2). cbn [nv_space nv_data].
  pose proof (fop_copy e data field (eq_sym Hl)) as Hc. unfold rseq. split.
  - intros [(d & Hd & ->)|[(y & Hy & _)|[[Hy _]|[Hy _]]]]; [|apply Hc in Hy; discriminate..].
    apply Hc in Hd as [= ->]. done.
  - intros ->. left. exists field. split; [by apply Hc|done].
Qed.
Lemma read_at w k e v data f : sk_handle w k = Some v -> sw_vecs w !! v = Some (NVec true e data) ->
  length f = length data -> surely (sk_read w k e f) data.
Proof.
  intros H1 H2 Hl r. unfold sk_read. rewrite (access_at _ _ _ _ _ H1 H2). cbn [nv_data].
  rewrite Hl. by apply fop_copy.
Qed.

(** An N_Vector once deleted. *)
Definition dead (w : skWorld) (k : nat) : Prop :=
  forall v, sk_handle w k = Some v -> exists x, sw_vecs w !! v = Some x /\ nv_live x = false.
Lemma step_dead op k w w' : k < length (sw_objs w) -> (forall n, op <> SkInit k n) -> dead w k ->
  sk_step op w (Ok w') -> dead w' k.
Proof.
  intros Hk Hn Hd Hs v Hv. unfold sk_handle in Hv. destruct op as [|j|j|j|j f|j n|j f field].
  - cbn in Hs. injection Hs as ->. rewrite at_app_old in Hv by done. by apply Hd.
  - cbn in Hs. destruct (sk_at w j) as [o|] eqn:Ej; [|discriminate]. destruct (sk_kv o) as [|u|] eqn:Eu; [| |discriminate].
    + injection Hs as ->. rewrite at_app_old in Hv by done. by apply Hd.
    + destruct (sw_vecs w !! u) as [x|] eqn:Ex; [|discriminate]. destruct Hs as (d & _ & [= ->]).
      rewrite at_app_old in Hv by done. destruct (Hd _ Hv) as (y & Hy & Hy'). exists y. split; [|done].
      cbn. rewrite lookup_app_l; [done|]. by apply lookup_lt_Some in Hy.
  - cbn in Hs. destruct (sk_at w j) as [o|] eqn:Ej; [|discriminate]. injection Hs as ->. apply Hd.
    unfold sk_handle. unfold sk_at in Hv. cbn [sw_objs] in Hv. rewrite lookup_app_l in Hv by (by rewrite insert_length).
    destruct (decide (k = j)) as [->|Hij].
    + rewrite list_lookup_insert in Hv by done. by rewrite Ej.
    + rewrite list_lookup_insert_ne in Hv by done. done.
  - cbn in Hs. destruct (sk_at w j) as [o|] eqn:Ej; [|discriminate]. injection Hs as ->.
    destruct (decide (k = j)) as [->|Hij]; [by rewrite at_ins in Hv|]. rewrite at_ins_ne in Hv by done.
    destruct (Hd _ Hv) as (y & Hy & Hy'). cbn. by eapply drop_dead.
  - cbn in Hs. destruct (sk_at w j) as [o|] eqn:Ej; [|discriminate]. injection Hs as ->.
    destruct (decide (k = j)) as [->|Hij]; [by rewrite at_ins in Hv|]. rewrite at_ins_ne in Hv by done.
    destruct (Hd _ Hv) as (y & Hy & Hy'). cbn. by eapply drop_dead.
  - cbn in Hs. destruct (sk_at w j) as [o|] eqn:Ej; [|discriminate]. destruct Hs as (d & _ & [= ->]).
    destruct (decide (k = j)) as [->|Hij]; [by destruct (Hn n)|]. rewrite at_ins_ne in Hv by done.
    destruct (Hd _ Hv) as (y & Hy & Hy'). cbn. pose proof (lookup_lt_Some _ _ _ Hy).
    rewrite lookup_app_l by (by rewrite drop_length). by eapply drop_dead.
  - apply from_ok in Hs as (u & x & d & Ha & ->). apply access_ok in Ha as (Hh' & Hx & Hlx & _).
    rewrite at_vecs in Hv. destruct (Hd _ Hv) as (y & Hy & Hy'). exists y. split; [|done]. cbn.
    rewrite list_lookup_insert_ne; [done|]. intros ->. congruence.
Qed.
Lemma run_dead ops k w w' : k < length (sw_objs w) -> Forall (fun op => forall n, op <> SkInit k n) ops -> dead w k ->
  sk_run ops w (Ok w') -> dead w' k.
Proof.
  revert w. induction ops as [|op ops IH]; intros w Hw Hn Hk H; [by injection H as ->|].
  apply run_ok in H as (w1 & H1 & H2). apply Forall_cons in Hn as [Hn1 Hn2].
  eapply IH; [|done| |done].
  - apply step_objs in H1. lia.
  - by eapply step_dead.
Qed.
