(** Every schedule: safety, progress, termination. *)
From Verif Require Import Base Mpi MpiSpec MpiProofs MpiWorldProofs MpiInv.
Local Open Scope nat_scope.

Definition comms_of (ms : maps) : list comm := map (fun sr => Comm sr.1 sr.2 [] 0 0 ∅) ms.

Section main.
Context (pl : platform) (u : user) (ms : maps).
Context (Hms : maps_ok ms) (Hu : user_ok ms u).
Notation n := (length ms).
Notation inv := (inv pl u ms).

Lemma init_lookup p pr : w_procs (world_init (comms_of ms)) !! p = Some pr ->
  exists sr, ms !! p = Some sr /\ pr = Proc (Comm sr.1 sr.2 [] 0 0 ∅) 0 [] [].
Proof.
  unfold world_init, comms_of. cbn [w_procs]. rewrite map_map. change (map ?f ms) with (f <$> ms).
  rewrite list_lookup_fmap. intros H. destruct (ms !! p) as [sr|]; [|done]. exists sr. split; [done|]. by injection H as <-.
Qed.

Lemma inv_init : inv (world_init (comms_of ms)).
Proof.
  split.
  - unfold world_init, comms_of. cbn [w_procs]. by rewrite !map_length.
  - intros p pr sr Hp Hsr. destruct (init_lookup p pr Hp) as (sr' & Hsr' & ->). assert (sr' = sr) as -> by congruence.
    split; [simpl; lia|]. left. split; [done|]. split; [done|]. split; [done|]. split.
    + intros name q. simpl. by rewrite lookup_empty.
    + by left.
  - intros s d ps pd Hs Hd. destruct (init_lookup s ps Hs) as (srs & Hsrs & ->). destruct (init_lookup d pd Hd) as (srd & Hsrd & ->).
    split; simpl; try done.
    + intros _ t. unfold pend_rounds, lo. simpl. constructor.
  - done.
  - intros p pr j res Hp Hj. destruct (init_lookup p pr Hp) as (sr & _ & ->). done.
Qed.

(** ** measure *)
Definition cntb (f : nat -> bool) : nat := length (filter (fun i => f i = true) (seq 0 n)).
Definition pm (pr : proc) : nat :=
  (u_rounds u - p_started pr) * (2 * n + 2) + (p_started pr - length (p_results pr)) + cntb (spend pr) + cntb (rpend pr).
Definition measure (w : world) : nat := sum_list (map pm (w_procs w)).

Lemma cntb_le f : cntb f <= n.
Proof. unfold cntb. etrans; [apply filter_length|]. by rewrite seq_length. Qed.
Lemma cntb_ext f g : (forall i, f i = g i) -> cntb f = cntb g.
Proof.
  intros H. unfold cntb. f_equal. generalize (seq 0 n). intros l. induction l as [|a l IH]; [done|].
  rewrite !filter_cons, H. case_decide; [by rewrite IH|done].
Qed.
Lemma cntb_flip f g i : i < n -> f i = true -> g i = false -> (forall k, k <> i -> f k = g k) -> cntb f = S (cntb g).
Proof.
  intros Hi Hf Hg H. unfold cntb.
  assert (G : forall l, NoDup l -> length (filter (fun k => f k = true) l) =
     (if decide (i ∈ l) then 1 else 0) + length (filter (fun k => g k = true) l)).
  { intros l. induction 1 as [|a l Ha Hnd IH]; [done|]. rewrite !filter_cons. destruct (decide (a = i)) as [->|Hne].
    - rewrite decide_True by done. rewrite (decide_False (P := g i = true)) by congruence. rewrite decide_True by set_solver.
      rewrite decide_False in IH by done. simpl. lia.
    - rewrite (H a Hne). assert (E : (if decide (i ∈ a :: l) then 1 else 0) = (if decide (i ∈ l) then 1 else 0)).
      { case_decide; case_decide; set_solver. }
      rewrite E. destruct (decide (g a = true)); cbn [length]; rewrite IH; lia. }
  rewrite G by apply NoDup_seq. rewrite decide_True; [done|]. apply elem_of_seq. lia.
Qed.

Lemma sum_insert (l : list proc) r pr pr' : l !! r = Some pr ->
  sum_list (map pm (<[r := pr']> l)) + pm pr = sum_list (map pm l) + pm pr'.
Proof.
  revert r. induction l as [|a l IH]; intros [|r] H; try done.
  - injection H as ->. simpl. lia.
  - specialize (IH r H). change (<[S r:=pr']> (a :: l)) with (a :: <[r:=pr']> l).
    change (sum_list (map pm (a :: <[r:=pr']> l))) with (pm a + sum_list (map pm (<[r:=pr']> l))).
    change (sum_list (map pm (a :: l))) with (pm a + sum_list (map pm l)). lia.
Qed.

Lemma deliver_step w s0 d0 t0 o : inv w -> act pl u (ADeliver s0 d0 t0) w = Some o ->
  exists w', o = Ok w' /\ inv w' /\ measure w' < measure w.
Proof.
  intros Hinv. unfold act. destruct (w_chan w s0 d0 t0) as [|[m|b] ch] eqn:Ech; [done| |].
  - destruct (w_posted w s0 d0 t0) as [|rv pst] eqn:Epo; [done|].
    destruct (w_procs w !! s0) as [ps|] eqn:Eps; [|done]. cbn [mbind option_bind]. intros [= <-].
    destruct (inv_buffer pl u ms Hms w s0 d0 t0 0
      (let! x := lib_read (p_comm ps) m d0 in
       Ok (World (<[s0 := set_comm ps x.2]> (w_procs w))
                      (upd3 (w_chan w) s0 d0 t0 (<[0 := MData x.1]> (w_chan w s0 d0 t0))) (w_posted w))))
      as (w1 & Ew1 & Hinv1 & ps0 & ps' & b & m' & Hps0 & Hw1 & S1 & S2 & S3 & S4 & S5 & S6 & S7 & S8 & S9 & S10 & S11); [done| |].
    { unfold act. rewrite Ech. cbn [lookup list_lookup mbind option_bind]. rewrite Eps. cbn [option_bind]. done. }
    assert (ps0 = ps) as -> by congruence. rewrite Ech in S8. injection S8 as <-.
    rewrite S9. cbn [obind fst snd]. rewrite <- S10.
    assert (Hc1 : w_chan w1 s0 d0 t0 = MData b :: ch).
    { rewrite S11. cbn [w_chan]. unfold upd3. rewrite bool_decide_eq_true_2 by done. by rewrite Ech. }
    assert (Hp1 : w_posted w1 s0 d0 t0 = rv :: pst) by (rewrite S11; done).
    destruct (inv_deliver_data pl u ms Hms w1 s0 d0 t0 b ch rv pst Hinv1 Hc1 Hp1)
      as (pd & pd' & Hpd & Hlw & Hpd' & Hinv2 & T1 & T2 & T3 & T4 & T5 & T6 & T7).
    rewrite Hw1 in Hpd. rewrite Hpd. cbn [oget obind]. rewrite Hlw. cbn [obind]. rewrite <- Hpd'.
    eexists. split; [done|]. split.
    + eapply inv_ext; [| | |exact Hinv2]; cbn [w_procs w_chan w_posted].
      * by rewrite Hw1.
      * intros s d t. rewrite S11. cbn [w_chan]. unfold upd3. by case_bool_decide.
      * intros s d t. rewrite S11. done.
    + unfold measure. cbn [w_procs].
      pose proof (sum_insert (<[s0:=ps']> (w_procs w)) d0 pd pd' Hpd) as E2.
      pose proof (sum_insert (w_procs w) s0 ps ps' Eps) as E1.
      assert (G1 : pm ps = S (pm ps')).
      { unfold pm. rewrite S1, S2, (cntb_ext _ _ S3), (cntb_flip (spend ps) (spend ps') d0); try done; try lia; intros k Hk; symmetry; auto. }
      assert (G2 : pm pd = S (pm pd')).
      { unfold pm. rewrite T1, T2, (cntb_ext _ _ T3), (cntb_flip (rpend pd) (rpend pd') s0); try done; try lia; intros k Hk; symmetry; auto. }
      lia.
  - destruct (w_posted w s0 d0 t0) as [|rv pst] eqn:Epo; [done|].
    destruct (inv_deliver_data pl u ms Hms w s0 d0 t0 b ch rv pst Hinv Ech Epo)
      as (pd & pd' & Hpd & Hlw & Hpd' & Hinv2 & T1 & T2 & T3 & T4 & T5 & T6 & T7).
    rewrite Hpd. cbn [mbind option_bind]. rewrite Hlw. cbn [obind]. rewrite <- Hpd'. intros [= <-].
    eexists. split; [done|]. split; [done|].
    unfold measure. cbn [w_procs].
    pose proof (sum_insert (w_procs w) d0 pd pd' Hpd) as E2.
    assert (G2 : pm pd = S (pm pd')).
    { unfold pm. rewrite T1, T2, (cntb_ext _ _ T3), (cntb_flip (rpend pd) (rpend pd') s0); try done; try lia; intros k Hk; symmetry; auto. }
    lia.
Qed.

Lemma step_ok w a o : inv w -> act pl u a w = Some o -> exists w', o = Ok w' /\ inv w' /\
  measure w' + (if is_test a then 0 else 1) <= measure w.
Proof.
  intros Hinv Ha. destruct a as [r|r|r|s d t i|s d t]; cbn [is_test].
  - assert (Hr : exists pr, w_procs w !! r = Some pr).
    { unfold act in Ha. destruct (w_procs w !! r); [by eexists|done]. }
    destruct Hr as [pr Hr].
    destruct (inv_start pl u ms Hms Hu w r pr o Hinv Hr Ha) as (w' & -> & Hinv' & pr' & Hw & H1 & H2 & H3).
    exists w'. split; [done|]. split; [done|]. unfold measure. rewrite Hw.
    pose proof (sum_insert (w_procs w) r pr pr' Hr) as E.
    assert (G : pm pr' < pm pr).
    { unfold pm. rewrite H1, H2. pose proof (cntb_le (spend pr')). pose proof (cntb_le (rpend pr')).
      replace (u_rounds u - p_started pr) with (S (u_rounds u - S (p_started pr))) by lia. nia. }
    lia.
  - destruct (inv_test pl u ms Hms w r o Hinv Ha) as (w' & pr & pr' & -> & Hinv' & Hr & Hw & H1 & H2 & H3 & H4).
    exists w'. split; [done|]. split; [done|]. unfold measure. rewrite Hw.
    pose proof (sum_insert (w_procs w) r pr pr' Hr) as E.
    assert (G : pm pr' = pm pr). { unfold pm. by rewrite H1, H2, (cntb_ext _ _ H3), (cntb_ext _ _ H4). }
    lia.
  - assert (Hr : exists pr, w_procs w !! r = Some pr).
    { unfold act in Ha. destruct (w_procs w !! r); [by eexists|done]. }
    destruct Hr as [pr Hr].
    destruct (inv_finalise pl u ms Hms Hu w r pr o Hinv Hr Ha) as (w' & pr' & -> & Hinv' & Hw & H1 & H2 & H3 & H4).
    exists w'. split; [done|]. split; [done|]. unfold measure. rewrite Hw.
    pose proof (sum_insert (w_procs w) r pr pr' Hr) as E.
    assert (G : pm pr' < pm pr).
    { unfold pm. rewrite H1, H2. rewrite (cntb_ext (spend pr') (fun _ => false)), (cntb_ext (rpend pr') (fun _ => false)) by apply H4.
      assert (Ez : cntb (fun _ => false) = 0).
      { unfold cntb. generalize (seq 0 n). intros l. induction l; [done|]. by rewrite filter_cons, decide_False. }
      rewrite Ez. unfold in_flight in H3. nia. }
    lia.
  - destruct (inv_buffer pl u ms Hms w s d t i o Hinv Ha)
      as (w1 & -> & Hinv1 & ps & ps' & b & m' & Hps0 & Hw1 & S1 & S2 & S3 & S4 & S5 & S6 & S7 & _).
    exists w1. split; [done|]. split; [done|]. unfold measure. rewrite Hw1.
    pose proof (sum_insert (w_procs w) s ps ps' Hps0) as E1.
    assert (G1 : pm ps = S (pm ps')).
    { unfold pm. rewrite S1, S2, (cntb_ext _ _ S3), (cntb_flip (spend ps) (spend ps') d); try done; try lia; intros k Hk; symmetry; auto. }
    lia.
  - destruct (deliver_step w s d t o Hinv Ha) as (w' & ? & ? & ?). exists w'. split; [done|]. split; [done|]. lia.
Qed.

Lemma run_ok acts : forall w, inv w -> exists w', run pl u acts w = Ok w' /\ inv w'.
Proof.
  induction acts as [|a acts IH]; intros w Hinv; [by exists w|]. cbn [run].
  destruct (act pl u a w) as [o|] eqn:Ea; [|by apply IH].
  destruct (step_ok w a o Hinv Ea) as (w' & -> & Hinv' & _). cbn [obind]. by apply IH.
Qed.

(** some rank that has started the fewest rounds among those not finished can move,
    or the library can *)
Lemma progress w : inv w -> (exists p pr, w_procs w !! p = Some pr /\ length (p_results pr) < u_rounds u) ->
  exists a o, is_test a = false /\ act pl u a w = Some o.
Proof.
  intros Hinv (p & pr & Hp & Hlt). remember (length (p_results pr)) as k eqn:Ek. revert p pr Hp Ek Hlt.
  induction k as [k IH] using lt_wf_ind. intros p pr Hp -> Hlt.
  pose proof Hinv as [Hlen Hproc Hpair Hout Hres].
  assert (Hpn : p < n) by (apply lookup_lt_Some in Hp; lia).
  destruct (maps_get ms Hms p Hpn) as (sr & Hsr & Hl1 & Hl2).
  destruct (Hproc p pr sr Hp Hsr) as (Hst & [[Hid Hidle]|[Hfl (f & Hcf & Hfd & Hpk)]]).
  { exists (AStart p). unfold act. rewrite Hp. cbn [mbind option_bind].
    replace (p_started pr <? u_rounds u) with true by (symmetry; apply Nat.ltb_lt; lia).
    replace (length (p_results pr) =? p_started pr) with true by (symmetry; apply Nat.eqb_eq; lia). eexists; split; [done|]; done. }
  set (j := length (p_results pr)) in *.
  pose proof Hcf as (F1 & F2 & F3 & F4 & F5 & F6 & (F7 & _) & (F8 & _)).
  destruct (decide (Forall (fun r => r <> RPending) (h_reqs (f_send f)))) as [Hsnd|Hsnd].
  2:{ (* a send is still referenced: the library can buffer it *)
    apply not_Forall_Exists, Exists_exists in Hsnd as (q & Hq & Hqp); [|intros; apply not_dec; solve_decision || apply _].
    apply elem_of_list_lookup_1 in Hq as [d Hd]. apply dec_stable in Hqp. subst q.
    assert (Hdn : d < n) by (apply lookup_lt_Some in Hd; rewrite (hb_reqs _ _ _ F7) in Hd; done).
    destruct (lookup_lt_is_Some_2 (w_procs w) d) as [pd Hpd]; [lia|].
    destruct (Hpair p d pr pd Hp Hpd) as [_ _ _ A4 _ _ _].
    assert (Hsp : spend pr d = true) by (unfold spend; rewrite F5; by apply bool_decide_eq_true_2).
    destruct (A4 Hsp) as (_ & i & m & Hm).
    exists (ABuffer p d (tag pl u j) i). unfold act. fold j in Hm. rewrite Hm. cbn [mbind option_bind]. rewrite Hp. cbn [option_bind]. eexists; split; [done|]; done. }
  destruct (decide (Forall (fun r => r <> RPending) (h_reqs (f_recv f)))) as [Hrcv|Hrcv].
  - (* nothing pending: finalise *)
    destruct (Hu j Hlt) as [Hsz Huf]. destruct (Huf p sr (p_results pr) Hsr) as [_ Hf2].
    destruct (finaliseComm_flight pl n sr (u_size u j) (tag pl u j) (u_name u j) (p_comm pr) f
       (u_mid u j p (u_in u j p (p_results pr)))) as [Hyes _]; try done. { apply Hms. }
    destruct (Hyes (conj Hsnd Hrcv)) as (c' & E & _).
    exists (AFinalise p). unfold act. rewrite Hp. cbn [mbind option_bind]. fold j.
    replace (j <? p_started pr) with true by (symmetry; apply Nat.ltb_lt; unfold in_flight in Hfl; lia).
    rewrite Hlen, Hfd, E. eexists; split; [done|]; done.
  - (* waiting for a message from s *)
    apply not_Forall_Exists, Exists_exists in Hrcv as (q & Hq & Hqp); [|intros; apply not_dec; solve_decision || apply _].
    apply elem_of_list_lookup_1 in Hq as [s Hs]. apply dec_stable in Hqp. subst q.
    assert (Hsn : s < n) by (apply lookup_lt_Some in Hs; rewrite (hb_reqs _ _ _ F8) in Hs; done).
    destruct (lookup_lt_is_Some_2 (w_procs w) s) as [ps Hps]; [lia|].
    destruct (Hpair s p ps pr Hps Hp) as [A1 A2 A3 A4 A5 A6 A7].
    assert (Hrp : rpend pr s = true) by (unfold rpend; rewrite F5; by apply bool_decide_eq_true_2).
    assert (Hc : 0 < length (send_to ms s p)).
    { destruct (decide (length (send_to ms s p) = 0)) as [E|]; [|lia]. destruct (A1 E) as (_ & B & _). congruence. }
    specialize (A3 Hc (tag pl u j)). specialize (A6 (tag pl u j)). rewrite Hrp in A6. fold j in A6.
    rewrite bool_decide_eq_true_2 in A6 by done. cbn [andb] in A6.
    destruct (w_chan w s p (tag pl u j)) as [|m ch] eqn:Ech.
    + (* s has not started round j: it is behind, and can move or is itself waiting *)
      assert (Hbehind : p_started ps <= j).
      { destruct (decide (p_started ps <= j)); [done|]. exfalso. unfold pend_rounds in A3.
        assert (Elo : lo pr s = j) by (unfold lo; rewrite Hrp; unfold in_flight in Hfl; lia). rewrite Elo in A3.
        replace (p_started ps - j) with (S (p_started ps - S j)) in A3 by lia. cbn [seq] in A3.
        rewrite filter_cons, decide_True in A3 by done. inversion A3. }
      destruct (maps_get ms Hms s Hsn) as (srs & Hsrs & _).
      destruct (Hproc s ps srs Hps Hsrs) as (_ & [[Hids _]|[Hfls _]]).
      * exists (AStart s). unfold act. rewrite Hps. cbn [mbind option_bind].
        replace (p_started ps <? u_rounds u) with true by (symmetry; apply Nat.ltb_lt; lia).
        replace (length (p_results ps) =? p_started ps) with true by (symmetry; apply Nat.eqb_eq; lia). eexists; split; [done|]; done.
      * unfold in_flight in Hfls. apply (IH (length (p_results ps))) with (p := s) (pr := ps); try done; lia.
    + exists (ADeliver s p (tag pl u j)). unfold act. rewrite Ech, A6. destruct m as [m|b].
      * rewrite Hps. cbn [mbind option_bind]. eexists; split; [done|]; done.
      * rewrite Hp. cbn [mbind option_bind]. eexists; split; [done|]; done.
Qed.

Lemma measure_init : measure (world_init (comms_of ms)) = n * (u_rounds u * (2 * n + 2)).
Proof.
  unfold measure.
  assert (G : forall pr, pr ∈ w_procs (world_init (comms_of ms)) -> pm pr = u_rounds u * (2 * n + 2)).
  { intros pr Hp. apply elem_of_list_lookup_1 in Hp as [p Hp]. destruct (init_lookup p pr Hp) as (sr & _ & ->).
    unfold pm. cbn [p_started p_results length].
    assert (Ez : forall f, (forall i, f i = false) -> cntb f = 0).
    { intros f Hf. unfold cntb. generalize (seq 0 n). intros l. induction l; [done|]. rewrite filter_cons, decide_False; [done|].
      by rewrite Hf. }
    rewrite !Ez by done. lia. }
  assert (Hl : length (w_procs (world_init (comms_of ms))) = n) by (unfold world_init, comms_of; cbn [w_procs]; by rewrite !map_length).
  rewrite <- Hl at 1. revert G. generalize (w_procs (world_init (comms_of ms))). clear Hl. intros l.
  induction l as [|a l IH]; intros G; [done|].
  change (sum_list (map pm (a :: l))) with (pm a + sum_list (map pm l)).
  rewrite G by set_solver. rewrite IH by (intros; apply G; set_solver). cbn [length]. lia.
Qed.

Lemma effective_bound acts : forall w, inv w -> effective pl u acts w ->
  length (filter (fun a => is_test a = false) acts) <= measure w.
Proof.
  induction acts as [|a acts IH]; intros w Hinv He; [simpl; lia|]. destruct He as (w' & Ha & He).
  destruct (step_ok w a _ Hinv Ha) as (w2 & [= <-] & Hinv' & Hm). specialize (IH w' Hinv' He). rewrite filter_cons. destruct (is_test a); case_decide; simpl; try done; lia.
Qed.
End main.
