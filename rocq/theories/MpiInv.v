(** The invariant of all ranks and the MPI library together. *)
From Verif Require Import Base Mpi MpiSpec MpiProofs MpiWorldProofs.
Local Open Scope nat_scope.

Section inv.
Context (pl : platform) (u : user) (ms : maps).
Context (Hms : maps_ok ms) (Hu : user_ok ms u).
Notation n := (length ms).
Definition tag (j : nat) : Z := bufferHash pl (u_name u j).
Notation sz j := (u_size u j).
Notation cnt s d := (length (send_to ms s d)).

Definition rpend (pr : proc) (s : nat) : bool :=
  match c_bufs (p_comm pr) with f :: _ => bool_decide (h_reqs (f_recv f) !! s = Some RPending) | [] => false end.
Definition spend (pr : proc) (d : nat) : bool :=
  match c_bufs (p_comm pr) with f :: _ => bool_decide (h_reqs (f_send f) !! d = Some RPending) | [] => false end.
Definition rdata (pr : proc) : list byte :=
  match c_bufs (p_comm pr) with f :: _ => h_data (f_recv f) | [] => [] end.

Definition in_flight (pr : proc) : Prop := p_started pr = S (length (p_results pr)).
Definition lo (pd : proc) (s : nat) : nat := p_started pd - (if rpend pd s then 1 else 0).

Definition proc_ok (p : nat) (sr : list (list nat) * list (list nat)) (pr : proc) : Prop :=
  p_started pr <= u_rounds u /\
  ((length (p_results pr) = p_started pr /\ comm_idle n sr (p_comm pr)) \/
   (in_flight pr /\ exists f, let j := length (p_results pr) in
      comm_flight n sr (sz j) (tag j) (u_name u j) (p_comm pr) f /\
      p_field pr = u_in u j p (p_results pr) /\
      packed sr.1 (sz j) (p_field pr) (h_data (f_send f)))).

Definition good_bytes (j s d : nat) (ps : proc) (b : list byte) : Prop :=
  length b = cnt s d * sz j /\
  forall k l v, send_to ms s d !! k = Some l -> input u j s ps !! l = Some v -> slot (sz j) (k * sz j) b = v.

Definition msg_ok (s : nat) (ps : proc) (d : nat) (j : nat) (m : msg) : Prop :=
  match m with
  | MData b => good_bytes j s d ps b
  | MRef r => S j = p_started ps /\ in_flight ps /\ spend ps d = true /\
      forall sr, ms !! s = Some sr -> r = MRefTo (1, 0) (pos (length <$> sr.1) (sz j) d 0) (cnt s d * sz j)
  end.

Definition pend_rounds (ps pd : proc) (s : nat) (t : Z) : list nat :=
  filter (fun j => tag j = t) (seq (lo pd s) (p_started ps - lo pd s)).

Record pair_ok (w : world) (s d : nat) (ps pd : proc) : Prop := PairOk {
  pk_zero : cnt s d = 0 -> (forall t, w_chan w s d t = []) /\ rpend pd s = false /\ spend ps d = false;
  pk_lo : 0 < cnt s d -> lo pd s <= p_started ps;
  pk_chan : 0 < cnt s d -> forall t, Forall2 (msg_ok s ps d) (pend_rounds ps pd s t) (w_chan w s d t);
  pk_spend : spend ps d = true -> in_flight ps /\
     exists i r, w_chan w s d (tag (length (p_results ps))) !! i = Some (MRef r);
  pk_rpend : rpend pd s = true -> in_flight pd;
  pk_posted : forall t, w_posted w s d t =
     if rpend pd s && bool_decide (tag (length (p_results pd)) = t)
     then [MRefTo (1, 0) (pos (length <$> (default ([], []) (ms !! d)).2) (sz (length (p_results pd))) s 0)
             (cnt s d * sz (length (p_results pd)))] else [];
  pk_recv : in_flight pd -> rpend pd s = false ->
     forall k l v, send_to ms s d !! k = Some l -> input u (length (p_results pd)) s ps !! l = Some v ->
     slot (sz (length (p_results pd)))
          (pos (length <$> (default ([], []) (ms !! d)).2) (sz (length (p_results pd))) s k) (rdata pd) = v;
}.

Record inv (w : world) : Prop := Inv {
  i_len : length (w_procs w) = n;
  i_proc : forall p pr sr, w_procs w !! p = Some pr -> ms !! p = Some sr -> proc_ok p sr pr;
  i_pair : forall s d ps pd, w_procs w !! s = Some ps -> w_procs w !! d = Some pd -> pair_ok w s d ps pd;
  i_out : forall s d t, ~ (s < n /\ d < n) -> w_chan w s d t = [] /\ w_posted w s d t = [];
  i_res : exchanged ms u w;
}.

Lemma inv_ext w w' : w_procs w' = w_procs w -> (forall s d t, w_chan w' s d t = w_chan w s d t) ->
  (forall s d t, w_posted w' s d t = w_posted w s d t) -> inv w -> inv w'.
Proof.
  intros Hp Hc Hq [H1 H2 H3 H4 H5]. split.
  - by rewrite Hp.
  - intros p pr sr. rewrite Hp. apply H2.
  - intros s d ps pd. rewrite Hp. intros Hs Hd. destruct (H3 s d ps pd Hs Hd) as [A1 A2 A3 A4 A5 A6 A7].
    split; try done.
    + intros H. destruct (A1 H) as (B1 & B2). split; [|done]. intros t. rewrite Hc. apply B1.
    + intros H t. rewrite Hc. by apply A3.
    + intros H. destruct (A4 H) as (B1 & i & r & B2). split; [done|]. exists i, r. by rewrite Hc.
    + intros t. rewrite Hq. apply A6.
  - intros s d t H. rewrite Hc, Hq. by apply H4.
  - intros p pr j res. rewrite Hp. intros A B. destruct (H5 p pr j res A B) as (C1 & C2 & C3).
    split; [done|]. split; [done|]. done.
Qed.

(** ** sending *)
Lemma do_sends_ok me p counts size tg ranks ch s d t : NoDup ranks ->
  do_sends me p (posts_of counts size tg ranks) ch s d t =
  ch s d t ++ (if bool_decide (s = me /\ t = tg /\ d ∈ ranks) then
     match counts !! d with
     | Some (S k) => [MRef (MRefTo p (sum_list (take d counts) * size) (S k * size))] | _ => [] end else []).
Proof.
  intros Hnd. revert ch. induction Hnd as [|r ranks Hr Hnd IH]; intros ch.
  - unfold do_sends, posts_of. cbn [omap list_omap foldl]. rewrite bool_decide_eq_false_2 by (intros (_ & _ & H); by apply elem_of_nil in H).
    by rewrite app_nil_r.
  - assert (E : posts_of counts size tg (r :: ranks) =
      (match counts !! r with Some (S k) => [Post r (sum_list (take r counts) * size) (S k * size) tg] | _ => [] end)
      ++ posts_of counts size tg ranks).
    { unfold posts_of. cbn [omap list_omap]. by destruct (counts !! r) as [[|k]|]. }
    rewrite E. clear E. destruct (counts !! r) as [[|k]|] eqn:Ek; cbn [app].
    1,3: rewrite IH; f_equal; destruct (decide (d = r)) as [->|Hne];
      [rewrite Ek; case_bool_decide; case_bool_decide; done
      |rewrite (bool_decide_ext (s = me /\ t = tg /\ d ∈ ranks) (s = me /\ t = tg /\ d ∈ r :: ranks)) by set_solver; done].
    unfold do_sends. cbn [foldl po_rank po_tag po_off po_len]. fold (do_sends me p (posts_of counts size tg ranks)).
    change (foldl _ ?c (posts_of counts size tg ranks)) with (do_sends me p (posts_of counts size tg ranks) c).
    rewrite IH. unfold upd3 at 1. destruct (decide (s = me /\ d = r /\ t = tg)) as [(-> & -> & ->)|Hne].
    + rewrite bool_decide_eq_true_2 by done.
      rewrite (bool_decide_eq_false_2 (me = me /\ tg = tg /\ r ∈ ranks)) by naive_solver.
      rewrite (bool_decide_eq_true_2 (me = me /\ tg = tg /\ r ∈ r :: ranks)) by set_solver.
      rewrite Ek, app_nil_r. done.
    + rewrite bool_decide_eq_false_2 by done. f_equal.
      rewrite (bool_decide_ext (s = me /\ t = tg /\ d ∈ ranks) (s = me /\ t = tg /\ d ∈ r :: ranks)); [done|].
      rewrite elem_of_cons. naive_solver.
Qed.

Lemma do_recvs_ok me p counts size tg ranks ch s d t : NoDup ranks ->
  do_recvs me p (posts_of counts size tg ranks) ch s d t =
  ch s d t ++ (if bool_decide (d = me /\ t = tg /\ s ∈ ranks) then
     match counts !! s with
     | Some (S k) => [MRefTo p (sum_list (take s counts) * size) (S k * size)] | _ => [] end else []).
Proof.
  intros Hnd. revert ch. induction Hnd as [|r ranks Hr Hnd IH]; intros ch.
  - unfold do_recvs, posts_of. cbn [omap list_omap foldl]. rewrite bool_decide_eq_false_2 by (intros (_ & _ & H); by apply elem_of_nil in H).
    by rewrite app_nil_r.
  - assert (E : posts_of counts size tg (r :: ranks) =
      (match counts !! r with Some (S k) => [Post r (sum_list (take r counts) * size) (S k * size) tg] | _ => [] end)
      ++ posts_of counts size tg ranks).
    { unfold posts_of. cbn [omap list_omap]. by destruct (counts !! r) as [[|k]|]. }
    rewrite E. clear E. destruct (counts !! r) as [[|k]|] eqn:Ek; cbn [app].
    1,3: rewrite IH; f_equal; destruct (decide (s = r)) as [->|Hne];
      [rewrite Ek; case_bool_decide; case_bool_decide; done
      |rewrite (bool_decide_ext (d = me /\ t = tg /\ s ∈ ranks) (d = me /\ t = tg /\ s ∈ r :: ranks)) by set_solver; done].
    unfold do_recvs. cbn [foldl po_rank po_tag po_off po_len].
    change (foldl _ ?c (posts_of counts size tg ranks)) with (do_recvs me p (posts_of counts size tg ranks) c).
    rewrite IH. unfold upd3 at 1. destruct (decide (s = r /\ d = me /\ t = tg)) as [(-> & -> & ->)|Hne].
    + rewrite bool_decide_eq_true_2 by done.
      rewrite (bool_decide_eq_false_2 (me = me /\ tg = tg /\ r ∈ ranks)) by naive_solver.
      rewrite (bool_decide_eq_true_2 (me = me /\ tg = tg /\ r ∈ r :: ranks)) by set_solver.
      rewrite Ek, app_nil_r. done.
    + rewrite bool_decide_eq_false_2 by naive_solver. f_equal.
      rewrite (bool_decide_ext (d = me /\ t = tg /\ s ∈ ranks) (d = me /\ t = tg /\ s ∈ r :: ranks)); [done|].
      rewrite elem_of_cons. naive_solver.
Qed.

Lemma maps_get p : p < n -> exists sr, ms !! p = Some sr /\ length sr.1 = n /\ length sr.2 = n.
Proof. intros H. destruct (lookup_lt_is_Some_2 ms p H) as [sr Hs]. exists sr. split; [done|]. by apply (mo_len _ Hms p). Qed.
Lemma send_to_get s d sr : ms !! s = Some sr -> d < n -> sr.1 !! d = Some (send_to ms s d).
Proof.
  intros Hs Hd. unfold send_to. rewrite Hs. simpl. destruct (mo_len _ Hms s sr Hs) as [Hl _].
  destruct (lookup_lt_is_Some_2 sr.1 d) as [m Hm]; [lia|]. by rewrite Hm.
Qed.
Lemma recv_from_get d s sr : ms !! d = Some sr -> s < n -> sr.2 !! s = Some (recv_from ms d s).
Proof.
  intros Hs Hd. unfold recv_from. rewrite Hs. simpl. destruct (mo_len _ Hms d sr Hs) as [_ Hl].
  destruct (lookup_lt_is_Some_2 sr.2 s) as [m Hm]; [lia|]. by rewrite Hm.
Qed.

(** [msg_ok] only looks at part of the sender *)
Lemma msg_ok_ext s ps ps' d j m : msg_ok s ps d j m -> j < p_started ps ->
  p_started ps' = p_started ps -> p_results ps' = p_results ps -> spend ps' d = spend ps d ->
  msg_ok s ps' d j m.
Proof.
  intros H Hj H1 H2 H3. destruct m as [r|b]; simpl in *.
  - unfold in_flight in *. rewrite H1, H2, H3. done.
  - unfold good_bytes, input in *. by rewrite H2.
Qed.

Lemma idle_rpend sr pr s : comm_idle n sr (p_comm pr) -> rpend pr s = false.
Proof.
  intros (_ & _ & _ & [(Hb & _)|(f & Hb & _ & _ & (_ & _ & Hq))]); unfold rpend; rewrite Hb; [done|].
  apply bool_decide_eq_false_2. intros H. eapply Forall_lookup_1 in Hq; eauto. done.
Qed.
Lemma idle_spend sr pr s : comm_idle n sr (p_comm pr) -> spend pr s = false.
Proof.
  intros (_ & _ & _ & [(Hb & _)|(f & Hb & _ & (_ & _ & Hq) & _)]); unfold spend; rewrite Hb; [done|].
  apply bool_decide_eq_false_2. intros H. eapply Forall_lookup_1 in Hq; eauto. done.
Qed.

Lemma exchanged_ext w w' :
  (forall p pr', w_procs w' !! p = Some pr' -> exists pr, w_procs w !! p = Some pr /\ p_results pr' = p_results pr) ->
  exchanged ms u w -> exchanged ms u w'.
Proof.
  intros H E p pr' j res Hp Hj. destruct (H p pr' Hp) as (pr & Hp0 & Hr). rewrite Hr in Hj.
  destruct (E p pr j res Hp0 Hj) as (C1 & C2 & C3). unfold input in *. rewrite Hr. split; [done|]. split; [done|].
  intros s ps' k i l Hs. destruct (H s ps' Hs) as (ps & Hs0 & Hrs). rewrite Hrs. apply C3. done.
Qed.

Lemma pend_rounds_in ps pd s t j i : pend_rounds ps pd s t !! i = Some j -> tag j = t /\ lo pd s <= j < p_started ps.
Proof.
  intros H. apply elem_of_list_lookup_2 in H. unfold pend_rounds in H. apply elem_of_list_filter in H as [H1 H2].
  apply elem_of_seq in H2. split; [done|lia].
Qed.
Lemma pend_rounds_nodup ps pd s t : NoDup (pend_rounds ps pd s t).
Proof. apply NoDup_filter, NoDup_seq. Qed.

Lemma procs_insert (l : list proc) r pr' s ps : <[r := pr']> l !! s = Some ps ->
  (s = r /\ ps = pr' /\ r < length l) \/ (s <> r /\ l !! s = Some ps).
Proof. intros H. apply list_lookup_insert_Some in H. naive_solver. Qed.

(** ** startComm *)
Lemma inv_start w r pr o : inv w -> w_procs w !! r = Some pr ->
  act pl u (AStart r) w = Some o -> exists w', o = Ok w' /\ inv w' /\
    exists pr', w_procs w' = <[r := pr']> (w_procs w) /\ p_started pr' = S (p_started pr) /\ p_results pr' = p_results pr /\
      p_started pr < u_rounds u.
Proof.
  intros Hinv Hr. pose proof Hinv as [Hlen Hproc Hpair Hout Hres]. unfold act. rewrite Hr. cbn [mbind option_bind].
  destruct ((p_started pr <? u_rounds u) && (length (p_results pr) =? p_started pr)) eqn:Eg; [|done].
  apply andb_true_iff in Eg as [Eg1 Eg2]. apply Nat.ltb_lt in Eg1. apply Nat.eqb_eq in Eg2.
  intros [= <-].
  assert (Hrn : r < n) by (apply lookup_lt_Some in Hr; lia).
  destruct (maps_get r Hrn) as (sr & Hsr & Hl1 & Hl2).
  destruct (Hproc r pr sr Hr Hsr) as (Hst & [[_ Hidle]|[Hfl _]]); [|unfold in_flight in Hfl; lia].
  set (j := p_started pr) in *. destruct (Hu j Eg1) as [Hsz Huf]. destruct (Huf r sr (p_results pr) Hsr) as [Hf1 Hf2].
  rewrite Hlen.
  destruct (startComm_idle pl n sr (sz j) (u_in u j r (p_results pr)) (u_name u j) (p_comm pr))
    as (c' & f & -> & Hflight & Hpk & Hq1 & Hq2); try done. { apply Hms. }
  cbn [obind fst snd]. eexists. split; [done|]. fold (tag j) in *.
  set (pr' := Proc c' (S j) (u_in u j r (p_results pr)) (p_results pr)).
  assert (Hbf : c_bufs c' = [f]) by apply Hflight.
  assert (HS : forall d, d < n -> spend pr' d = bool_decide (0 < cnt r d)).
  { intros d Hd. unfold spend. cbn [pr' p_comm]. rewrite Hbf, Hq1 by done.
    rewrite (counts_lookup _ _ _ (send_to_get r d sr Hsr Hd)). apply bool_decide_ext.
    destruct (cnt r d); [|naive_solver lia]. split; [done|lia]. }
  assert (HR : forall s, s < n -> rpend pr' s = bool_decide (0 < cnt s r)).
  { intros s Hs. unfold rpend. cbn [pr' p_comm]. rewrite Hbf, Hq2 by done.
    rewrite (counts_lookup _ _ _ (recv_from_get r s sr Hsr Hs)). rewrite (mo_match _ Hms s r Hs Hrn). apply bool_decide_ext.
    destruct (length (recv_from ms r s)); [|naive_solver lia]. split; [done|lia]. }
  assert (HS0 : forall d, spend pr d = false) by (intros; by eapply idle_spend).
  assert (HR0 : forall d, rpend pr d = false) by (intros; by eapply idle_rpend).
  split; [|exists pr'; done].
  set (ch' := do_sends _ _ _ _). set (po' := do_recvs _ _ _ _).
  assert (Hch : forall s d t, s < n -> d < n -> ch' s d t = w_chan w s d t ++
     if bool_decide (s = r /\ t = tag j /\ 0 < cnt s d)
     then [MRef (MRefTo (1, 0) (pos (length <$> sr.1) (sz j) d 0) (cnt s d * sz j))] else []).
  { intros s d t Hs Hd. unfold ch'. rewrite do_sends_ok by apply NoDup_seq. f_equal.
    destruct (decide (s = r)) as [->|Hne]; [|rewrite !bool_decide_eq_false_2 by naive_solver; done].
    destruct (decide (t = tag j)) as [->|Hne]; [|rewrite !bool_decide_eq_false_2 by naive_solver; done].
    rewrite (bool_decide_eq_true_2 (r = r /\ tag j = tag j /\ d ∈ seq 0 n)) by (split; [done|split; [done|apply elem_of_seq; lia]]).
    rewrite (counts_lookup _ _ _ (send_to_get r d sr Hsr Hd)). unfold pos. rewrite Nat.add_0_r.
    destruct (cnt r d) eqn:Ec.
    - rewrite bool_decide_eq_false_2 by lia. done.
    - rewrite bool_decide_eq_true_2 by (repeat split; lia). done. }
  assert (Hpo : forall s d t, s < n -> d < n -> po' s d t = w_posted w s d t ++
     if bool_decide (d = r /\ t = tag j /\ 0 < cnt s d)
     then [MRefTo (1, 0) (pos (length <$> sr.2) (sz j) s 0) (cnt s d * sz j)] else []).
  { intros s d t Hs Hd. unfold po'. rewrite do_recvs_ok by apply NoDup_seq. f_equal.
    destruct (decide (d = r)) as [->|Hne]; [|rewrite !bool_decide_eq_false_2 by naive_solver; done].
    destruct (decide (t = tag j)) as [->|Hne]; [|rewrite !bool_decide_eq_false_2 by naive_solver; done].
    rewrite (bool_decide_eq_true_2 (r = r /\ tag j = tag j /\ s ∈ seq 0 n)) by (split; [done|split; [done|apply elem_of_seq; lia]]).
    rewrite (counts_lookup _ _ _ (recv_from_get r s sr Hsr Hs)), (mo_match _ Hms s r Hs Hrn). unfold pos. rewrite Nat.add_0_r.
    destruct (length (recv_from ms r s)) eqn:Ec.
    - rewrite bool_decide_eq_false_2 by lia. done.
    - rewrite bool_decide_eq_true_2 by (repeat split; lia). done. }
  assert (Hlo : forall s d pd0, w_procs w !! d = Some pd0 -> s < n -> 0 < cnt s d ->
     forall pd', (<[r:=pr']> (w_procs w)) !! d = Some pd' -> lo pd' s = lo pd0 s).
  { intros s d pd0 Hd Hs Hc pd' Hd'. apply procs_insert in Hd' as [(-> & -> & _)|[Hne Hd']].
    - assert (pd0 = pr) as -> by congruence. unfold lo. rewrite HR0, HR by done. rewrite bool_decide_eq_true_2 by done.
      cbn [pr' p_started]. fold j. lia.
    - by assert (pd0 = pd') as -> by congruence. }
  split; cbn [w_procs w_chan w_posted].
  - by rewrite insert_length.
  - intros p pr0 sr0 Hp Hsr0. apply procs_insert in Hp as [(-> & -> & _)|[Hne Hp]]; [|by apply Hproc].
    assert (sr0 = sr) as -> by congruence. split; [cbn [pr' p_started]; lia|]. right. split.
    + unfold in_flight. cbn [pr' p_started p_results]. lia.
    + exists f. cbn [pr' p_started p_results p_comm p_field]. rewrite Eg2. done.
  - intros s d ps' pd' Hs' Hd'.
    assert (Hsn : s < n) by (apply lookup_lt_Some in Hs'; rewrite insert_length in Hs'; lia).
    assert (Hdn : d < n) by (apply lookup_lt_Some in Hd'; rewrite insert_length in Hd'; lia).
    destruct (lookup_lt_is_Some_2 (w_procs w) s) as [ps Hs]; [lia|].
    destruct (lookup_lt_is_Some_2 (w_procs w) d) as [pd Hd]; [lia|].
    pose proof (Hlo s d pd Hd Hsn) as HloE.
    destruct (Hpair s d ps pd Hs Hd) as [A1 A2 A3 A4 A5 A6 A7].
    split; cbn [w_procs w_chan w_posted].
    + intros Hc. destruct (A1 Hc) as (B1 & B2 & B3). split; [|split].
      * intros t. rewrite Hch by done. rewrite B1. rewrite bool_decide_eq_false_2 by lia. done.
      * apply procs_insert in Hd' as [(-> & -> & _)|[Hne Hd']]; [|by assert (pd' = pd) as -> by congruence].
        rewrite HR by done. apply bool_decide_eq_false_2. lia.
      * apply procs_insert in Hs' as [(-> & -> & _)|[Hne Hs']]; [|by assert (ps' = ps) as -> by congruence].
        rewrite HS by done. apply bool_decide_eq_false_2. lia.
    + intros Hc. rewrite (HloE Hc pd' Hd'). specialize (A2 Hc).
      apply procs_insert in Hs' as [(-> & -> & _)|[Hne Hs']]; [|by assert (ps' = ps) as -> by congruence].
      assert (ps = pr) as -> by congruence. cbn [pr' p_started]. fold j in A2. lia.
    + intros Hc t. rewrite Hch by done. unfold pend_rounds. rewrite (HloE Hc pd' Hd'). specialize (A2 Hc). specialize (A3 Hc t).
      apply procs_insert in Hs' as [(-> & -> & _)|[Hne Hs']].
      * assert (ps = pr) as -> by congruence. cbn [pr' p_started]. fold j in A2.
        replace (S j - lo pd r) with ((j - lo pd r) + 1) by lia. rewrite seq_app, filter_app.
        apply Forall2_app.
        -- eapply Forall2_impl; [exact A3|]. intros j0 m Hm. destruct m as [q|b]; simpl in Hm |- *.
           ++ destruct Hm as (_ & Hm & _). unfold in_flight in Hm. lia.
           ++ unfold good_bytes, input in *. exact Hm.
        -- replace (lo pd r + (j - lo pd r)) with j by lia. cbn [seq]. rewrite filter_cons, filter_nil.
           case_decide as Ht.
           ++ rewrite bool_decide_eq_true_2 by done. constructor; [|done]. simpl. split; [done|].
              split; [unfold in_flight; cbn [pr' p_started p_results]; lia|]. split.
              ** rewrite HS by done. by apply bool_decide_eq_true_2.
              ** intros sr0 Hsr0. assert (sr0 = sr) as -> by congruence. done.
           ++ rewrite bool_decide_eq_false_2 by naive_solver. done.
      * assert (ps' = ps) as -> by congruence. rewrite bool_decide_eq_false_2 by naive_solver. rewrite app_nil_r. exact A3.
    + intros Hsp. apply procs_insert in Hs' as [(-> & -> & _)|[Hne Hs']].
      * rewrite HS in Hsp by done. apply bool_decide_eq_true_1 in Hsp. split; [unfold in_flight; cbn [pr' p_started p_results]; lia|].
        cbn [pr' p_results]. rewrite Eg2. exists (length (w_chan w r d (tag j))). rewrite Hch by done.
        rewrite bool_decide_eq_true_2 by done. eexists. rewrite lookup_app_r by lia. by rewrite Nat.sub_diag.
      * assert (ps' = ps) as -> by congruence. destruct (A4 Hsp) as (B1 & i & q & B2). split; [done|]. exists i, q.
        rewrite Hch by done. by apply lookup_app_l_Some.
    + intros Hrp. apply procs_insert in Hd' as [(-> & -> & _)|[Hne Hd']].
      * unfold in_flight. cbn [pr' p_started p_results]. lia.
      * assert (pd' = pd) as -> by congruence. by apply A5.
    + intros t. rewrite Hpo by done. rewrite A6. apply procs_insert in Hd' as [(-> & -> & _)|[Hne Hd']].
      * assert (pd = pr) as -> by congruence. rewrite HR0, HR by done. cbn [andb app pr' p_results]. rewrite Eg2, Hsr.
        destruct (decide (t = tag j)) as [->|Hne], (decide (0 < cnt s r)) as [Hc|Hc].
        -- rewrite !bool_decide_eq_true_2 by done. done.
        -- rewrite (bool_decide_eq_false_2 (0 < cnt s r)) by done. rewrite bool_decide_eq_false_2 by naive_solver. done.
        -- rewrite (bool_decide_eq_false_2 (tag j = t)) by done. rewrite andb_false_r, bool_decide_eq_false_2 by naive_solver. done.
        -- rewrite (bool_decide_eq_false_2 (tag j = t)) by done. rewrite andb_false_r, bool_decide_eq_false_2 by naive_solver. done.
      * assert (pd' = pd) as -> by congruence. rewrite bool_decide_eq_false_2 with (P := d = r /\ _) by naive_solver. by rewrite app_nil_r.
    + intros Hfl Hrp k l v Hk. apply procs_insert in Hd' as [(-> & -> & _)|[Hne Hd']].
      * rewrite HR in Hrp by done. apply bool_decide_eq_false_1 in Hrp. apply lookup_lt_Some in Hk. lia.
      * assert (pd' = pd) as -> by congruence.
        apply procs_insert in Hs' as [(-> & -> & _)|[Hne2 Hs']].
        -- assert (ps = pr) as -> by congruence. by eapply A7.
        -- assert (ps' = ps) as -> by congruence. by eapply A7.
  - intros s d t Hsd. destruct (Hout s d t Hsd) as [B1 B2]. unfold ch', po'. rewrite do_sends_ok, do_recvs_ok by apply NoDup_seq.
    rewrite B1, B2. rewrite !bool_decide_eq_false_2; [done| |].
    + intros (-> & _ & H). apply elem_of_seq in H. lia.
    + intros (-> & _ & H). apply elem_of_seq in H. lia.
  - eapply exchanged_ext; [|exact Hres]. cbn [w_procs]. intros p pr0 Hp. apply procs_insert in Hp as [(-> & -> & _)|[Hne Hp]].
    + by exists pr.
    + by exists pr0.
Qed.

(** ** the library buffers a message *)
Definition with_buf (pr : proc) (f : fbuf) : proc :=
  set_comm pr (set_buf (p_comm pr) 0 f).

Lemma flight_set_buf sr size tg name c f f' :
  comm_flight n sr size tg name c f ->
  buf_busy n (length <$> sr.1) size tg (f_send f') -> buf_busy n (length <$> sr.2) size tg (f_recv f') ->
  comm_flight n sr size tg name (set_buf c 0 f') f'.
Proof.
  intros (H1 & H2 & H3 & H4 & H5 & H6 & H7 & H8) Hs Hr. unfold comm_flight, set_buf. cbn [c_send c_recv c_map c_bufs c_epoch].
  rewrite H5. done.
Qed.

Lemma in_flight_started p sr pr : proc_ok p sr pr -> in_flight pr ->
  length (p_results pr) < u_rounds u /\ exists f, let j := length (p_results pr) in
      comm_flight n sr (sz j) (tag j) (u_name u j) (p_comm pr) f /\
      p_field pr = u_in u j p (p_results pr) /\
      packed sr.1 (sz j) (p_field pr) (h_data (f_send f)).
Proof. intros (H1 & H2) H3. unfold in_flight in *. split; [lia|]. destruct H2 as [[H2 _]|[_ H2]]; [lia|done]. Qed.

Lemma inv_buffer w s0 d0 t0 i0 o : inv w -> act pl u (ABuffer s0 d0 t0 i0) w = Some o ->
  exists w', o = Ok w' /\ inv w' /\ exists ps ps' b m,
    w_procs w !! s0 = Some ps /\ w_procs w' = <[s0 := ps']> (w_procs w) /\
    p_started ps' = p_started ps /\ p_results ps' = p_results ps /\
    (forall s, rpend ps' s = rpend ps s) /\ (forall d, d <> d0 -> spend ps' d = spend ps d) /\
    spend ps d0 = true /\ spend ps' d0 = false /\ d0 < n /\
    w_chan w s0 d0 t0 !! i0 = Some (MRef m) /\ lib_read (p_comm ps) m d0 = Ok (b, p_comm ps') /\
    ps' = set_comm ps (p_comm ps') /\
    w' = World (w_procs w') (upd3 (w_chan w) s0 d0 t0 (<[i0 := MData b]> (w_chan w s0 d0 t0))) (w_posted w).
Proof.
  intros Hinv. pose proof Hinv as [Hlen Hproc Hpair Hout Hres]. unfold act.
  destruct (w_chan w s0 d0 t0 !! i0) as [m|] eqn:Em; [|done]. cbn [mbind option_bind].
  destruct (w_procs w !! s0) as [ps|] eqn:Eps; [|done]. cbn [mbind option_bind].
  destruct m as [m|b]; [|done]. intros [= <-].
  assert (Hsn : s0 < n) by (apply lookup_lt_Some in Eps; lia).
  assert (Hdn : d0 < n).
  { destruct (decide (d0 < n)); [done|]. destruct (Hout s0 d0 t0) as [B _]; [lia|]. rewrite B in Em. done. }
  destruct (lookup_lt_is_Some_2 (w_procs w) d0) as [pd Epd]; [lia|].
  destruct (Hpair s0 d0 ps pd Eps Epd) as [A1 A2 A3 A4 A5 A6 A7].
  assert (Hc : 0 < cnt s0 d0).
  { destruct (decide (cnt s0 d0 = 0)) as [E|]; [|lia]. destruct (A1 E) as [B _]. rewrite B in Em. done. }
  destruct (Forall2_lookup_r _ _ _ _ _ (A3 Hc t0) Em) as (j & Hj & Hm). destruct (pend_rounds_in _ _ _ _ _ _ Hj) as [Htj Hjl].
  destruct (maps_get s0 Hsn) as (sr & Hsr & Hl1 & Hl2).
  destruct Hm as (Hz1 & Hm2 & Hm3 & Hm4). specialize (Hm4 sr Hsr).
  destruct (in_flight_started _ _ _ (Hproc s0 ps sr Eps Hsr) Hm2) as (Hjr & f & Hfl & Hfd & Hpk).
  assert (j = length (p_results ps)) as Ej by (unfold in_flight in Hm2; lia). rewrite <- Ej in *. clear Ej.
  pose proof Hfl as (F1 & F2 & F3 & F4 & F5 & F6 & (F7 & F7a & F7b & F7c) & F8).
  assert (Hpb : pos (length <$> sr.1) (sz j) d0 0 + cnt s0 d0 * sz j <= length (h_data (f_send f))).
  { pose proof (hb_data _ _ _ F7) as Hd. rewrite F7b in Hd.
    pose proof (window_bound (length <$> sr.1) d0 (cnt s0 d0) (cnt s0 d0 - 1)
       (counts_lookup _ _ _ (send_to_get s0 d0 sr Hsr Hdn)) ltac:(lia)) as Hw. unfold pos. nia. }
  unfold lib_read, deref. subst m. cbn [mr_ptr mr_off mr_len fst snd]. rewrite F6, F5. cbn [Nat.eqb].
  change ([f] !! 0) with (Some f). cbn [oget obind].
  replace (_ <=? length (h_data (f_send f))) with true by (symmetry; by apply Nat.leb_le). cbn [obind fst snd].
  set (b := take _ _).
  set (f' := FBuf (set_reqs (f_send f) (<[d0:=RDone]> (h_reqs (f_send f)))) (f_recv f)).
  set (ps' := set_comm ps (set_buf (p_comm ps) 0 f')).
  assert (Hgb : good_bytes j s0 d0 ps b).
  { split.
    - unfold b. change (take ?a (drop ?c ?e)) with (slot a c e). by apply slot_length.
    - intros k l v Hk Hv. unfold b. change (take ?a (drop ?c ?e)) with (slot a c e).
      assert (k < cnt s0 d0) by (by eapply lookup_lt_Some). rewrite slot_slot by nia.
      replace (pos (length <$> sr.1) (sz j) d0 0 + k * sz j) with (pos (length <$> sr.1) (sz j) d0 k) by (unfold pos; lia).
      eapply Hpk; [by apply send_to_get|exact Hk|]. rewrite Hfd. unfold input in Hv.
      rewrite take_ge in Hv by (unfold in_flight in Hm2; lia). done. }
  assert (Hbufs' : c_bufs (p_comm ps') = [f']). { unfold ps', set_comm, set_buf. cbn [p_comm c_bufs]. by rewrite F5. }
  assert (HR : forall s, rpend ps' s = rpend ps s).
  { intros s. unfold rpend. by rewrite Hbufs', F5. }
  assert (HRD : rdata ps' = rdata ps). { unfold rdata. by rewrite Hbufs', F5. }
  assert (HS : forall d, d <> d0 -> spend ps' d = spend ps d).
  { intros d Hne. unfold spend. rewrite Hbufs', F5. cbn [f' f_send set_reqs h_reqs]. by rewrite list_lookup_insert_ne. }
  assert (HS0 : spend ps' d0 = false).
  { unfold spend. rewrite Hbufs'. cbn [f' f_send set_reqs h_reqs]. rewrite list_lookup_insert; [done|]. rewrite (hb_reqs _ _ _ F7). done. }
  eexists. split; [done|]. split; cycle 1.
  { exists ps, ps', b, (MRefTo (1, 0) (pos (length <$> sr.1) (sz j) d0 0) (cnt s0 d0 * sz j)).
    unfold lib_read, deref. cbn [mr_ptr mr_off mr_len fst snd]. rewrite F6, F5. cbn [Nat.eqb].
    change ([f] !! 0) with (Some f). cbn [oget obind].
    replace (_ <=? length (h_data (f_send f))) with true by (symmetry; by apply Nat.leb_le). 
    repeat (split; [done|]). done. }
  assert (Hproj : forall p pr', (<[s0:=ps']> (w_procs w)) !! p = Some pr' -> exists pr, w_procs w !! p = Some pr /\
     p_started pr' = p_started pr /\ p_results pr' = p_results pr /\ (forall s, rpend pr' s = rpend pr s) /\ rdata pr' = rdata pr /\
     (forall d, (p, d) <> (s0, d0) -> spend pr' d = spend pr d)).
  { intros p pr' Hp. apply procs_insert in Hp as [(-> & -> & _)|[Hne Hp]].
    - exists ps. repeat (split; [done|]). intros d Hd. apply HS. congruence.
    - exists pr'. done. }
  split; cbn [w_procs w_chan w_posted].
  - by rewrite insert_length.
  - intros p pr0 sr0 Hp Hsr0. apply procs_insert in Hp as [(-> & -> & _)|[Hne Hp]]; [|by apply Hproc].
    assert (sr0 = sr) as -> by congruence. destruct (Hproc s0 ps sr Eps Hsr) as (G1 & G2). split; [done|]. right.
    split; [done|]. cbn [ps' set_comm p_results p_field p_comm].
    exists f'. unfold in_flight in Hm2. replace (length (p_results ps)) with j in * by lia. split; [|done].
    eapply flight_set_buf; [exact Hfl| |done]. split; [|done]. apply set_reqs_ok; [done|]. rewrite insert_length. apply F7.
  - intros s d ps1 pd1 Hs1 Hd1.
    destruct (Hproj s ps1 Hs1) as (psO & HsO & P1 & P2 & P3 & P4 & P5).
    destruct (Hproj d pd1 Hd1) as (pdO & HdO & Q1 & Q2 & Q3 & Q4 & Q5).
    destruct (Hpair s d psO pdO HsO HdO) as [C1 C2 C3 C4 C5 C6 C7].
    assert (Elo : lo pd1 s = lo pdO s) by (unfold lo; by rewrite Q1, Q3).
    assert (Epr : forall t, pend_rounds ps1 pd1 s t = pend_rounds psO pdO s t) by (intros t; unfold pend_rounds; by rewrite P1, Elo).
    assert (Eif : forall a b, p_started a = p_started b -> p_results a = p_results b -> in_flight a <-> in_flight b).
    { intros a0 b0 Ha Hb. unfold in_flight. by rewrite Ha, Hb. }
    destruct (decide ((s, d) = (s0, d0))) as [[= -> ->]|Hne].
    + assert (psO = ps) as -> by congruence. assert (pdO = pd) as -> by congruence.
      assert (ps1 = ps') as -> by (apply procs_insert in Hs1 as [(_ & -> & _)|[? _]]; [done|congruence]).
      assert (Hmsg : forall t j1 m1 i1, w_chan w s0 d0 t !! i1 = Some m1 -> pend_rounds ps pd s0 t !! i1 = Some j1 ->
         msg_ok s0 ps d0 j1 m1 -> (t, i1) <> (t0, i0) -> msg_ok s0 ps' d0 j1 m1).
      { intros t j1 m1 i1 Hi1 Hp1 Hm Hne. destruct m1 as [m1|b1].
        - destruct Hm as (E1 & _). assert (j1 = j) as -> by lia.
          destruct (pend_rounds_in _ _ _ _ _ _ Hp1) as [Ht _]. exfalso. apply Hne. assert (t = t0) as -> by congruence. f_equal.
          eapply NoDup_lookup; [apply (pend_rounds_nodup ps pd s0 t0)|done|done].
        - exact Hm. }
      split; cbn [w_chan w_posted].
      * intros H. lia.
      * intros H. rewrite Elo. cbn [ps' set_comm p_started]. by apply C2.
      * intros H t. rewrite Epr. unfold upd3. case_bool_decide as Hbd.
        -- destruct Hbd as (_ & _ & ->). specialize (C3 H t0). apply Forall2_same_length_lookup. split.
           { rewrite insert_length. by apply Forall2_length in C3. }
           intros i1 j1 m1 Hj1 Hm1. apply list_lookup_insert_Some in Hm1 as [(<- & <- & _)|[Hni Hm1]].
           ++ assert (j1 = j) as -> by congruence. exact Hgb.
           ++ eapply Hmsg; [exact Hm1|exact Hj1| |congruence]. eapply Forall2_lookup_lr; eauto.
        -- specialize (C3 H t). apply Forall2_same_length_lookup. split; [by apply Forall2_length in C3|].
           intros i1 j1 m1 Hj1 Hm1. eapply Hmsg; [exact Hm1|exact Hj1| |naive_solver]. eapply Forall2_lookup_lr; eauto.
      * intros H. congruence.
      * intros H. rewrite Q3 in H. apply (Eif pd1 pd Q1 Q2). by apply C5.
      * intros t. rewrite C6, Q3, Q2. done.
      * intros H1 H2. rewrite Q3 in H2. apply (Eif pd1 pd Q1 Q2) in H1. specialize (C7 H1 H2). rewrite Q2, Q4. exact C7.
    + split; cbn [w_chan w_posted].
      * intros H. destruct (C1 H) as (B1 & B2 & B3). split; [|split].
        -- intros t. unfold upd3. rewrite bool_decide_eq_false_2 by naive_solver. apply B1.
        -- by rewrite Q3.
        -- by rewrite P5.
      * intros H. rewrite Elo, P1. by apply C2.
      * intros H t. rewrite Epr. unfold upd3. rewrite bool_decide_eq_false_2 by naive_solver. specialize (C3 H t).
        apply Forall2_same_length_lookup. split; [by apply Forall2_length in C3|]. intros i1 j1 m1 Hj1 Hm1.
        eapply msg_ok_ext; [by eapply Forall2_lookup_lr| |done|done|by apply P5].
        apply pend_rounds_in in Hj1. lia.
      * intros H. rewrite P5 in H by done. destruct (C4 H) as (B1 & i & q & B2). split; [by apply (Eif ps1 psO P1 P2)|].
        exists i, q. rewrite P2. unfold upd3. rewrite bool_decide_eq_false_2 by naive_solver. done.
      * intros H. rewrite Q3 in H. apply (Eif pd1 pdO Q1 Q2). by apply C5.
      * intros t. rewrite C6, Q3, Q2. done.
      * intros H1 H2. rewrite Q3 in H2. apply (Eif pd1 pdO Q1 Q2) in H1. specialize (C7 H1 H2). rewrite Q2, Q4. unfold input. rewrite P2. exact C7.
  - intros s d t Hsd. destruct (Hout s d t Hsd) as [B1 B2]. unfold upd3. rewrite bool_decide_eq_false_2 by naive_solver. done.
  - eapply exchanged_ext; [|exact Hres]. cbn [w_procs]. intros p pr0 Hp. destruct (Hproj p pr0 Hp) as (pr & ? & ? & ? & _). by exists pr.
Qed.

(** ** a rank asks whether its communication is complete *)
Lemma inv_test w r o : inv w -> act pl u (ATest r) w = Some o ->
  exists w' pr pr', o = Ok w' /\ inv w' /\ w_procs w !! r = Some pr /\ w_procs w' = <[r := pr']> (w_procs w) /\
    p_started pr' = p_started pr /\ p_results pr' = p_results pr /\
    (forall s, rpend pr' s = rpend pr s) /\ (forall d, spend pr' d = spend pr d).
Proof.
  intros Hinv. pose proof Hinv as [Hlen Hproc Hpair Hout Hres]. unfold act.
  destruct (w_procs w !! r) as [pr|] eqn:Epr; [|done]. cbn [mbind option_bind].
  destruct (Nat.ltb_spec (length (p_results pr)) (p_started pr)) as [Hlt|]; [|done]. intros [= <-].
  assert (Hrn : r < n) by (apply lookup_lt_Some in Epr; lia).
  destruct (maps_get r Hrn) as (sr & Hsr & Hl1 & Hl2).
  destruct (Hproc r pr sr Epr Hsr) as (Hst & [[Hid _]|[Hfl (f & Hcf & Hfd & Hpk)]]); [lia|].
  destruct (comm_isComplete_flight pl n sr _ _ _ _ f ltac:(apply Hms) Hcf)
    as (f' & E & (rs & Es & Els & Eps) & (rq & Er & Elr & Epq)). rewrite E. cbn [obind fst snd].
  pose proof Hcf as (F1 & F2 & F3 & F4 & F5 & F6 & F7 & F8).
  set (pr' := set_comm pr (set_buf (p_comm pr) 0 f')).
  assert (Hbufs' : c_bufs (p_comm pr') = [f']). { unfold pr', set_comm, set_buf. cbn [p_comm c_bufs]. by rewrite F5. }
  assert (HR : forall s, rpend pr' s = rpend pr s).
  { intros s. unfold rpend. rewrite Hbufs', F5, Er. apply bool_decide_ext. apply Epq. }
  assert (HS : forall d, spend pr' d = spend pr d).
  { intros d. unfold spend. rewrite Hbufs', F5, Es. apply bool_decide_ext. apply Eps. }
  assert (HRD : rdata pr' = rdata pr). { unfold rdata. by rewrite Hbufs', F5, Er. }
  exists (set_proc w r pr'), pr, pr'. split; [done|]. split; [|done].
  assert (Hproj : forall p q', (<[r:=pr']> (w_procs w)) !! p = Some q' -> exists q, w_procs w !! p = Some q /\
     p_started q' = p_started q /\ p_results q' = p_results q /\ (forall s, rpend q' s = rpend q s) /\ rdata q' = rdata q /\
     (forall d, spend q' d = spend q d)).
  { intros p q' Hp. apply procs_insert in Hp as [(-> & -> & _)|[Hne Hp]].
    - exists pr. done.
    - exists q'. done. }
  split; cbn [w_procs w_chan w_posted set_proc].
  - by rewrite insert_length.
  - intros p pr0 sr0 Hp Hsr0. apply procs_insert in Hp as [(-> & -> & _)|[Hne Hp]]; [|by apply Hproc].
    assert (sr0 = sr) as -> by congruence. split; [done|]. right. split; [done|]. cbn [pr' set_comm p_results p_field p_comm].
    exists f'. split; [|split; [done|by rewrite Es]].
    eapply flight_set_buf; [exact Hcf| |].
    + rewrite Es. destruct F7 as (G1 & G2 & G3 & G4). split; [|done]. by apply set_reqs_ok.
    + rewrite Er. destruct F8 as (G1 & G2 & G3 & G4). split; [|done]. by apply set_reqs_ok.
  - intros s d ps1 pd1 Hs1 Hd1.
    destruct (Hproj s ps1 Hs1) as (psO & HsO & P1 & P2 & P3 & P4 & P5).
    destruct (Hproj d pd1 Hd1) as (pdO & HdO & Q1 & Q2 & Q3 & Q4 & Q5).
    destruct (Hpair s d psO pdO HsO HdO) as [C1 C2 C3 C4 C5 C6 C7].
    assert (Elo : lo pd1 s = lo pdO s) by (unfold lo; by rewrite Q1, Q3).
    assert (Epr' : forall t, pend_rounds ps1 pd1 s t = pend_rounds psO pdO s t) by (intros t; unfold pend_rounds; by rewrite P1, Elo).
    assert (Eif : forall a b, p_started a = p_started b -> p_results a = p_results b -> in_flight a <-> in_flight b).
    { intros a0 b0 Ha Hb. unfold in_flight. by rewrite Ha, Hb. }
    split; unfold set_proc; cbn [w_chan w_posted].
    + intros H. destruct (C1 H) as (B1 & B2 & B3). split; [done|]. by rewrite Q3, P5.
    + intros H. rewrite Elo, P1. by apply C2.
    + intros H t. rewrite Epr'. specialize (C3 H t).
      apply Forall2_same_length_lookup. split; [by apply Forall2_length in C3|]. intros i1 j1 m1 Hj1 Hm1.
      eapply msg_ok_ext; [by eapply Forall2_lookup_lr| |done|done|by apply P5].
      apply pend_rounds_in in Hj1. lia.
    + intros H. rewrite P5 in H. destruct (C4 H) as (B1 & i & q & B2). split; [by apply (Eif ps1 psO P1 P2)|].
      exists i, q. by rewrite P2.
    + intros H. rewrite Q3 in H. apply (Eif pd1 pdO Q1 Q2). by apply C5.
    + intros t. rewrite C6, Q3, Q2. done.
    + intros H1 H2. rewrite Q3 in H2. apply (Eif pd1 pdO Q1 Q2) in H1. specialize (C7 H1 H2). rewrite Q2, Q4. unfold input. rewrite P2. exact C7.
  - apply Hout.
  - eapply exchanged_ext; [|exact Hres]. cbn [w_procs]. intros p pr0 Hp. destruct (Hproj p pr0 Hp) as (q & ? & ? & ? & _). by exists q.
Qed.

(** ** the library delivers a buffered message *)
Lemma inv_deliver_data w s0 d0 t0 b ch rv pst : inv w ->
  w_chan w s0 d0 t0 = MData b :: ch -> w_posted w s0 d0 t0 = rv :: pst ->
  exists pd pd', w_procs w !! d0 = Some pd /\
    lib_write (p_comm pd) rv s0 b = Ok (p_comm pd') /\ pd' = set_comm pd (p_comm pd') /\
    inv (World (<[d0 := pd']> (w_procs w)) (upd3 (w_chan w) s0 d0 t0 ch) (upd3 (w_posted w) s0 d0 t0 pst)) /\
    p_started pd' = p_started pd /\ p_results pd' = p_results pd /\
    (forall d, spend pd' d = spend pd d) /\ (forall s, s <> s0 -> rpend pd' s = rpend pd s) /\
    rpend pd s0 = true /\ rpend pd' s0 = false /\ s0 < n.
Proof.
  intros Hinv Hch Hpo. pose proof Hinv as [Hlen Hproc Hpair Hout Hres].
  assert (Hsd : s0 < n /\ d0 < n).
  { destruct (decide (s0 < n /\ d0 < n)); [done|]. destruct (Hout s0 d0 t0) as [B _]; [done|]. rewrite B in Hch. done. }
  destruct Hsd as [Hsn Hdn].
  destruct (lookup_lt_is_Some_2 (w_procs w) d0) as [pd Epd]; [lia|].
  destruct (lookup_lt_is_Some_2 (w_procs w) s0) as [ps Eps]; [lia|].
  destruct (Hpair s0 d0 ps pd Eps Epd) as [A1 A2 A3 A4 A5 A6 A7].
  assert (Hc : 0 < cnt s0 d0).
  { destruct (decide (cnt s0 d0 = 0)) as [E|]; [|lia]. destruct (A1 E) as [B _]. rewrite B in Hch. done. }
  pose proof (A6 t0) as Hpq. rewrite Hpo in Hpq. destruct (maps_get d0 Hdn) as (sr & Hsr & Hl1 & Hl2).
  rewrite Hsr in Hpq. cbn [default from_option] in Hpq. change (id sr) with sr in Hpq.
  destruct (rpend pd s0) eqn:Erp; [|done]. specialize (A5 eq_refl). cbn [andb] in Hpq.
  case_bool_decide as Ht0; [|done]. injection Hpq as -> ->.
  set (j := length (p_results pd)) in *.
  assert (Elo : lo pd s0 = j) by (unfold lo, in_flight in *; rewrite Erp; lia).
  pose proof (A3 Hc t0) as A30. rewrite Hch in A30.
  assert (Hlt : j < p_started ps).
  { destruct (decide (j < p_started ps)); [done|]. unfold pend_rounds in A30. rewrite Elo in A30.
    replace (p_started ps - j) with 0 in A30 by lia. simpl in A30. inversion A30. }
  assert (Epr : forall t, pend_rounds ps pd s0 t = (if decide (tag j = t) then [j] else []) ++
       filter (fun j => tag j = t) (seq (S j) (p_started ps - S j))).
  { intros t. unfold pend_rounds. rewrite Elo. replace (p_started ps - j) with (S (p_started ps - S j)) by lia.
    cbn [seq]. rewrite filter_cons. by case_decide. }
  rewrite Epr, decide_True in A30 by done. cbn [app] in A30. inversion A30 as [|? ? ? ? Hgb A31]; subst. clear A30.
  simpl in Hgb.
  destruct (in_flight_started _ _ _ (Hproc d0 pd sr Epd Hsr) A5) as (Hjr & f & Hfl & Hfd & Hpk). fold j in Hjr, Hfl, Hfd, Hpk.
  pose proof Hfl as (F1 & F2 & F3 & F4 & F5 & F6 & F7 & (F8 & F8a & F8b & F8c)).
  destruct Hgb as [Hbl Hgb].
  assert (Hcr : (length <$> sr.2) !! s0 = Some (cnt s0 d0)).
  { rewrite (mo_match _ Hms s0 d0 Hsn Hdn). by apply counts_lookup, recv_from_get. }
  assert (Hpb : pos (length <$> sr.2) (sz j) s0 0 + length b <= length (h_data (f_recv f))).
  { pose proof (hb_data _ _ _ F8) as Hd. rewrite F8b in Hd.
    pose proof (window_bound (length <$> sr.2) s0 (cnt s0 d0) (cnt s0 d0 - 1) Hcr ltac:(lia)) as Hw. unfold pos. nia. }
  set (f' := FBuf (f_send f) (HBuf (h_tag (f_recv f)) (h_name (f_recv f)) (h_tsize (f_recv f))
         (<[s0 := RDone]> (h_reqs (f_recv f))) (list_inserts (pos (length <$> sr.2) (sz j) s0 0) b (h_data (f_recv f))) (h_off (f_recv f)))).
  set (pd' := set_comm pd (set_buf (p_comm pd) 0 f')).
  exists pd, pd'. split; [done|]. split.
  { unfold lib_write, deref. cbn [mr_ptr mr_off mr_len fst snd]. rewrite F6, F5. cbn [Nat.eqb].
    change ([f] !! 0) with (Some f). cbn [oget obind].
    replace (_ <? length b) with false by (symmetry; apply Nat.ltb_ge; lia).
    replace (_ <=? length (h_data (f_recv f))) with true by (symmetry; by apply Nat.leb_le). done. }
  split; [done|].
  assert (Hbufs' : c_bufs (p_comm pd') = [f']). { unfold pd', set_comm, set_buf. cbn [p_comm c_bufs]. by rewrite F5. }
  assert (HS : forall d, spend pd' d = spend pd d). { intros d. unfold spend. by rewrite Hbufs', F5. }
  assert (HR : forall s, s <> s0 -> rpend pd' s = rpend pd s).
  { intros s Hne. unfold rpend. rewrite Hbufs', F5. cbn [f' f_recv h_reqs]. by rewrite list_lookup_insert_ne. }
  assert (HR0 : rpend pd' s0 = false).
  { unfold rpend. rewrite Hbufs'. cbn [f' f_recv h_reqs]. rewrite list_lookup_insert; [done|]. rewrite (hb_reqs _ _ _ F8). done. }
  assert (HRD : rdata pd' = list_inserts (pos (length <$> sr.2) (sz j) s0 0) b (h_data (f_recv f))) by (unfold rdata; by rewrite Hbufs').
  assert (HRD0 : rdata pd = h_data (f_recv f)) by (unfold rdata; by rewrite F5).
  split; [|done].
  assert (Hproj : forall p pr', (<[d0:=pd']> (w_procs w)) !! p = Some pr' -> exists pr, w_procs w !! p = Some pr /\
     p_started pr' = p_started pr /\ p_results pr' = p_results pr /\ (forall d, spend pr' d = spend pr d) /\
     (p <> d0 -> pr' = pr) /\ (p = d0 -> pr' = pd')).
  { intros p pr' Hp. apply procs_insert in Hp as [(-> & -> & _)|[Hne Hp]]; [by exists pd|by exists pr']. }
  assert (Eif : forall a b, p_started a = p_started b -> p_results a = p_results b -> in_flight a <-> in_flight b).
  { intros a0 b0 Ha Hb. unfold in_flight. by rewrite Ha, Hb. }
  split; cbn [w_procs w_chan w_posted].
  - by rewrite insert_length.
  - intros p pr0 sr0 Hp Hsr0. apply procs_insert in Hp as [(-> & -> & _)|[Hne Hp]]; [|by apply Hproc].
    assert (sr0 = sr) as -> by congruence. destruct (Hproc d0 pd sr Epd Hsr) as (G1 & G2). split; [done|]. right.
    split; [done|]. cbn [pd' set_comm p_results p_field p_comm].
    exists f'. split; [|done].
    eapply flight_set_buf; [exact Hfl|done|]. split; [|done]. destruct F8 as [X1 X2 X3 X4 X5].
    split; cbn [f' f_recv h_tsize h_off h_reqs h_data]; try done; [by rewrite insert_length|by rewrite inserts_length].
  - intros s d ps1 pd1 Hs1 Hd1.
    destruct (Hproj s ps1 Hs1) as (psO & HsO & P1 & P2 & P3 & P4 & P5).
    destruct (Hproj d pd1 Hd1) as (pdO & HdO & Q1 & Q2 & Q3 & Q4 & Q5).
    destruct (Hpair s d psO pdO HsO HdO) as [C1 C2 C3 C4 C5 C6 C7].
    destruct (decide ((s, d) = (s0, d0))) as [[= -> ->]|Hne].
    + assert (psO = ps) as -> by congruence. assert (pdO = pd) as -> by congruence.
      assert (pd1 = pd') as -> by (by apply Q5).
      assert (Elo' : lo pd' s0 = S j) by (unfold lo; rewrite HR0; unfold in_flight in A5; cbn [pd' set_comm p_started]; lia).
      split; cbn [w_chan w_posted].
      * intros H. lia.
      * intros H. rewrite Elo', P1. lia.
      * intros H t. unfold pend_rounds. rewrite Elo', P1. unfold upd3.
        assert (Hmono : forall l l' , Forall (fun j1 => j1 < p_started ps) l -> Forall2 (msg_ok s0 ps d0) l l' -> Forall2 (msg_ok s0 ps1 d0) l l').
        { intros l l' Hl HF. induction HF; [done|]. apply Forall_cons in Hl as [? ?]. constructor; [|by apply IHHF].
          eapply msg_ok_ext; [done|done|done|done|apply P3]. }
        assert (Hfa : Forall (fun j1 => j1 < p_started ps) (filter (fun j => tag j = t) (seq (S j) (p_started ps - S j)))).
        { apply Forall_forall. intros j1 Hj1. apply elem_of_list_filter in Hj1 as [_ Hj1]. apply elem_of_seq in Hj1. lia. }
        apply Hmono; [done|]. case_bool_decide as Hbd.
        -- destruct Hbd as (_ & _ & ->). exact A31.
        -- specialize (C3 H t). rewrite Epr, decide_False in C3 by naive_solver. exact C3.
      * intros H. rewrite P3 in H. destruct (C4 H) as (B1 & i & q & B2). split; [by apply (Eif ps1 ps P1 P2)|]. rewrite P2.
        unfold upd3. case_bool_decide as Hbd; [|by exists i, q]. destruct Hbd as (_ & _ & Hbd).
        rewrite Hbd, Hch in B2. destruct i as [|i]; [done|]. by exists i, q.
      * intros H. congruence.
      * intros t. rewrite HR0. cbn [andb]. unfold upd3. case_bool_decide; [done|].
        rewrite A6. rewrite bool_decide_eq_false_2 by naive_solver. by rewrite andb_false_r.
      * intros H1 H2 k l v Hk Hv. rewrite Q2, HRD in *. fold j in Hv |- *. rewrite Hsr.
        cbn [default from_option]. change (id sr) with sr. unfold input in Hv. rewrite P2 in Hv.
        assert (k < cnt s0 d0) by (by eapply lookup_lt_Some).
        replace (pos (length <$> sr.2) (sz j) s0 k) with (pos (length <$> sr.2) (sz j) s0 0 + k * sz j) by (unfold pos; lia).
        rewrite slot_inserts_in; [|nia|done]. by eapply Hgb.
    + assert (Erps : rpend pd1 s = rpend pdO s).
      { destruct (decide (d = d0)) as [->|Hnd]; [|by rewrite Q4]. rewrite Q5 by done.
        assert (pdO = pd) as -> by congruence. apply HR. congruence. }
      assert (Elo2 : lo pd1 s = lo pdO s) by (unfold lo; by rewrite Q1, Erps).
      split; cbn [w_chan w_posted].
      * intros H. destruct (C1 H) as (B1 & B2 & B3). split; [|split].
        -- intros t. unfold upd3. rewrite bool_decide_eq_false_2 by naive_solver. apply B1.
        -- by rewrite Erps.
        -- by rewrite P3.
      * intros H. rewrite Elo2, P1. by apply C2.
      * intros H t. unfold pend_rounds. rewrite Elo2, P1. unfold upd3. rewrite bool_decide_eq_false_2 by naive_solver. specialize (C3 H t).
        apply Forall2_same_length_lookup. split; [by apply Forall2_length in C3|]. intros i1 j1 m1 Hj1 Hm1.
        eapply msg_ok_ext; [by eapply Forall2_lookup_lr| |done|done|by apply P3].
        apply (pend_rounds_in psO pdO s t) in Hj1. lia.
      * intros H. rewrite P3 in H by done. destruct (C4 H) as (B1 & i & q & B2). split; [by apply (Eif ps1 psO P1 P2)|].
        exists i, q. rewrite P2. unfold upd3. rewrite bool_decide_eq_false_2 by naive_solver. done.
      * intros H. rewrite Erps in H. apply (Eif pd1 pdO Q1 Q2). by apply C5.
      * intros t. unfold upd3. rewrite bool_decide_eq_false_2 by naive_solver. rewrite C6, Erps, Q2. done.
      * intros H1 H2 k l v Hk Hv. rewrite Erps in H2. apply (Eif pd1 pdO Q1 Q2) in H1.
        unfold input in Hv. rewrite P2, Q2 in Hv. rewrite Q2.
        rewrite <- (C7 H1 H2 k l v Hk Hv).
        destruct (decide (d = d0)) as [->|Hnd]; [|by rewrite Q4].
        assert (pdO = pd) as -> by congruence. rewrite Q5 by done. rewrite HRD, HRD0. fold j. rewrite Hsr.
        cbn [default from_option]. change (id sr) with sr. apply slot_inserts_disj. rewrite Hbl.
        assert (Hssn : s < n) by (apply lookup_lt_Some in HsO; lia).
        assert (Hcs : (length <$> sr.2) !! s = Some (cnt s d0)).
        { rewrite (mo_match _ Hms s d0 Hssn Hdn). by apply counts_lookup, recv_from_get. }
        assert (k < cnt s d0) by (by eapply lookup_lt_Some).
        unfold pos. destruct (decide (s < s0)).
        -- pose proof (window_inj _ _ _ _ _ k 0 Hcs Hcr). nia.
        -- pose proof (window_inj _ _ _ _ _ (cnt s0 d0 - 1) k Hcr Hcs ltac:(lia) ltac:(lia)).
           assert (s <> s0) by congruence. nia.
  - intros s d t Hsd. destruct (Hout s d t Hsd) as [B1 B2]. unfold upd3. rewrite bool_decide_eq_false_2 by naive_solver. done.
  - eapply exchanged_ext; [|exact Hres]. cbn [w_procs]. intros p pr0 Hp. destruct (Hproj p pr0 Hp) as (pr & ? & ? & ? & _). by exists pr.
Qed.

(** ** finaliseComm *)
Lemma inv_finalise w r pr o : inv w -> w_procs w !! r = Some pr -> act pl u (AFinalise r) w = Some o ->
  exists w' pr', o = Ok w' /\ inv w' /\ w_procs w' = <[r := pr']> (w_procs w) /\
    p_started pr' = p_started pr /\ length (p_results pr') = S (length (p_results pr)) /\ in_flight pr /\
    (forall d, spend pr' d = false /\ rpend pr' d = false).
Proof.
  intros Hinv Hr. pose proof Hinv as [Hlen Hproc Hpair Hout Hres]. unfold act. rewrite Hr. cbn [mbind option_bind].
  destruct (length (p_results pr) <? p_started pr) eqn:Eg; [|done]. apply Nat.ltb_lt in Eg.
  assert (Hrn : r < n) by (apply lookup_lt_Some in Hr; lia).
  destruct (maps_get r Hrn) as (sr & Hsr & Hl1 & Hl2).
  destruct (Hproc r pr sr Hr Hsr) as (Hst & [[HH _]|[Hfl (f & Hcf & Hfd & Hpk)]]); [lia|].
  set (j := length (p_results pr)) in *.
  assert (Hjr : j < u_rounds u) by lia.
  destruct (Hu j Hjr) as [Hsz Huf]. destruct (Huf r sr (p_results pr) Hsr) as [Hf1 Hf2]. rewrite Hfd, Hlen.
  destruct (finaliseComm_flight pl n sr (sz j) (tag j) (u_name u j) (p_comm pr) f (u_mid u j r (u_in u j r (p_results pr))))
    as [Hyes Hno]; try done. { apply Hms. }
  destruct (decide (Forall (fun r => r <> RPending) (h_reqs (f_send f)) /\ Forall (fun r => r <> RPending) (h_reqs (f_recv f))))
    as [Hall|Hall]; [|by rewrite Hno].
  destruct (Hyes Hall) as (c' & -> & Hidle & _). intros [= <-].
  set (before := u_mid u j r (u_in u j r (p_results pr))) in *.
  set (res := ins_all before (all_pairs sr.2 (sz j) (h_data (f_recv f)) (seq 0 n))).
  set (pr' := Proc c' (p_started pr) res (p_results pr ++ [res])).
  pose proof Hcf as (F1 & F2 & F3 & F4 & F5 & F6 & F7 & (F8 & F8a & F8b & F8c)).
  assert (HS0 : forall d, spend pr' d = false) by (intros; by eapply idle_spend).
  assert (HR0 : forall d, rpend pr' d = false) by (intros; by eapply idle_rpend).
  assert (HS : forall d, spend pr d = false).
  { intros d. unfold spend. rewrite F5. apply bool_decide_eq_false_2. intros H. eapply Forall_lookup_1 in H; [|apply Hall]. done. }
  assert (HR : forall d, rpend pr d = false).
  { intros d. unfold rpend. rewrite F5. apply bool_decide_eq_false_2. intros H. eapply Forall_lookup_1 in H; [|apply Hall]. done. }
  assert (HRD : rdata pr = h_data (f_recv f)) by (unfold rdata; by rewrite F5).
  assert (Hin : forall j1 , j1 <= j -> input u j1 r pr' = input u j1 r pr).
  { intros j1 Hj1. unfold input. cbn [pr' p_results]. by rewrite take_app_le by (fold j; lia). }
  exists (set_proc w r pr'), pr'. split; [done|]. split; cycle 1.
  { split; [done|]. split; [done|]. split; [cbn [pr' p_results]; rewrite app_length; simpl; lia|]. done. }
  assert (Hnfl : ~ in_flight pr'). { unfold in_flight in *. cbn [pr' p_started p_results]. rewrite app_length. simpl. lia. }
  assert (Hprogress : forall s ps, w_procs w !! s = Some ps -> 0 < cnt s r -> j <= length (p_results ps)).
  { intros s ps Hs Hc. destruct (Hpair s r ps pr Hs Hr) as [A1 A2 _ _ _ _ _]. specialize (A2 Hc). unfold lo in A2. rewrite HR in A2.
    assert (Hsn : s < n) by (apply lookup_lt_Some in Hs; lia). destruct (maps_get s Hsn) as (srs & Hsrs & _).
    destruct (Hproc s ps srs Hs Hsrs) as (_ & [[? _]|[? _]]); unfold in_flight in *; lia. }
  split; unfold set_proc; cbn [w_procs w_chan w_posted].
  - by rewrite insert_length.
  - intros p pr0 sr0 Hp Hsr0. apply procs_insert in Hp as [(-> & -> & _)|[Hne Hp]]; [|by apply Hproc].
    assert (sr0 = sr) as -> by congruence. split; [done|]. left. cbn [pr' p_results p_started p_comm].
    split; [|done]. rewrite app_length. unfold in_flight in Hfl. simpl. lia.
  - intros s d ps1 pd1 Hs1 Hd1.
    assert (Hsn : s < n) by (apply lookup_lt_Some in Hs1; rewrite insert_length in Hs1; lia).
    assert (Hdn : d < n) by (apply lookup_lt_Some in Hd1; rewrite insert_length in Hd1; lia).
    destruct (lookup_lt_is_Some_2 (w_procs w) s) as [ps Hs]; [lia|].
    destruct (lookup_lt_is_Some_2 (w_procs w) d) as [pd Hd]; [lia|].
    destruct (Hpair s d ps pd Hs Hd) as [C1 C2 C3 C4 C5 C6 C7].
    assert (Hps : ps1 = ps /\ s <> r \/ ps1 = pr' /\ ps = pr /\ s = r).
    { apply procs_insert in Hs1 as [(-> & -> & _)|[Hne Hs1]]; [right|left]; split; try done; [|congruence]. split; [congruence|done]. }
    assert (Hpd : pd1 = pd /\ d <> r \/ pd1 = pr' /\ pd = pr /\ d = r).
    { apply procs_insert in Hd1 as [(-> & -> & _)|[Hne Hd1]]; [right|left]; split; try done; [|congruence]. split; [congruence|done]. }
    assert (Hst1 : p_started ps1 = p_started ps) by (destruct Hps as [[-> _]|(-> & -> & _)]; done).
    assert (Hsp1 : spend ps1 d = spend ps d) by (destruct Hps as [[-> _]|(-> & -> & _)]; [done|by rewrite HS, HS0]).
    assert (Hrp1 : rpend pd1 s = rpend pd s) by (destruct Hpd as [[-> _]|(-> & -> & _)]; [done|by rewrite HR, HR0]).
    assert (Hlo1 : lo pd1 s = lo pd s) by (unfold lo; rewrite Hrp1; destruct Hpd as [[-> _]|(-> & -> & _)]; done).
    split; cbn [w_chan w_posted].
    + intros H. rewrite Hrp1, Hsp1. by apply C1.
    + intros H. rewrite Hlo1, Hst1. by apply C2.
    + intros H t. unfold pend_rounds. rewrite Hlo1, Hst1. specialize (C3 H t).
      destruct Hps as [[-> _]|(-> & -> & ->)]; [exact C3|].
      apply Forall2_same_length_lookup. split; [by apply Forall2_length in C3|]. intros i1 j1 m1 Hj1 Hm1.
      assert (Hmm : msg_ok r pr d j1 m1) by (by eapply Forall2_lookup_lr).
      apply (pend_rounds_in pr pd r t) in Hj1. destruct m1 as [m1|b1]; simpl in Hmm |- *.
      * rewrite HS in Hmm. naive_solver.
      * unfold good_bytes in *. rewrite Hin by (unfold in_flight in Hfl; lia). exact Hmm.
    + intros H. rewrite Hsp1 in H. destruct Hps as [[-> _]|(-> & -> & ->)]; [by apply C4|]. by rewrite HS in H.
    + intros H. rewrite Hrp1 in H. destruct Hpd as [[-> _]|(-> & -> & ->)]; [by apply C5|]. by rewrite HR in H.
    + intros t. rewrite C6, Hrp1. destruct Hpd as [[-> _]|(-> & -> & ->)]; [done|]. by rewrite HR.
    + intros H1 H2 k l v Hk Hv. rewrite Hrp1 in H2. destruct Hpd as [[-> _]|(-> & -> & ->)]; [|done].
      apply (C7 H1 H2 k l v Hk). destruct Hps as [[-> _]|(-> & -> & ->)]; [done|]. rewrite Hin in Hv; [done|].
      assert (0 < cnt r d) by (apply lookup_lt_Some in Hk; lia). specialize (C2 ltac:(lia)). unfold lo in C2. rewrite H2 in C2.
      unfold in_flight in *. lia.
  - exact Hout.
  - intros p pr1 j1 res1 Hp Hj1. apply procs_insert in Hp as [(-> & -> & _)|[Hne Hp]].
    + cbn [pr' p_results] in Hj1. destruct (decide (j1 < j)) as [Hlt|Hge].
      * rewrite lookup_app_l in Hj1 by done. destruct (Hres r pr j1 res1 Hr Hj1) as (B1 & B2 & B3). rewrite Hin by lia.
        split; [done|]. split; [done|]. intros s ps1 k i l Hs Hk Hl. unfold set_proc in Hs. cbn [w_procs] in Hs.
        apply procs_insert in Hs as [(-> & -> & _)|[Hne Hs]]; [|by eapply B3].
        destruct (B3 r pr k i l Hr Hk Hl) as [D1 D2]. rewrite Hin by lia. split; [|done].
        cbn [pr' p_results]. rewrite app_length. lia.
      * rewrite lookup_app_r in Hj1 by (fold j; lia). fold j in Hj1.
        assert (j1 = j) as -> by (apply lookup_lt_Some in Hj1; simpl in Hj1; lia). rewrite Nat.sub_diag in Hj1.
        injection Hj1 as <-. rewrite Hin by lia.
        assert (Eb : u_mid u j r (input u j r pr) = before). { unfold before, input. by rewrite take_ge by (fold j; lia). }
        cbn zeta. rewrite Eb. split; [apply ins_all_length|]. split.
        -- intros i Hi. apply ins_all_out. rewrite <- Hl2, all_pairs_keys. intros Hcc.
           apply elem_of_list_In, in_concat in Hcc as (m & Hm & Him). apply elem_of_list_In in Hm, Him.
           apply elem_of_list_lookup_1 in Hm as [s Hs].
           assert (s < n) by (apply lookup_lt_Some in Hs; lia). rewrite (recv_from_get r s sr Hsr) in Hs by done.
           injection Hs as <-. by apply (Hi s).
        -- intros s ps1 k i l Hs Hk Hl. unfold set_proc in Hs. cbn [w_procs] in Hs.
           assert (Hsn : s < n) by (apply lookup_lt_Some in Hs; rewrite insert_length in Hs; lia).
           destruct (lookup_lt_is_Some_2 (w_procs w) s) as [ps Hsl]; [lia|].
           assert (Hc : 0 < cnt s r) by (apply lookup_lt_Some in Hl; lia).
           assert (Hps : j <= length (p_results ps1) /\ input u j s ps1 = input u j s ps).
           { apply procs_insert in Hs as [(-> & -> & _)|[Hne Hs]].
             - assert (ps = pr) as -> by congruence. rewrite Hin by lia. split; [|done]. cbn [pr' p_results]. rewrite app_length. lia.
             - assert (ps1 = ps) as -> by congruence. split; [|done]. by eapply Hprogress. }
           destruct Hps as [Hps1 ->]. split; [done|].
           destruct (maps_get s Hsn) as (srs & Hsrs & Hls & _).
           destruct (Huf s srs (take j (p_results ps)) Hsrs) as [[_ Hfit] _].
           assert (Hlt : l < length (input u j s ps)).
           { eapply Forall_lookup_1 in Hfit; [|apply (send_to_get s r srs Hsrs Hrn)]. eapply Forall_lookup_1 in Hfit; [|exact Hl]. done. }
           destruct (lookup_lt_is_Some_2 _ _ Hlt) as [v Hv]. rewrite Hv.
           destruct (Hpair s r ps pr Hsl Hr) as [_ _ _ _ _ _ C7]. specialize (C7 Hfl (HR s) k l v Hl Hv). fold j in C7.
           rewrite Hsr, HRD in C7. cbn [default from_option] in C7. change (id sr) with sr in C7. rewrite <- C7.
           unfold res. rewrite <- Hl2. apply ins_all_in.
           ++ rewrite all_pairs_keys. by eapply mo_nodup.
           ++ eapply all_pairs_in; [by apply recv_from_get|done].
           ++ destruct Hf2 as [_ Hf2]. eapply Forall_lookup_1 in Hf2; [|by eapply recv_from_get].
              eapply Forall_lookup_1 in Hf2; [|exact Hk]. done.
    + destruct (Hres p pr1 j1 res1 Hp Hj1) as (B1 & B2 & B3). split; [done|]. split; [done|].
      intros s ps1 k i l Hs Hk Hl. unfold set_proc in Hs. cbn [w_procs] in Hs.
      apply procs_insert in Hs as [(-> & -> & _)|[Hne2 Hs]]; [|by eapply B3].
      destruct (B3 r pr k i l Hr Hk Hl) as [D1 D2]. rewrite Hin by done. split; [|done].
      cbn [pr' p_results]. rewrite app_length. lia.
Qed.
End inv.
