(** Proofs about boundary conditions. *)
From Verif Require Import Base Par ParProofs Exec ExecProofs Value Mesh FV FVSpec Boundary.

Section proofs.
  Context {V : Type} `{HV : ValueType V}.
  Notation volField := (volField V).

  (** The five arrays keep their lengths. *)
  Definition same_shape (a b : volField) : Prop :=
    length (vf_int a) = length (vf_int b) /\ length (vf_value a) = length (vf_value b) /\
    length (vf_refValue a) = length (vf_refValue b) /\ length (vf_valueFraction a) = length (vf_valueFraction b) /\
    length (vf_refGrad a) = length (vf_refGrad b).

  (** A write that stays inside its array. *)
  Definition w_ok (off i : nat) (phi : volField) (w : bwrite V) : Prop :=
    match w with
    | WValue _ => i < length (vf_value phi)
    | WRef _ => i < length (vf_refValue phi)
    | WFrac _ => i < length (vf_valueFraction phi)
    | WGrad _ => i < length (vf_refGrad phi)
    | WInt _ => off + i < length (vf_int phi)
    | WCrash => False
    end.
  Definition bput (off i : nat) (phi : volField) (w : bwrite V) : volField :=
    match w with
    | WValue v => VolField (vf_int phi) (<[i := v]> (vf_value phi)) (vf_refValue phi) (vf_valueFraction phi) (vf_refGrad phi)
    | WRef v => VolField (vf_int phi) (vf_value phi) (<[i := v]> (vf_refValue phi)) (vf_valueFraction phi) (vf_refGrad phi)
    | WFrac q => VolField (vf_int phi) (vf_value phi) (vf_refValue phi) (<[i := q]> (vf_valueFraction phi)) (vf_refGrad phi)
    | WGrad v => VolField (vf_int phi) (vf_value phi) (vf_refValue phi) (vf_valueFraction phi) (<[i := v]> (vf_refGrad phi))
    | WInt v => VolField (<[off + i := v]> (vf_int phi)) (vf_value phi) (vf_refValue phi) (vf_valueFraction phi) (vf_refGrad phi)
    | WCrash => phi
    end.

  Lemma bstep_ok off i w phi l : w_ok off i phi w -> bstep off i w phi l = Some (bput off i phi w, l).
  Proof.
    destruct w; simpl; intros Hok; try done;
      (destruct (lookup_lt_is_Some_2 _ _ Hok) as [x ->]; done).
  Qed.
  Lemma bput_shape off i phi w : same_shape (bput off i phi w) phi.
  Proof. destruct w; unfold same_shape; simpl; rewrite ?insert_length; done. Qed.
  Lemma w_ok_shape off i phi phi' w : same_shape phi phi' -> w_ok off i phi w <-> w_ok off i phi' w.
  Proof. intros (H1 & H2 & H3 & H4 & H5). destruct w; simpl; rewrite ?H1, ?H2, ?H3, ?H4, ?H5; done. Qed.
  Lemma same_shape_trans a b c : same_shape a b -> same_shape b c -> same_shape a c.
  Proof. unfold same_shape. intros (-> & -> & -> & -> & ->). done. Qed.
  Lemma same_shape_refl a : same_shape a a.
  Proof. done. Qed.
  Lemma bput_comm off i j w w' phi : i <> j ->
    bput off j (bput off i phi w) w' = bput off i (bput off j phi w') w.
  Proof. intros Hij. destruct w, w'; simpl; try done; f_equal; apply list_insert_commute; lia. Qed.

  Context (off : nat) (k : nat -> option (list (bwrite V))).
  Notation ws i := (match k i with Some l => l | None => [WCrash] end).

  Section range.
    Context (start stop : nat) (phi0 : volField).
    Context (Hok : forall i w, start <= i < stop -> w ∈ ws i -> w_ok off i phi0 w).
    Notation Inv := (fun phi => same_shape phi phi0).

    Lemma b_total : all_total Inv (iterations start stop (bthread off k)).
    Proof using Hok.
      intros i th a Hi Ha. apply lookup_iterations in Hi as [-> Hlt]. simpl in Ha.
      apply elem_of_list_fmap in Ha as (w & -> & Hw). intros phi l Hinv.
      rewrite bstep_ok. { eexists _, _. split; [done|]. eapply same_shape_trans; [apply bput_shape|done]. }
      apply (w_ok_shape off _ phi phi0); [done|]. apply Hok; [lia|done].
    Qed.
    Lemma b_commute : all_commute Inv (iterations start stop (bthread off k)).
    Proof using Hok.
      intros i j ti tj a b Hij Hi Hj Ha Hb.
      apply lookup_iterations in Hi as [-> Hlt]. apply lookup_iterations in Hj as [-> Hlt']. simpl in Ha, Hb.
      apply elem_of_list_fmap in Ha as (w & -> & Hw). apply elem_of_list_fmap in Hb as (w' & -> & Hw').
      intros phi la lb Hinv.
      assert (H1 : forall p, same_shape p phi0 -> w_ok off (start + i) p w).
      { intros p Hp. apply (w_ok_shape off _ p phi0); [done|]. apply Hok; [lia|done]. }
      assert (H2 : forall p, same_shape p phi0 -> w_ok off (start + j) p w').
      { intros p Hp. apply (w_ok_shape off _ p phi0); [done|]. apply Hok; [lia|done]. }
      assert (S1 : same_shape (bput off (start + i) phi w) phi0) by (eapply same_shape_trans; [apply bput_shape|done]).
      assert (S2 : same_shape (bput off (start + j) phi w') phi0) by (eapply same_shape_trans; [apply bput_shape|done]).
      exists (bput off (start + i) phi w), la, (bput off (start + j) phi w'), lb, (bput off (start + j) (bput off (start + i) phi w) w').
      rewrite !bstep_ok by auto. do 3 (split; [done|]). rewrite bput_comm by lia. done.
    Qed.
  End range.

  Lemma run_thread_bput i wl : forall phi l, (forall w, w ∈ wl -> w_ok off i phi w) ->
    run_thread l (map (bstep off i) wl) phi = Some (foldl (bput off i) phi wl).
  Proof.
    induction wl as [|w wl IH]; intros phi l Hw; [done|].
    simpl. rewrite bstep_ok by (apply Hw; by constructor). apply IH.
    intros w' Hw'. apply (w_ok_shape off i _ phi); [apply bput_shape|]. apply Hw. by constructor.
  Qed.
  Lemma foldl_shape i wl : forall phi, same_shape (foldl (bput off i) phi wl) phi.
  Proof.
    induction wl as [|w wl IH]; intros phi; [done|]. simpl.
    eapply same_shape_trans; [apply IH|apply bput_shape].
  Qed.

  Definition b_all (start n : nat) (phi : volField) : volField :=
    foldl (fun phi i => foldl (bput off i) phi (ws i)) phi (seq start n).

  Lemma run_serial_ball n : forall start phi,
    (forall i w, start <= i < start + n -> w ∈ ws i -> w_ok off i phi w) ->
    run_serial (map (bthread off k) (seq start n)) phi = Some (b_all start n phi).
  Proof.
    induction n as [|n IH]; intros start phi Hw; [done|].
    unfold b_all. simpl. rewrite run_thread_bput by (intros w; apply Hw; lia).
    apply IH. intros i w Hi Hin. apply (w_ok_shape off i _ phi); [apply foldl_shape|]. apply Hw; [lia|done].
  Qed.

  (** What a body writes to each array last. *)
  Definition lastV (l : list (bwrite V)) : option V := foldl (fun a w => match w with WValue v => Some v | _ => a end) None l.
  Definition lastR (l : list (bwrite V)) : option V := foldl (fun a w => match w with WRef v => Some v | _ => a end) None l.
  Definition lastF (l : list (bwrite V)) : option Qc := foldl (fun a w => match w with WFrac v => Some v | _ => a end) None l.
  Definition lastG (l : list (bwrite V)) : option V := foldl (fun a w => match w with WGrad v => Some v | _ => a end) None l.
  Definition lastI (l : list (bwrite V)) : option V := foldl (fun a w => match w with WInt v => Some v | _ => a end) None l.

  Definition or_else {A} (a b : option A) : option A := match a with Some x => Some x | None => b end.

  Ltac one_body proj :=
    let IH := fresh "IH" in
    match goal with |- context [foldl (bput _ _) _ ?wl] => induction wl as [|w wl IH] using rev_ind end; [done|];
    rewrite foldl_app; simpl.

  Lemma body_lookup i wl phi : (forall w, w ∈ wl -> w_ok off i phi w) ->
    let phi' := foldl (bput off i) phi wl in
    (forall j, vf_value phi' !! j = if decide (j = i) then or_else (lastV wl) (vf_value phi !! j) else vf_value phi !! j) /\
    (forall j, vf_refValue phi' !! j = if decide (j = i) then or_else (lastR wl) (vf_refValue phi !! j) else vf_refValue phi !! j) /\
    (forall j, vf_valueFraction phi' !! j = if decide (j = i) then or_else (lastF wl) (vf_valueFraction phi !! j) else vf_valueFraction phi !! j) /\
    (forall j, vf_refGrad phi' !! j = if decide (j = i) then or_else (lastG wl) (vf_refGrad phi !! j) else vf_refGrad phi !! j) /\
    (forall j, vf_int phi' !! j = if decide (j = off + i) then or_else (lastI wl) (vf_int phi !! j) else vf_int phi !! j).
  Proof.
    induction wl as [|w wl IH] using rev_ind; intros Hw; simpl.
    { split; [|split; [|split; [|split]]]; intros j; destruct (decide _); done. }
    destruct IH as (I1 & I2 & I3 & I4 & I5). { intros w' Hw'. apply Hw. apply elem_of_app. by left. }
    rewrite foldl_app. unfold lastV, lastR, lastF, lastG, lastI. rewrite !foldl_app. simpl.
    fold (lastV wl) (lastR wl) (lastF wl) (lastG wl) (lastI wl).
    assert (Hx : w_ok off i (foldl (bput off i) phi wl) w).
    { apply (w_ok_shape off i _ phi); [apply foldl_shape|]. apply Hw. apply elem_of_app. right. by constructor. }
    destruct w; simpl in Hx |- *; try done;
      (split; [|split; [|split; [|split]]]); intros j; try done;
      destruct (decide _) as [->|]; try (rewrite list_lookup_insert by done; done);
      rewrite list_lookup_insert_ne by done; rewrite ?I1, ?I2, ?I3, ?I4, ?I5; rewrite decide_False by done; done.
  Qed.

  Lemma ball_lookup n : forall start phi,
    (forall i w, start <= i < start + n -> w ∈ ws i -> w_ok off i phi w) ->
    let phi' := b_all start n phi in same_shape phi' phi /\
    (forall j, vf_value phi' !! j = if decide (start <= j < start + n) then or_else (lastV (ws j)) (vf_value phi !! j) else vf_value phi !! j) /\
    (forall j, vf_refValue phi' !! j = if decide (start <= j < start + n) then or_else (lastR (ws j)) (vf_refValue phi !! j) else vf_refValue phi !! j) /\
    (forall j, vf_valueFraction phi' !! j = if decide (start <= j < start + n) then or_else (lastF (ws j)) (vf_valueFraction phi !! j) else vf_valueFraction phi !! j) /\
    (forall j, vf_refGrad phi' !! j = if decide (start <= j < start + n) then or_else (lastG (ws j)) (vf_refGrad phi !! j) else vf_refGrad phi !! j) /\
    (forall j, vf_int phi' !! j = if decide (off + start <= j < off + start + n) then or_else (lastI (ws (j - off))) (vf_int phi !! j) else vf_int phi !! j).
  Proof.
    induction n as [|n IH]; intros start phi Hw.
    { unfold b_all. simpl. split; [done|]. split; [|split; [|split; [|split]]]; intros j; rewrite decide_False by lia; done. }
    unfold b_all. simpl. fold (b_all (S start) n (foldl (bput off start) phi (ws start))).
    destruct (body_lookup start (ws start) phi) as (I1 & I2 & I3 & I4 & I5). { intros w. apply Hw. lia. }
    destruct (IH (S start) (foldl (bput off start) phi (ws start))) as (J0 & J1 & J2 & J3 & J4 & J5).
    { intros i w Hi Hin. apply (w_ok_shape off i _ phi); [apply foldl_shape|]. apply Hw; [lia|done]. }
    split; [eapply same_shape_trans; [exact J0|apply foldl_shape]|].
    split; [|split; [|split; [|split]]]; intros j.
    1: rewrite J1, I1. 2: rewrite J2, I2. 3: rewrite J3, I3. 4: rewrite J4, I4. 5: rewrite J5, I5.
    1-4: repeat match goal with |- context [decide ?P] => destruct (decide P) end; try lia; try done; subst; done.
    repeat match goal with |- context [decide ?P] => destruct (decide P) end; try lia; try done; subst.
    replace (off + start - off) with start by lia. done.
  Qed.

  (** Every executor and every schedule: the whole effect of the loop. *)
  Theorem bfor_effect e start stop (phi : volField) : start <= stop ->
    (forall i w, start <= i < stop -> w ∈ ws i -> w_ok off i phi w) ->
    exists phi', always (bfor e off (start, stop) k phi) phi' /\ same_shape phi' phi /\
    (forall j, vf_value phi' !! j = if decide (start <= j < stop) then or_else (lastV (ws j)) (vf_value phi !! j) else vf_value phi !! j) /\
    (forall j, vf_refValue phi' !! j = if decide (start <= j < stop) then or_else (lastR (ws j)) (vf_refValue phi !! j) else vf_refValue phi !! j) /\
    (forall j, vf_valueFraction phi' !! j = if decide (start <= j < stop) then or_else (lastF (ws j)) (vf_valueFraction phi !! j) else vf_valueFraction phi !! j) /\
    (forall j, vf_refGrad phi' !! j = if decide (start <= j < stop) then or_else (lastG (ws j)) (vf_refGrad phi !! j) else vf_refGrad phi !! j) /\
    (forall j, vf_int phi' !! j = if decide (off + start <= j < off + stop) then or_else (lastI (ws (j - off))) (vf_int phi !! j) else vf_int phi !! j).
  Proof.
    intros Hle Hok. exists (b_all start (stop - start) phi).
    destruct (ball_lookup (stop - start) start phi) as (J0 & J1 & J2 & J3 & J4 & J5).
    { intros i w Hi. apply Hok. lia. }
    assert (Hs : run_serial (iterations start stop (bthread off k)) phi = Some (b_all start (stop - start) phi)).
    { unfold iterations. apply run_serial_ball. intros i w Hi. apply Hok. lia. }
    split.
    - intros r. unfold bfor. simpl. split.
      + intros Hr. eapply (exec_result_det (fun p => same_shape p phi)) in Hr.
        * by rewrite Hs in Hr.
        * by apply b_total.
        * by apply b_commute.
        * done.
      + intros ->. by apply exec_result_exists.
    - split; [done|]. replace (off + start + (stop - start)) with (off + stop) in J5 by lia.
      replace (start + (stop - start)) with stop in * by lia. done.
  Qed.
End proofs.
