(** Lemmas for C115: rationals as reals, and the rounding errors of a face
    value and of a face-normal gradient. *)
From Coq Require Import Reals Lra Psatz QArith.Qreduction Qreals.
From Flocq Require Import Core Plus_error Mult_error Relative.
From Verif Require Import Base Value Properties_Float.
Local Open Scope R_scope.

Lemma QcR_Q2R q : QcR q = Q2R (this q).
Proof. reflexivity. Qed.
Lemma QcR_red (x : QArith_base.Q) : Q2R (Qreduction.Qred x) = Q2R x.
Proof. apply Qeq_eqR, Qreduction.Qred_correct. Qed.
Lemma QcR_plus a b : QcR (a + b)%Qc = QcR a + QcR b.
Proof. rewrite !QcR_Q2R. unfold Qcplus, Q2Qc. cbn [this]. by rewrite QcR_red, Q2R_plus. Qed.
Lemma QcR_mult a b : QcR (a * b)%Qc = QcR a * QcR b.
Proof. rewrite !QcR_Q2R. unfold Qcmult, Q2Qc. cbn [this]. by rewrite QcR_red, Q2R_mult. Qed.
Lemma QcR_opp a : QcR (- a)%Qc = - QcR a.
Proof. rewrite !QcR_Q2R. unfold Qcopp, Q2Qc. cbn [this]. by rewrite QcR_red, Q2R_opp. Qed.
Lemma QcR_0 : QcR 0%Qc = 0.
Proof. unfold QcR. change (IZR 0 / IZR 1 = 0). field. Qed.
Lemma QcR_1 : QcR 1%Qc = 1.
Proof. unfold QcR. change (IZR 1 / IZR 1 = 1). field. Qed.
Lemma QcR_minus a b : QcR (a - b)%Qc = QcR a - QcR b.
Proof. unfold Qcminus. rewrite QcR_plus, QcR_opp. ring. Qed.
Lemma QcR_le a b : (a <= b)%Qc -> QcR a <= QcR b.
Proof. intros Hab. rewrite !QcR_Q2R. by apply Qle_Rle. Qed.

(** The exact arithmetic of real numbers. *)
Definition real_value : ValueType R := {|
  vzero := 0;
  vadd := Rplus;
  vneg := Ropp;
  vscale := fun k x => QcR k * x
|}.

Section prec.
  Context (p : precision).
  Notation u := (u p).
  Notation eta := (eta p).
  Notation format := (scalar_format p).
  Notation rnd := (rnd p).

  #[local] Instance prec_pos' : Prec_gt_0 (digits p). Proof. by destruct p. Qed.
  #[local] Instance valid' : Valid_exp (FLT_exp (emin p) (digits p)). Proof. apply FLT_exp_valid. typeclasses eauto. Qed.

  Lemma format_1 : format 1.
  Proof.
    change 1 with (bpow radix2 0). apply generic_format_bpow. unfold FLT_exp. destruct p; cbn; lia.
  Qed.
  Lemma rnd_mono x y : x <= y -> rnd x <= rnd y.
  Proof. apply round_le; typeclasses eauto. Qed.
  Lemma rnd_0 : rnd 0 = 0.
  Proof. apply round_0. typeclasses eauto. Qed.
  Lemma rnd_opp x : rnd (- x) = - rnd x.
  Proof. unfold Properties_Float.rnd. apply round_NE_opp. Qed.
  (** Subtraction of two different scalars never gives 0. *)
  Lemma rnd_sub_0 x y : format x -> format y -> rnd (x - y) = 0 -> x = y.
  Proof.
    intros Hx Hy H0. destruct (Req_dec x y) as [|Hne]; [done|]. exfalso.
    apply (round_plus_neq_0 radix2 (FLT_exp (emin p) (digits p)) ZnearestE x (- y)); [done|by apply format_opp|lra|done].
  Qed.

  (** w * a + (1 - w) * b as the kernel computes it. *)
  Lemma weight_error w : format w -> Rabs (rnd (1 - w) - (1 - w)) <= u * Rabs (1 - w).
  Proof. intros Hw. apply (rnd_add p 1 (- w)); [apply format_1|by apply format_opp]. Qed.

  Lemma linear_error w a b : format w -> 0 <= w <= 1 ->
    Rabs (rnd (rnd (w * a) + rnd (rnd (1 - w) * b)) - (w * a + (1 - w) * b))
      <= ((1 + u) ^ 3 - 1) * (w * Rabs a + (1 - w) * Rabs b) + 2 * (1 + u) * eta.
  Proof.
    intros Hw Hr. pose proof (u_pos p) as Hu. pose proof (eta_pos p) as He.
    pose proof (weight_error w Hw) as E0. rewrite (Rabs_right (1 - w)) in E0 by lra. set (v := rnd (1 - w)) in *.
    pose proof (rnd_err p (w * a)) as E1. rewrite Rabs_mult, (Rabs_right w) in E1 by lra. set (x := rnd (w * a)) in *.
    pose proof (rnd_err p (v * b)) as E2. rewrite Rabs_mult in E2. set (y := rnd (v * b)) in *.
    pose proof (rnd_add p x y (format_rnd p _) (format_rnd p _)) as E3. set (z := rnd (x + y)) in *.
    pose proof (Rabs_pos a) as Pa. pose proof (Rabs_pos b) as Pb.
    assert (Hv : Rabs v <= (1 + u) * (1 - w)).
    { replace v with ((v - (1 - w)) + (1 - w)) by ring. eapply Rle_trans; [apply Rabs_triang|].
      rewrite (Rabs_right (1 - w)) by lra. lra. }
    assert (Hvb : Rabs v * Rabs b <= (1 + u) * ((1 - w) * Rabs b)).
    { eapply Rle_trans; [apply Rmult_le_compat_r; [exact Pb|exact Hv]|]. lra. }
    assert (Hvb' : Rabs (v * b - (1 - w) * b) <= u * ((1 - w) * Rabs b)).
    { replace (v * b - (1 - w) * b) with ((v - (1 - w)) * b) by ring. rewrite Rabs_mult.
      eapply Rle_trans; [apply Rmult_le_compat_r; [exact Pb|exact E0]|]. lra. }
    assert (Hy : Rabs (y - (1 - w) * b) <= ((1 + u) ^ 2 - 1) * ((1 - w) * Rabs b) + eta).
    { replace (y - (1 - w) * b) with ((y - v * b) + (v * b - (1 - w) * b)) by ring.
      eapply Rle_trans; [apply Rabs_triang|].
      assert (u * (Rabs v * Rabs b) <= u * ((1 + u) * ((1 - w) * Rabs b))) by (apply Rmult_le_compat_l; lra). simpl. lra. }
    assert (HA : 0 <= w * Rabs a) by (apply Rmult_le_pos; lra). assert (HB : 0 <= (1 - w) * Rabs b) by (apply Rmult_le_pos; lra).
    set (A := w * Rabs a) in *. set (B := (1 - w) * Rabs b) in *.
    assert (Hxy : Rabs ((x + y) - (w * a + (1 - w) * b)) <= ((1 + u) ^ 2 - 1) * (A + B) + 2 * eta).
    { replace ((x + y) - (w * a + (1 - w) * b)) with ((x - w * a) + (y - (1 - w) * b)) by ring.
      eapply Rle_trans; [apply Rabs_triang|].
      assert (0 <= u * (A * (1 + u))) by (apply Rmult_le_pos; [lra|]; apply Rmult_le_pos; lra). simpl in *. lra. }
    assert (HX : Rabs (w * a + (1 - w) * b) <= A + B).
    { eapply Rle_trans; [apply Rabs_triang|]. rewrite !Rabs_mult, (Rabs_right w), (Rabs_right (1 - w)) by lra. unfold A, B. lra. }
    assert (Hs : Rabs (x + y) <= (1 + u) ^ 2 * (A + B) + 2 * eta).
    { replace (x + y) with (((x + y) - (w * a + (1 - w) * b)) + (w * a + (1 - w) * b)) by ring.
      eapply Rle_trans; [apply Rabs_triang|]. lra. }
    replace (z - (w * a + (1 - w) * b)) with ((z - (x + y)) + ((x + y) - (w * a + (1 - w) * b))) by ring.
    eapply Rle_trans; [apply Rabs_triang|].
    assert (u * Rabs (x + y) <= u * ((1 + u) ^ 2 * (A + B) + 2 * eta)) by (apply Rmult_le_compat_l; lra).
    simpl in *. lra.
  Qed.

  (** k * (a - b) as the kernel computes it. *)
  Lemma gradient_error k a b : format a -> format b ->
    Rabs (rnd (k * rnd (a - b)) - k * (a - b)) <= ((1 + u) ^ 2 - 1) * (Rabs k * Rabs (a - b)) + eta.
  Proof.
    intros Ha Hb. pose proof (u_pos p) as Hu.
    pose proof (rnd_add p a (- b) Ha (format_opp p _ Hb)) as E1. change (a + - b) with (a - b) in E1. set (d := rnd (a - b)) in *.
    pose proof (rnd_err p (k * d)) as E2. set (z := rnd (k * d)) in *. rewrite Rabs_mult in E2.
    pose proof (Rabs_pos k) as Pk. pose proof (Rabs_pos (a - b)) as Pd.
    assert (Hd : Rabs d <= (1 + u) * Rabs (a - b)).
    { replace d with ((d - (a - b)) + (a - b)) by ring. eapply Rle_trans; [apply Rabs_triang|]. lra. }
    replace (z - k * (a - b)) with ((z - k * d) + k * (d - (a - b))) by ring. eapply Rle_trans; [apply Rabs_triang|].
    rewrite Rabs_mult.
    assert (Rabs k * Rabs (d - (a - b)) <= Rabs k * (u * Rabs (a - b))) by (apply Rmult_le_compat_l; lra).
    assert (u * (Rabs k * Rabs d) <= u * (Rabs k * ((1 + u) * Rabs (a - b)))).
    { apply Rmult_le_compat_l; [lra|]. apply Rmult_le_compat_l; lra. }
    simpl. lra.
  Qed.
  Lemma gradient_sign k a b : 0 <= k -> format a -> format b ->
    (a <= b -> rnd (k * rnd (b - a)) >= 0) /\ (b <= a -> rnd (k * rnd (b - a)) <= 0).
  Proof.
    intros Hk Ha Hb. split; intros Hab.
    - apply Rle_ge. rewrite <- rnd_0. apply rnd_mono. apply Rmult_le_pos; [done|].
      rewrite <- rnd_0. apply rnd_mono. lra.
    - rewrite <- rnd_0. apply rnd_mono. assert (rnd (b - a) <= 0) by (rewrite <- rnd_0; apply rnd_mono; lra). nra.
  Qed.
  Lemma gradient_zero k a : rnd (k * rnd (a - a)) = 0.
  Proof. replace (a - a) with 0 by ring. rewrite rnd_0, Rmult_0_r. apply rnd_0. Qed.
  Lemma gradient_nonzero k a b : 1 <= k -> format a -> format b -> a <> b -> rnd (k * rnd (b - a)) <> 0.
  Proof.
    intros Hk Ha Hb Hne H0. set (d := rnd (b - a)) in *.
    assert (Hd : d <> 0). { intros Hd. apply Hne. symmetry. by apply rnd_sub_0. }
    assert (Fd : format d) by apply format_rnd.
    destruct (Rlt_le_dec 0 d) as [Hp|Hn].
    - assert (rnd d <= rnd (k * d)) by (apply rnd_mono; nra). rewrite (rnd_format p d Fd), H0 in H. lra.
    - assert (rnd (k * d) <= rnd d) by (apply rnd_mono; nra). rewrite (rnd_format p d Fd), H0 in H. lra.
  Qed.

  (** Half of a scalar that is not tiny is a scalar. *)
  Lemma half_format c : format c -> bpow radix2 (emin p + digits p) <= Rabs c -> format (c / 2).
  Proof.
    intros Hc Hb. unfold scalar_format in *.
    replace (c / 2) with (c * bpow radix2 (-1)) by (change (bpow radix2 (-1)) with (/ IZR 2); unfold Rdiv; ring).
    apply mult_bpow_exact_FLT; [done|].
    assert (emin p + digits p + 1 <= mag radix2 c)%Z; [|lia].
    apply mag_ge_bpow. replace (emin p + digits p + 1 - 1)%Z with (emin p + digits p)%Z by lia. done.
  Qed.
End prec.
