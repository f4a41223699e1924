(** C115: interpolation, face-normal gradient and whole explicit operators in
    floating-point arithmetic, against the exact formulas. *)
From Coq Require Import Reals Lra Psatz.
From Flocq Require Import Core.Core IEEE754.BinarySingleNaN IEEE754.Binary IEEE754.Bits.
From Verif Require Import Base Par ParProofs Exec ExecProofs Value Kernel KernelProofs KernelAnyArith Mesh MeshSpec MeshProofs Coeff FV FVSpec FVProofs FVAnyArith ExampleMesh Properties_AnyArith Properties_Float Properties_Binary64 FloatFaces FloatTotal.
Local Open Scope R_scope.

(** * In any arithmetic: the same bits on every executor, whatever the face field
    held before. *)
Theorem C115_interpolation_same_bits : forall {V} `{ValueType V} m, valid_topology m ->
  forall s (phi : volField V) flux weights,
  field_ok m phi -> length flux = nFaces m -> length weights = nFaces m ->
  exists phif, length phif = nFaces m /\
    (forall f, (f < nFaces m)%nat -> phif !! f = Some (face_value m s phi flux weights f)) /\
    forall e dst r, length dst = nFaces m -> (interpolate s e m flux phi weights dst r <-> r = Some [phif]).
Proof.
  intros V HV m Hm s phi flux weights Hphi Hfl Hw.
  exists (map (face_value m s phi flux weights) (seq 0 (nFaces m))).
  assert (Hl : length (map (face_value m s phi flux weights) (seq 0 (nFaces m))) = nFaces m) by (by rewrite map_length, seq_length).
  assert (Hv : forall f, (f < nFaces m)%nat -> map (face_value m s phi flux weights) (seq 0 (nFaces m)) !! f = Some (face_value m s phi flux weights f)).
  { intros f Hf. change (map ?g ?l) with (g <$> l). rewrite list_lookup_fmap, lookup_seq_lt by done. done. }
  split; [done|]. split; [done|]. intros e dst r Hd.
  destruct (interpolate_result m Hm s e phi flux weights dst Hphi Hfl Hw Hd) as (phif & Hi & Hil & Hif).
  rewrite Hi. assert (phif = map (face_value m s phi flux weights) (seq 0 (nFaces m))) as ->; [|done].
  apply (list_eq_same_length _ _ (nFaces m)); [done|done|]. intros f x y Hf Hx Hy.
  rewrite Hif in Hx by done. rewrite Hv in Hy by done. congruence.
Qed.
Print Assumptions C115_interpolation_same_bits.

Theorem C115_gradient_same_bits : forall {V} `{ValueType V} m, valid_topology m ->
  forall (phi : volField V) dc,
  field_ok m phi -> length dc = nFaces m ->
  exists g, length g = nFaces m /\
    (forall f, (f < nFaces m)%nat -> g !! f = Some (normal_gradient m phi dc f)) /\
    forall e dst r, length dst = nFaces m -> (computeFaceNormalGrad e m phi dc dst r <-> r = Some [g]).
Proof.
  intros V HV m Hm phi dc Hphi Hdc. pose proof (vt_faces _ Hm) as HnF.
  exists (map (normal_gradient m phi dc) (seq 0 (nFaces m))).
  assert (Hl : length (map (normal_gradient m phi dc) (seq 0 (nFaces m))) = nFaces m) by (by rewrite map_length, seq_length).
  assert (Hv : forall f, (f < nFaces m)%nat -> map (normal_gradient m phi dc) (seq 0 (nFaces m)) !! f = Some (normal_gradient m phi dc f)).
  { intros f Hf. change (map ?g ?l) with (g <$> l). rewrite list_lookup_fmap, lookup_seq_lt by done. done. }
  split; [done|]. split; [done|]. intros e dst r Hd.
  destruct (fng_result m Hm e phi dc dst Hphi Hdc Hd) as (g & Hi & Hil & Hg1 & Hg2).
  rewrite Hi. assert (g = map (normal_gradient m phi dc) (seq 0 (nFaces m))) as ->; [|done].
  apply (list_eq_same_length _ _ (nFaces m)); [done|done|]. intros f x y Hf Hx Hy.
  rewrite Hv in Hy by done. injection Hy as <-. unfold normal_gradient.
  destruct (decide (f < nInternalFaces m)%nat).
  - rewrite Hg1 in Hx by done. injection Hx as <-. done.
  - replace f with (nInternalFaces m + (f - nInternalFaces m))%nat in Hx at 1 by lia. rewrite Hg2 in Hx by lia.
    injection Hx as <-. replace (nInternalFaces m + (f - nInternalFaces m))%nat with f by lia. done.
Qed.
Print Assumptions C115_gradient_same_bits.

(** * Rounding errors *)
(** Interpolation weights: scalars between 0 and 1. *)
Definition weights_ok (p : precision) (weights : list Qc) : Prop :=
  Forall (fun w => scalar_format p (QcR w) /\ 0 <= QcR w <= 1) weights.
Definition boundary_weights_1 (m : mesh) (weights : list Qc) : Prop :=
  forall f, (nInternalFaces m <= f < nFaces m)%nat -> at0 weights f = 1%Qc.
Definition scalars (p : precision) (l : list Qc) : Prop := Forall (fun q => scalar_format p (QcR q)) l.
Definition field_scalars (p : precision) (phi : volField R) : Prop :=
  Forall (scalar_format p) (vf_int phi) /\ Forall (scalar_format p) (vf_value phi).

Section lemmas.
  Context (p : precision) (m : mesh) (Hm : valid_topology m).

  Lemma weight_at weights f : weights_ok p weights -> length weights = nFaces m -> (f < nFaces m)%nat ->
    scalar_format p (QcR (at0 weights f)) /\ 0 <= QcR (at0 weights f) <= 1.
  Proof.
    intros Hw Hl Hf. destruct (lookup_lt_is_Some_2 weights f) as [w Ew]; [lia|]. unfold at0. rewrite Ew.
    exact (Forall_lookup_1 _ _ _ _ Hw Ew).
  Qed.
  Lemma atV_abs (l : list R) i : @atV R real_value (map Rabs l) i = Rabs (@atV R real_value l i).
  Proof.
    unfold atV. change (map Rabs l) with (Rabs <$> l). rewrite list_lookup_fmap. destruct (l !! i); cbn [fmap option_fmap option_map default]; [done|].
    unfold vzero, real_value. by rewrite Rabs_R0.
  Qed.
  Lemma atV_format (l : list R) i : Forall (scalar_format p) l -> scalar_format p (@atV R real_value l i).
  Proof.
    intros Hl. unfold atV. destruct (l !! i) as [x|] eqn:Ex; [|apply format_0]. exact (Forall_lookup_1 _ _ _ _ Hl Ex).
  Qed.

  Lemma face_value_error s (phi : volField R) flux weights f : weights_ok p weights -> length weights = nFaces m -> (f < nFaces m)%nat ->
    Rabs (@face_value R (scalar_value p) m s phi flux weights f - @face_value R real_value m s phi flux weights f)
      <= ((1 + u p) ^ 3 - 1) * @face_value R real_value m s (magnitudes phi) flux weights f + 2 * (1 + u p) * eta p.
  Proof.
    intros Hw Hl Hf. destruct (weight_at weights f Hw Hl Hf) as [Fw Rw]. pose proof (u_pos p) as Hu. pose proof (eta_pos p) as He.
    pose proof (pow1u p 3) as P3.
    unfold face_value, at_owner, at_neighbour. cbn [vf_int vf_value magnitudes].
    change (@atV R (scalar_value p)) with (@atV R real_value). rewrite !atV_abs.
    set (w := at0 weights f) in *.
    destruct (decide (f < nInternalFaces m)%nat).
    - destruct s.
      + unfold vadd, vscale, scalar_value, real_value. fold real_value. rewrite (rnd_format p (QcR w) Fw). rewrite QcR_minus, QcR_1.
        apply linear_error; done.
      + destruct (Qclt_le_dec (at0 flux f) 0); rewrite Rminus_diag_eq, Rabs_R0 by done;
        match goal with |- 0 <= (_ * Rabs ?x) + _ => pose proof (Rabs_pos x) end;
        (apply Rplus_le_le_0_compat; [apply Rmult_le_pos; lra|]; apply Rmult_le_pos; lra).
    - unfold vscale, scalar_value, real_value. fold real_value. rewrite (rnd_format p (QcR w) Fw).
      set (x := @atV R real_value (vf_value phi) _). pose proof (rnd_err p (QcR w * x)) as E. rewrite Rabs_mult, (Rabs_right (QcR w)) in E by lra.
      assert (0 <= QcR w * Rabs x) by (apply Rmult_le_pos; [lra|apply Rabs_pos]).
      assert (u p <= (1 + u p) ^ 3 - 1) by (cbn [Rpow_def.pow]; nra).
      assert (u p * (QcR w * Rabs x) <= ((1 + u p) ^ 3 - 1) * (QcR w * Rabs x)) by (apply Rmult_le_compat_r; lra). nra.
  Qed.
  Lemma face_value_magnitude s (phi : volField R) flux weights f : weights_ok p weights -> length weights = nFaces m -> (f < nFaces m)%nat ->
    Rabs (@face_value R real_value m s phi flux weights f) <= @face_value R real_value m s (magnitudes phi) flux weights f.
  Proof.
    intros Hw Hl Hf. destruct (weight_at weights f Hw Hl Hf) as [_ Rw].
    unfold face_value, at_owner, at_neighbour. cbn [vf_int vf_value magnitudes]. rewrite !atV_abs.
    set (w := at0 weights f) in *.
    destruct (decide (f < nInternalFaces m)%nat).
    - destruct s.
      + unfold vadd, vscale, real_value. fold real_value. rewrite QcR_minus, QcR_1. eapply Rle_trans; [apply Rabs_triang|].
        rewrite !Rabs_mult, (Rabs_right (QcR w)), (Rabs_right (1 - QcR w)) by lra. lra.
      + destruct (Qclt_le_dec (at0 flux f) 0); lra.
    - unfold vscale, real_value. fold real_value. rewrite Rabs_mult, (Rabs_right (QcR w)) by lra. lra.
  Qed.

  Lemma gradient_at (phi : volField R) dc f : scalars p dc -> length dc = nFaces m -> (f < nFaces m)%nat ->
    scalar_format p (QcR (at0 dc f)).
  Proof.
    intros Hw Hl Hf. destruct (lookup_lt_is_Some_2 dc f) as [w Ew]; [lia|]. unfold at0. rewrite Ew. exact (Forall_lookup_1 _ _ _ _ Hw Ew).
  Qed.
  (** The two values whose difference is taken. *)
  Definition inside (phi : volField R) (f : nat) : R :=
    if decide (f < nInternalFaces m)%nat then @at_owner R real_value m phi f else @at_face_cell R real_value m phi (f - nInternalFaces m).
  Definition outside (phi : volField R) (f : nat) : R :=
    if decide (f < nInternalFaces m)%nat then @at_neighbour R real_value m phi f else @atV R real_value (vf_value phi) (f - nInternalFaces m).
  Lemma gradient_float (phi : volField R) dc f : scalar_format p (QcR (at0 dc f)) ->
    @normal_gradient R (scalar_value p) m phi dc f = rnd p (QcR (at0 dc f) * rnd p (outside phi f - inside phi f)).
  Proof.
    intros Hd. unfold normal_gradient, inside, outside, at_owner, at_neighbour, at_face_cell, vsub. change (@atV R (scalar_value p)) with (@atV R real_value).
    unfold vscale, vadd, vneg, scalar_value. rewrite (rnd_format p _ Hd). destruct (decide (f < nInternalFaces m)%nat); done.
  Qed.
  Lemma gradient_real (phi : volField R) dc f : @normal_gradient R real_value m phi dc f = QcR (at0 dc f) * (outside phi f - inside phi f).
  Proof.
    unfold normal_gradient, inside, outside, vsub. unfold vscale, vadd, vneg, real_value. destruct (decide (f < nInternalFaces m)%nat); done.
  Qed.
  Lemma inside_format phi f : field_scalars p phi -> scalar_format p (inside phi f).
  Proof. intros [H1 H2]. unfold inside. destruct (decide _); by apply atV_format. Qed.
  Lemma outside_format phi f : field_scalars p phi -> scalar_format p (outside phi f).
  Proof. intros [H1 H2]. unfold outside. destruct (decide _); by apply atV_format. Qed.
End lemmas.

(** Interpolation: at most three roundings per face, relative to the interpolated
    magnitudes; the remainder is what underflow can add. *)
Theorem C115_interpolation_error : forall p m, valid_topology m ->
  forall e s (phi : volField R) flux weights dst,
  field_ok m phi -> length flux = nFaces m -> length weights = nFaces m -> length dst = nFaces m -> weights_ok p weights ->
  every_outcome (@interpolate R (scalar_value p) s e m flux phi weights dst) (fun r => exists phif, r = [phif] /\
    length phif = nFaces m /\
    forall f, (f < nFaces m)%nat ->
      Rabs (default 0 (phif !! f) - @face_value R real_value m s phi flux weights f)
        <= ((1 + u p) ^ 3 - 1) * @face_value R real_value m s (magnitudes phi) flux weights f + 2 * (1 + u p) * eta p).
Proof.
  intros p m Hm e s phi flux weights dst Hphi Hfl Hw Hd Hok.
  destruct (@C115_interpolation_same_bits R (scalar_value p) m Hm s phi flux weights Hphi Hfl Hw) as (phif & Hl & Hv & Hr).
  apply (every_outcome_always _ [phif]); [intros r; by apply Hr|]. exists phif. split; [done|]. split; [done|].
  intros f Hf. rewrite Hv by done. cbn [default]. by apply face_value_error.
Qed.
Print Assumptions C115_interpolation_error.

(** So interpolated values stay between the extreme values of the field up to that
    error; with upwind they are values of the field, exactly. *)
Theorem C115_interpolation_bounds : forall p m, valid_topology m ->
  forall e s (phi : volField R) flux weights dst lo hi M,
  field_ok m phi -> length flux = nFaces m -> length weights = nFaces m -> length dst = nFaces m -> weights_ok p weights ->
  boundary_weights_1 m weights ->
  Forall (fun x => lo <= x <= hi /\ Rabs x <= M) (vf_int phi) -> Forall (fun x => lo <= x <= hi /\ Rabs x <= M) (vf_value phi) ->
  every_outcome (@interpolate R (scalar_value p) s e m flux phi weights dst) (fun r => exists phif, r = [phif] /\
    length phif = nFaces m /\
    forall f, (f < nFaces m)%nat ->
      let slack := ((1 + u p) ^ 3 - 1) * M + 2 * (1 + u p) * eta p in
      lo - slack <= default 0 (phif !! f) <= hi + slack).
Proof.
  intros p m Hm e s phi flux weights dst lo hi M Hphi Hfl Hw Hd Hok Hb1 Hi Hb. pose proof (vt_faces _ Hm) as HnF.
  eapply every_outcome_impl; [by apply (C115_interpolation_error p m Hm e s phi flux weights dst)|].
  intros r (phif & -> & Hl & He). exists phif. split; [done|]. split; [done|]. intros f Hf slack. specialize (He f Hf).
  assert (Hin : forall c, (c < nCells m)%nat -> lo <= @atV R real_value (vf_int phi) c <= hi /\ Rabs (@atV R real_value (vf_int phi) c) <= M).
  { intros c Hc. destruct Hphi as [L1 L2]. destruct (lookup_lt_is_Some_2 (vf_int phi) c) as [x Ex]; [lia|]. unfold atV. rewrite Ex.
    exact (Forall_lookup_1 _ _ _ _ Hi Ex). }
  assert (Hbn : forall b, (b < nBoundaryFaces m)%nat -> lo <= @atV R real_value (vf_value phi) b <= hi /\ Rabs (@atV R real_value (vf_value phi) b) <= M).
  { intros c Hc. destruct Hphi as [L1 L2]. destruct (lookup_lt_is_Some_2 (vf_value phi) c) as [x Ex]; [lia|]. unfold atV. rewrite Ex.
    exact (Forall_lookup_1 _ _ _ _ Hb Ex). }
  assert (Hx : lo <= @face_value R real_value m s phi flux weights f <= hi /\ @face_value R real_value m s (magnitudes phi) flux weights f <= M).
  { destruct (weight_at p m weights f Hok Hw Hf) as [_ Rw].
    unfold face_value, at_owner, at_neighbour. cbn [vf_int vf_value magnitudes]. rewrite !atV_abs.
    destruct (decide (f < nInternalFaces m)%nat) as [Hlt|Hge].
    - pose proof (Hin (atn (faceOwner m) f) ltac:(apply owner_lt; [done|lia])) as [B1 M1].
      pose proof (Hin (atn (faceNeighbour m) f) ltac:(apply vt_nei; [done|lia])) as [B2 M2].
      set (a := @atV R real_value (vf_int phi) (atn (faceOwner m) f)) in *. set (b := @atV R real_value (vf_int phi) (atn (faceNeighbour m) f)) in *.
      destruct s.
      + unfold vadd, vscale, real_value. fold real_value. rewrite QcR_minus, QcR_1. set (w := QcR _) in *. repeat split; nra.
      + destruct (Qclt_le_dec (at0 flux f) 0); repeat split; lra.
    - rewrite (Hb1 f) by lia. unfold vscale, real_value. fold real_value. rewrite QcR_1, !Rmult_1_l. apply Hbn. lia. }
  destruct Hx as [Hx HM]. assert (Rabs (default 0 (phif !! f) - @face_value R real_value m s phi flux weights f) <= slack).
  { eapply Rle_trans; [exact He|]. unfold slack. apply Rplus_le_compat_r. apply Rmult_le_compat_l; [pose proof (pow1u p 3); lra|done]. }
  apply Rabs_le_inv in H. lra.
Qed.
Print Assumptions C115_interpolation_bounds.

Theorem C115_upwind_exact : forall p m, valid_topology m ->
  forall e (phi : volField R) flux weights dst,
  field_ok m phi -> length flux = nFaces m -> length weights = nFaces m -> length dst = nFaces m ->
  boundary_weights_1 m weights -> Forall (scalar_format p) (vf_value phi) ->
  every_outcome (@interpolate R (scalar_value p) Upwind e m flux phi weights dst) (fun r => exists phif, r = [phif] /\
    length phif = nFaces m /\
    (forall f, (f < nInternalFaces m)%nat -> phif !! f = vf_int phi !! (if Qclt_le_dec (at0 flux f) 0 then atn (faceNeighbour m) f else atn (faceOwner m) f)) /\
    (forall b, (b < nBoundaryFaces m)%nat -> phif !! (nInternalFaces m + b)%nat = vf_value phi !! b)).
Proof.
  intros p m Hm e phi flux weights dst Hphi Hfl Hw Hd Hb1 Hbf. pose proof (vt_faces _ Hm) as HnF.
  destruct (@C115_interpolation_same_bits R (scalar_value p) m Hm Upwind phi flux weights Hphi Hfl Hw) as (phif & Hl & Hv & Hr).
  apply (every_outcome_always _ [phif]); [intros r; by apply Hr|]. exists phif. split; [done|]. split; [done|].
  destruct Hphi as [L1 L2]. split.
  - intros f Hf. rewrite Hv by lia. unfold face_value. rewrite decide_True by done. unfold at_owner, at_neighbour, atV.
    destruct (Qclt_le_dec (at0 flux f) 0).
    + destruct (lookup_lt_is_Some_2 (vf_int phi) (atn (faceNeighbour m) f)) as [x Ex]; [rewrite L1; apply vt_nei; [done|lia]|]. by rewrite Ex.
    + destruct (lookup_lt_is_Some_2 (vf_int phi) (atn (faceOwner m) f)) as [x Ex]; [rewrite L1; apply owner_lt; [done|lia]|]. by rewrite Ex.
  - intros b Hb. rewrite Hv by lia. unfold face_value. rewrite decide_False by lia. rewrite (Hb1 (nInternalFaces m + b)%nat) by lia.
    rewrite Nat.add_comm, Nat.add_sub.
    destruct (lookup_lt_is_Some_2 (vf_value phi) b) as [x Ex]; [lia|]. unfold atV. rewrite Ex. cbn [default].
    unfold vscale, scalar_value. rewrite QcR_1, (rnd_format p 1 (format_1 p)), Rmult_1_l.
    f_equal. apply rnd_format. exact (Forall_lookup_1 _ _ _ _ Hbf Ex).
Qed.
Print Assumptions C115_upwind_exact.

(** Halving loses nothing, so on a mesh with weights 1/2 (the uniform mesh) linear
    interpolation of a constant is exact, unless the constant is as small as the
    smallest normal numbers; with other weights it is not. *)
Lemma QcR_half : QcR (1 / (1 + 1))%Qc = / 2.
Proof. unfold QcR. change (IZR 1 / IZR 2 = / 2). field. Qed.
Theorem C115_constant_exact : forall p m, valid_topology m ->
  forall e (phi : volField R) flux weights dst c,
  length flux = nFaces m -> length weights = nFaces m -> length dst = nFaces m ->
  (forall f, (f < nInternalFaces m)%nat -> at0 weights f = (1 / (1 + 1))%Qc) -> boundary_weights_1 m weights ->
  vf_int phi = replicate (nCells m) c -> vf_value phi = replicate (nBoundaryFaces m) c ->
  scalar_format p c -> c = 0 \/ bpow radix2 (emin p + digits p) <= Rabs c ->
  forall r, @interpolate R (scalar_value p) Linear e m flux phi weights dst r <-> r = Some [replicate (nFaces m) c].
Proof.
  intros p m Hm e phi flux weights dst c Hfl Hw Hd Hh Hb1 Hi Hb Fc Hc r. pose proof (vt_faces _ Hm) as HnF.
  assert (Hphi : @field_ok R m phi) by (split; [by rewrite Hi, replicate_length|by rewrite Hb, replicate_length]).
  destruct (@C115_interpolation_same_bits R (scalar_value p) m Hm Linear phi flux weights Hphi Hfl Hw) as (phif & Hl & Hv & Hr).
  rewrite Hr by done. assert (phif = replicate (nFaces m) c) as ->; [|done].
  apply (list_eq_same_length _ _ (nFaces m)); [by rewrite replicate_length|done|]. intros f x y Hf Hx Hy.
  apply lookup_replicate in Hy as [-> _]. rewrite Hv in Hx by done. injection Hx as <-.
  assert (Fh : scalar_format p (c / 2)).
  { destruct Hc as [->|Hc]; [unfold Rdiv; rewrite Rmult_0_l; apply format_0|by apply half_format]. }
  assert (F2 : scalar_format p (/ 2)).
  { change (/ 2) with (bpow radix2 (-1)). apply generic_format_bpow. unfold FLT_exp. destruct p; cbn; lia. }
  unfold face_value. destruct (decide (f < nInternalFaces m)%nat) as [Hlt|Hge].
  - rewrite (Hh f Hlt). unfold at_owner, at_neighbour, atV. rewrite Hi.
    rewrite !lookup_replicate_2 by (first [apply owner_lt; [done|lia]|apply vt_nei; [done|lia]]). cbn [default].
    unfold vadd, vscale, scalar_value.
    assert (E : (1 - 1 / (1 + 1))%Qc = (1 / (1 + 1))%Qc) by (apply Qc_is_canon; vm_compute; reflexivity).
    rewrite E, QcR_half, (rnd_format p _ F2). change (Datatypes.id c) with c.
    replace (/ 2 * c) with (c / 2) by (unfold Rdiv; ring). rewrite (rnd_format p _ Fh).
    replace (c / 2 + c / 2) with c by field. by apply rnd_format.
  - rewrite (Hb1 f) by lia. unfold atV. rewrite Hb, lookup_replicate_2 by lia. cbn [default]. change (Datatypes.id c) with c.
    unfold vscale, scalar_value. rewrite QcR_1, (rnd_format p 1 (format_1 p)), Rmult_1_l. by apply rnd_format.
Qed.
Print Assumptions C115_constant_exact.

(** 0.3 * 3 + (1 - 0.3) * 3 is not 3 in double precision. *)
Theorem C115_constant_not_exact : exists (phi : volField binary64) flux weights phif,
  field_ok mesh22 phi /\ vf_int phi = replicate 4 (b64_of_Z 3) /\ length weights = nFaces mesh22 /\ (forall w, w ∈ weights -> 0 <= QcR w <= 1) /\
  (forall e dst r, length dst = nFaces mesh22 -> (@interpolate binary64 b64_value Linear e mesh22 flux phi weights dst r <-> r = Some [phif])) /\
  option_map (fun x => B2FF 53 1024 x) (phif !! 0%nat) <> Some (B2FF 53 1024 (b64_of_Z 3)).
Proof.
  set (w := Q2Qc (QArith_base.Qmake 5404319552844595 18014398509481984)).
  set (phi := VolField (replicate 4 (b64_of_Z 3)) (replicate 8 (b64_of_Z 3)) [] [] []).
  set (weights := replicate 12 w).
  destruct (@C115_interpolation_same_bits binary64 b64_value mesh22 mesh22_topology Linear phi (replicate 12 0%Qc) weights
    ltac:(by split) eq_refl eq_refl) as (phif & Hl & Hv & Hr).
  exists phi, (replicate 12 0%Qc), weights, phif. split; [by split|]. split; [done|]. split; [done|].
  split.
  { intros x Hx. apply elem_of_replicate in Hx as [-> _]. unfold QcR. cbn [this w Q2Qc].
    change (0 <= IZR 5404319552844595 / IZR 18014398509481984 <= 1). lra. }
  split; [exact Hr|]. rewrite Hv by (change (nFaces mesh22) with 12%nat; lia).
  intros Heq. vm_compute in Heq. discriminate.
Qed.
Print Assumptions C115_constant_not_exact.

(** * Face-normal gradient *)
Theorem C115_gradient_error : forall p m, valid_topology m ->
  forall e (phi : volField R) dc dst,
  field_ok m phi -> length dc = nFaces m -> length dst = nFaces m -> scalars p dc -> field_scalars p phi ->
  every_outcome (@computeFaceNormalGrad R (scalar_value p) e m phi dc dst) (fun r => exists g, r = [g] /\
    length g = nFaces m /\
    forall f, (f < nFaces m)%nat ->
      Rabs (default 0 (g !! f) - @normal_gradient R real_value m phi dc f)
        <= ((1 + u p) ^ 2 - 1) * Rabs (@normal_gradient R real_value m phi dc f) + eta p).
Proof.
  intros p m Hm e phi dc dst Hphi Hdc Hd Fd Fp.
  destruct (@C115_gradient_same_bits R (scalar_value p) m Hm phi dc Hphi Hdc) as (g & Hl & Hv & Hr).
  apply (every_outcome_always _ [g]); [intros r; by apply Hr|]. exists g. split; [done|]. split; [done|].
  intros f Hf. rewrite Hv by done. cbn [default]. pose proof (gradient_at p m phi dc f Fd Hdc Hf) as F.
  change (Datatypes.id ?x) with x. rewrite gradient_float by done. rewrite gradient_real, Rabs_mult.
  apply gradient_error; [by apply outside_format|by apply inside_format].
Qed.
Print Assumptions C115_gradient_error.

(** Never of the wrong sign; exactly zero between equal values; and nonzero
    between different ones when the cells are no further apart than 1. *)
Theorem C115_gradient_sign : forall p m, valid_topology m ->
  forall e (phi : volField R) dc dst,
  field_ok m phi -> length dc = nFaces m -> length dst = nFaces m -> scalars p dc -> field_scalars p phi ->
  every_outcome (@computeFaceNormalGrad R (scalar_value p) e m phi dc dst) (fun r => exists g, r = [g] /\
    length g = nFaces m /\
    forall f, (f < nFaces m)%nat ->
      let exact := @normal_gradient R real_value m phi dc f in
      let x := default 0 (g !! f) in
      (0 <= QcR (at0 dc f) -> (0 <= exact -> 0 <= x) /\ (exact <= 0 -> x <= 0)) /\
      (1 <= QcR (at0 dc f) -> (x = 0 <-> exact = 0))).
Proof.
  intros p m Hm e phi dc dst Hphi Hdc Hd Fd Fp.
  destruct (@C115_gradient_same_bits R (scalar_value p) m Hm phi dc Hphi Hdc) as (g & Hl & Hv & Hr).
  apply (every_outcome_always _ [g]); [intros r; by apply Hr|]. exists g. split; [done|]. split; [done|].
  intros f Hf. cbv zeta. rewrite Hv by done. cbn [default]. pose proof (gradient_at p m phi dc f Fd Hdc Hf) as F.
  change (Datatypes.id ?x) with x. rewrite gradient_float by done. rewrite gradient_real.
  pose proof (inside_format p m phi f Fp) as Fi. pose proof (outside_format p m phi f Fp) as Fo.
  set (a := inside m phi f) in *. set (b := outside m phi f) in *. set (k := QcR (at0 dc f)) in *.
  split.
  - intros Hk. destruct (gradient_sign p k a b Hk Fi Fo) as [G1 G2].
    destruct (Rle_lt_dec k 0) as [Hk0|Hk0].
    + assert (k = 0) as -> by lra. rewrite !Rmult_0_l, rnd_0. lra.
    + split; intros Hs.
      * apply Rge_le, G1. destruct (Rle_lt_dec a b) as [|Hlt]; [done|]. exfalso. nra.
      * apply G2. destruct (Rle_lt_dec b a) as [|Hlt]; [done|]. exfalso. nra.
  - intros Hk. split.
    + intros H0. destruct (Req_dec a b) as [->|Hne]; [ring|]. exfalso. by apply (gradient_nonzero p k a b).
    + intros H0. assert (b - a = 0) by nra. replace b with a by lra. apply gradient_zero.
Qed.
Print Assumptions C115_gradient_sign.

(** * The whole operator: computed values against the exact finite-volume formula *)
Theorem C115_laplacian_total : forall p m, valid_topology m ->
  forall e (phi : volField R) dc gamma junk scaling source,
  field_ok m phi -> length dc = nFaces m -> length junk = nFaces m -> length (magFaceAreas m) = nFaces m ->
  length source = nCells m -> coeff_ok scaling (nCells m) ->
  scalars p dc -> scalars p (magFaceAreas m) -> field_scalars p phi -> Forall (scalar_format p) source ->
  every_outcome (@laplacian_explicitOperation R (scalar_value p) e m dc gamma phi junk scaling source) (fun res =>
    length res = nCells m /\
    forall c, (c < nCells m)%nat ->
      Rabs (default 0 (res !! c) - (default 0 (source !! c) + @laplacian_spec R real_value m dc phi scaling c))
        <= total_bound p 3 (length (faces_around m c)) (default 0 (source !! c))
             (QcR (coeff_val scaling c / at0 (cellVolumes m) c)%Qc)
             (sum_around m c (fun f => Rabs (QcR (at0 (magFaceAreas m) f) * @normal_gradient R real_value m phi dc f)))
             (sum_around m c (fun f => ((1 + u p) * Rabs (QcR (at0 (magFaceAreas m) f)) + 1) * eta p))).
Proof.
  intros p m Hm e phi dc gamma junk scaling source Hphi Hdc Hj Hmag Hs Hco Fd Fa Fp Fs.
  eapply every_outcome_impl; [by apply (C97_laplacian_error p m Hm e phi dc gamma junk scaling source)|].
  intros res Hw. split; [apply Hw|]. intros c Hc. unfold laplacian_spec.
  pose proof (u_pos p) as Hu. pose proof (eta_pos p) as He.
  match goal with H : within p m ?t _ _ _ |- _ =>
    apply (total_error p m Hm 3 t (fun f => @vscale R real_value (at0 (magFaceAreas m) f) (@normal_gradient R real_value m phi dc f))) end; [| | |done|done].
  - intros f Hf. cbv beta. pose proof (gradient_at p m phi dc f Fd Hdc Hf) as F.
    pose proof (gradient_at p m phi (magFaceAreas m) f Fa Hmag Hf) as FA. rewrite (rnd_format p _ FA).
    rewrite gradient_float by done. unfold vscale, real_value. fold real_value. rewrite gradient_real.
    pose proof (inside_format p m phi f Fp) as Fi. pose proof (outside_format p m phi f Fp) as Fo.
    set (a := inside m phi f) in *. set (b := outside m phi f) in *. set (k := QcR (at0 dc f)) in *. set (A := QcR (at0 (magFaceAreas m) f)) in *.
    pose proof (gradient_error p k b a Fo Fi) as Eg. set (g := rnd p (k * rnd p (b - a))) in *.
    pose proof (rnd_err p (A * g)) as Et. set (t := rnd p (A * g)) in *. rewrite Rabs_mult in Et. rewrite <- Rabs_mult in Eg.
    set (G := k * (b - a)) in *. pose proof (Rabs_pos A) as PA. pose proof (Rabs_pos G) as PG.
    assert (Hg : Rabs g <= (1 + u p) ^ 2 * Rabs G + eta p).
    { replace g with ((g - G) + G) by ring. eapply Rle_trans; [apply Rabs_triang|]. lra. }
    replace (t - A * G) with ((t - A * g) + A * (g - G)) by ring. eapply Rle_trans; [apply Rabs_triang|]. rewrite !Rabs_mult.
    assert (Rabs A * Rabs (g - G) <= Rabs A * (((1 + u p) ^ 2 - 1) * Rabs G + eta p)) by (apply Rmult_le_compat_l; lra).
    assert (u p * (Rabs A * Rabs g) <= u p * (Rabs A * ((1 + u p) ^ 2 * Rabs G + eta p))).
    { apply Rmult_le_compat_l; [lra|]. apply Rmult_le_compat_l; lra. }
    cbn [Rpow_def.pow] in *. lra.
  - intros f Hf. cbv beta. unfold vscale, real_value. lra.
  - intros f Hf. cbv beta. apply Rmult_le_pos; [|lra].
    pose proof (Rabs_pos (QcR (at0 (magFaceAreas m) f))). nra.
Qed.
Print Assumptions C115_laplacian_total.

Theorem C115_div_total : forall p m, valid_topology m ->
  forall e s (phi : volField R) flux weights junk scaling source,
  field_ok m phi -> length flux = nFaces m -> length weights = nFaces m ->
  length junk = nFaces m -> length source = nCells m -> coeff_ok scaling (nCells m) ->
  scalars p flux -> weights_ok p weights -> Forall (scalar_format p) source ->
  every_outcome (@div_explicitOperation R (scalar_value p) e m flux phi s weights junk scaling source) (fun res =>
    length res = nCells m /\
    forall c, (c < nCells m)%nat ->
      Rabs (default 0 (res !! c) - (default 0 (source !! c) + @div_spec R real_value m s flux weights phi scaling c))
        <= total_bound p 4 (length (faces_around m c)) (default 0 (source !! c))
             (QcR (coeff_val scaling c / at0 (cellVolumes m) c)%Qc)
             (sum_around m c (fun f => Rabs (QcR (at0 flux f)) * @face_value R real_value m s (magnitudes phi) flux weights f))
             (sum_around m c (fun f => (2 * (1 + u p) ^ 2 * Rabs (QcR (at0 flux f)) + 1) * eta p))).
Proof.
  intros p m Hm e s phi flux weights junk scaling source Hphi Hfl Hw Hj Hs Hco Ff Fw Fs.
  eapply every_outcome_impl; [by apply (C97_div_error p m Hm e s phi flux weights junk scaling source)|].
  intros res Hwi. split; [apply Hwi|]. intros c Hc. unfold div_spec.
  pose proof (u_pos p) as Hu. pose proof (eta_pos p) as He.
  match goal with H : within p m ?t _ _ _ |- _ =>
    apply (total_error p m Hm 4 t (fun f => @vscale R real_value (at0 flux f) (@face_value R real_value m s phi flux weights f))) end; [| | |done|done].
  - intros f Hf. cbv beta. pose proof (gradient_at p m phi flux f Ff Hfl Hf) as FA. rewrite (rnd_format p _ FA).
    unfold vscale, real_value. fold real_value.
    pose proof (face_value_error p m s phi flux weights f Fw Hw Hf) as Ev. pose proof (face_value_magnitude p m s phi flux weights f Fw Hw Hf) as Mv.
    set (v := @face_value R (scalar_value p) m s phi flux weights f) in *. set (X := @face_value R real_value m s phi flux weights f) in *.
    set (B := @face_value R real_value m s (magnitudes phi) flux weights f) in *. set (A := QcR (at0 flux f)) in *.
    pose proof (rnd_err p (A * v)) as Et. set (t := rnd p (A * v)) in *. rewrite Rabs_mult in Et.
    pose proof (Rabs_pos A) as PA. pose proof (Rabs_pos X) as PX.
    assert (Hv : Rabs v <= (1 + u p) ^ 3 * B + 2 * (1 + u p) * eta p).
    { replace v with ((v - X) + X) by ring. eapply Rle_trans; [apply Rabs_triang|]. lra. }
    replace (t - A * X) with ((t - A * v) + A * (v - X)) by ring. eapply Rle_trans; [apply Rabs_triang|]. rewrite !Rabs_mult.
    assert (Rabs A * Rabs (v - X) <= Rabs A * (((1 + u p) ^ 3 - 1) * B + 2 * (1 + u p) * eta p)) by (apply Rmult_le_compat_l; lra).
    assert (u p * (Rabs A * Rabs v) <= u p * (Rabs A * ((1 + u p) ^ 3 * B + 2 * (1 + u p) * eta p))).
    { apply Rmult_le_compat_l; [lra|]. apply Rmult_le_compat_l; lra. }
    cbn [Rpow_def.pow] in *. lra.
  - intros f Hf. cbv beta. unfold vscale, real_value. fold real_value. rewrite Rabs_mult. apply Rmult_le_compat_l; [apply Rabs_pos|].
    by apply (face_value_magnitude p).
  - intros f Hf. cbv beta. apply Rmult_le_pos; [|lra].
    pose proof (Rabs_pos (QcR (at0 flux f))). assert (0 <= (1 + u p) ^ 2) by (apply pow_le; lra). nra.
Qed.
Print Assumptions C115_div_total.

(** The hypotheses are met: the 2x2 mesh with its weights and distances, the field
    1, 2, 2, 4 with boundary values 1, in both precisions. *)
Definition phi4 : volField R := VolField [1; 2; 2; 4] (replicate 8 1) [] [] [].
Definition weights22 : list Qc := replicate 4 (1 / (1 + 1))%Qc ++ replicate 8 1%Qc.
Definition dc22 : list Qc := replicate 4 (1 + 1)%Qc ++ replicate 8 ((1 + 1) * (1 + 1))%Qc.
Lemma format_pow p k : (emin p < k)%Z -> scalar_format p (bpow radix2 k).
Proof. intros Hk. apply generic_format_bpow. unfold FLT_exp. destruct p; cbn in *; lia. Qed.
Lemma half_scalar p : scalar_format p (QcR (1 / (1 + 1))%Qc).
Proof. rewrite QcR_half. change (/ 2) with (bpow radix2 (-1)). apply format_pow. destruct p; cbn; lia. Qed.
Lemma QcR_two : QcR (1 + 1)%Qc = 2.
Proof. rewrite QcR_plus, QcR_1. ring. Qed.
Lemma two_scalar p : scalar_format p 2.
Proof. change 2 with (bpow radix2 1). apply format_pow. destruct p; cbn; lia. Qed.
Lemma four_scalar p : scalar_format p 4.
Proof. change 4 with (bpow radix2 2). apply format_pow. destruct p; cbn; lia. Qed.

Example C115_instance : forall p e s, 
  valid_topology mesh22 /\ field_ok mesh22 phi4 /\ weights_ok p weights22 /\ boundary_weights_1 mesh22 weights22 /\
  scalars p dc22 /\ scalars p (magFaceAreas mesh22) /\ field_scalars p phi4 /\
  (exists r, @interpolate R (scalar_value p) s e mesh22 weights22 phi4 weights22 (replicate 12 0) (Some r)) /\
  (exists r, @laplacian_explicitOperation R (scalar_value p) e mesh22 dc22 weights22 phi4 (replicate 12 0) coeff_default (replicate 4 0) (Some r)) /\
  (exists r, @div_explicitOperation R (scalar_value p) e mesh22 weights22 phi4 s weights22 (replicate 12 0) coeff_default (replicate 4 0) (Some r)).
Proof.
  intros p e s.
  assert (Hphi : field_ok mesh22 phi4) by (by split).
  assert (Hw : weights_ok p weights22).
  { apply Forall_app. split; apply Forall_replicate.
    - split; [apply half_scalar|]. rewrite QcR_half. lra.
    - rewrite QcR_1. split; [apply format_1|lra]. }
  assert (Hws : scalars p weights22) by (eapply Forall_impl; [exact Hw|]; by intros x [Hx _]).
  assert (Hd : scalars p dc22).
  { apply Forall_app. split; apply Forall_replicate.
    - rewrite QcR_two. apply two_scalar.
    - rewrite QcR_mult, QcR_two. replace (2 * 2) with 4 by ring. apply four_scalar. }
  assert (Ha : scalars p (magFaceAreas mesh22)).
  { apply Forall_replicate. assert (half = (1 / (1 + 1))%Qc) as -> by (apply Qc_is_canon; vm_compute; reflexivity). apply half_scalar. }
  assert (Hp : field_scalars p phi4).
  { split; [|apply Forall_replicate, format_1].
    repeat (apply Forall_cons; split; [first [apply format_1|apply two_scalar|apply four_scalar]|]). apply Forall_nil. done. }
  assert (Hz : Forall (scalar_format p) (replicate 4 0)) by apply Forall_replicate, format_0.
  split; [apply mesh22_topology|]. split; [done|]. split; [done|].
  split. { intros f Hf. change (4 <= f < 12)%nat in Hf. unfold at0, weights22. rewrite lookup_app_r by (rewrite replicate_length; lia).
    rewrite replicate_length, lookup_replicate_2 by lia. done. }
  split; [done|]. split; [done|]. split; [done|]. split; [|split].
  - destruct (C115_interpolation_error p mesh22 mesh22_topology e s phi4 weights22 weights22 (replicate 12 0) Hphi eq_refl eq_refl eq_refl Hw) as (_ & Hr & _). exact Hr.
  - destruct (C115_laplacian_total p mesh22 mesh22_topology e phi4 dc22 weights22 (replicate 12 0) coeff_default (replicate 4 0)
      Hphi eq_refl eq_refl eq_refl eq_refl I Hd Ha Hp Hz) as (_ & Hr & _). exact Hr.
  - destruct (C115_div_total p mesh22 mesh22_topology e s phi4 weights22 weights22 (replicate 12 0) coeff_default (replicate 4 0)
      Hphi eq_refl eq_refl eq_refl eq_refl I Hws Hw Hz) as (_ & Hr & _). exact Hr.
Qed.
