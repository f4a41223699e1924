(** C127: profiles along the uniform 1D mesh; how much they rise and fall. *)
From Coq Require Import Reals Qcabs.
From Verif Require Import Base Par Exec Value Kernel Mesh MeshSpec MeshProofs Coeff FV FVSpec FVProofs Assembly AssemblySpec Sparsity SparsitySpec AssemblyProps Dict Boundary Properties_Boundary
  TimeInt TimeSpec Transport TransportProofs Diffusion DiffusionProofs Geometry Rod RodCoeffs QcLra TotalDistance.
Local Open Scope nat_scope.

(** * Specification *)
(** The values met when going along the mesh: left end, cells, right end. *)
Definition profile (left : Qc) (cells : list Qc) (right : Qc) : list Qc := left :: cells ++ [right].
(** Sum of the upward steps, of the downward steps ([pos a] is a, or 0 if a is
    negative), and of the sizes of all steps. *)
Definition rise (l : list Qc) : Qc := vsum_over (length l - 1) (fun i => pos (at0 l (S i) - at0 l i)%Qc).
Definition fall (l : list Qc) : Qc := vsum_over (length l - 1) (fun i => pos (at0 l i - at0 l (S i))%Qc).
Definition variation (l : list Qc) : Qc := vsum_over (length l - 1) (fun i => Qcabs (at0 l (S i) - at0 l i)%Qc).
Definition increasing (l : list Qc) : Prop := forall i, S i < length l -> (at0 l i <= at0 l (S i))%Qc.
Definition decreasing (l : list Qc) : Prop := forall i, S i < length l -> (at0 l (S i) <= at0 l i)%Qc.
(** No more ups and no more downs than before. *)
Definition smoother (l' l : list Qc) : Prop := (rise l' <= rise l)%Qc /\ (fall l' <= fall l)%Qc.

(** * Proofs *)
Lemma smoother_refl l : smoother l l.
Proof. split; apply Qcle_refl. Qed.
Lemma smoother_trans l1 l2 l3 : smoother l1 l2 -> smoother l2 l3 -> smoother l1 l3.
Proof. intros [A B] [C D]. split; eapply Qcle_trans; eauto. Qed.
Lemma variation_split l : variation l = (rise l + fall l)%Qc.
Proof.
  unfold variation, rise, fall. change (?a + ?b)%Qc with (vadd a b). rewrite <- vsum_over_add. apply vsum_over_ext. intros i _.
  cbn [vadd Qc_value]. by rewrite <- pos_total.
Qed.
Lemma sum_zero n (f : nat -> Qc) : (forall i, (i < n)%nat -> (0 <= f i)%Qc) -> (vsum_over n f <= 0)%Qc -> forall i, (i < n)%nat -> f i = 0%Qc.
Proof.
  intros Hf Hs i Hi. apply Qcle_antisym; [|by apply Hf]. eapply Qcle_trans; [apply (at_le_sum n f i Hi Hf)|done].
Qed.
Lemma pos_le0 a : pos a = 0%Qc <-> (a <= 0)%Qc.
Proof.
  unfold pos. destruct (Qclt_le_dec a 0) as [H|H]; split; intros E; try done.
  - by apply Qclt_le_weak.
  - rewrite E. apply Qcle_refl.
  - by apply Qcle_antisym.
Qed.
Lemma increasing_fall l : increasing l <-> (fall l <= 0)%Qc.
Proof.
  split.
  - intros H. unfold fall. rewrite (vsum_over_ext _ _ (fun _ => vzero)); [rewrite vsum_over_zero by done; apply Qcle_refl|].
    intros i Hi. apply pos_le0. specialize (H i ltac:(lia)). revert H. generalize (at0 l i) (at0 l (S i)). qc_lra.
  - intros H i Hi. pose proof (sum_zero _ _ (fun i _ => pos_nonneg (at0 l i - at0 l (S i))%Qc) H i ltac:(lia)) as E. cbv beta in E. apply pos_le0 in E.
    revert E. generalize (at0 l i) (at0 l (S i)). qc_lra.
Qed.
Lemma decreasing_rise l : decreasing l <-> (rise l <= 0)%Qc.
Proof.
  split.
  - intros H. unfold rise. rewrite (vsum_over_ext _ _ (fun _ => vzero)); [rewrite vsum_over_zero by done; apply Qcle_refl|].
    intros i Hi. apply pos_le0. specialize (H i ltac:(lia)). revert H. generalize (at0 l i) (at0 l (S i)). qc_lra.
  - intros H i Hi. pose proof (sum_zero _ _ (fun i _ => pos_nonneg (at0 l (S i) - at0 l i)%Qc) H i ltac:(lia)) as E. cbv beta in E. apply pos_le0 in E.
    revert E. generalize (at0 l i) (at0 l (S i)). qc_lra.
Qed.

(** ** Differences that are averaged *)
Lemma sum_shift_first k (g : nat -> Qc) : vsum_over (S k) g = (g 0%nat + vsum_over k (fun j => g (S j)))%Qc.
Proof. induction k as [|k IH]; [rewrite vsum_over_S, !vsum_over_0; cbn; ring|]. rewrite vsum_over_S, IH, vsum_over_S. cbn [vadd Qc_value]. ring. Qed.
Section averaged.
  Context (phi : Qc -> Qc) (phi_nonneg : forall a, (0 <= phi a)%Qc) (phi_add : forall a b, (phi (a + b) <= phi a + phi b)%Qc)
    (phi_scale : forall k a : Qc, (0 <= k)%Qc -> phi (k * a)%Qc = (k * phi a)%Qc).
  Lemma phi_0 : phi 0 = 0%Qc.
  Proof using phi_scale. replace 0%Qc with (0 * 0)%Qc at 1 by ring. rewrite phi_scale by apply Qcle_refl. ring. Qed.
  Context (N : nat) (A B : nat -> Qc) (HA : forall i, i <= N -> (0 <= A i)%Qc) (HB : forall i, i <= N -> (0 <= B i)%Qc).
  (** What the neighbours contribute to difference [i]. *)
  Definition from_right (d : nat -> Qc) (i : nat) : Qc := if decide (i < N) then (A (S i) * d (S i))%Qc else 0%Qc.
  Definition from_left (d : nat -> Qc) (i : nat) : Qc := if decide (i = 0) then 0%Qc else (B (i - 1)%nat * d (i - 1)%nat)%Qc.
  Lemma neighbours_total (g : nat -> Qc) : (forall i, (0 <= g i)%Qc) ->
    (vsum_over (S N) (from_right g) + vsum_over (S N) (from_left g) <= vsum_over (S N) (fun i => (A i + B i) * g i))%Qc.
  Proof using HA HB.
    intros Hg.
    assert (ER : vsum_over (S N) (from_right g) = vsum_over N (fun i => A (S i) * g (S i))%Qc).
    { rewrite vsum_over_S. unfold from_right at 2. rewrite decide_False by lia. cbn [vadd Qc_value]. rewrite Qcplus_0_r. apply vsum_over_ext. intros i Hi. unfold from_right. by rewrite decide_True. }
    assert (EL : vsum_over (S N) (from_left g) = vsum_over N (fun i => B i * g i)%Qc).
    { rewrite sum_shift_first. unfold from_left at 1. rewrite decide_True by done. rewrite Qcplus_0_l. apply vsum_over_ext. intros i Hi. unfold from_left. rewrite decide_False by lia.
      replace (S i - 1) with i by lia. done. }
    assert (E : vsum_over (S N) (fun i => (A i + B i) * g i)%Qc = (vsum_over (S N) (fun i => A i * g i) + vsum_over (S N) (fun i => B i * g i))%Qc).
    { change (?a + ?b)%Qc with (vadd a b). rewrite <- vsum_over_add. apply vsum_over_ext. intros i _. cbn [vadd Qc_value]. ring. }
    rewrite ER, EL, E, (sum_shift_first N (fun i => A i * g i)%Qc), (vsum_over_S N (fun i => B i * g i)%Qc). cbn [vadd Qc_value].
    pose proof (qc_mul_nonneg _ _ (HA 0 ltac:(lia)) (Hg 0)) as P. pose proof (qc_mul_nonneg _ _ (HB N ltac:(lia)) (Hg N)) as Q. revert P Q.
    generalize (A 0%nat * g 0%nat)%Qc (B N * g N)%Qc (vsum_over N (fun i => A (S i) * g (S i))%Qc) (vsum_over N (fun i => B i * g i)%Qc). qc_lra.
  Qed.
  Lemma phi_right d i : (i < S N) -> (phi (from_right d i) <= from_right (fun j => phi (d j)) i)%Qc.
  Proof using HA phi_scale. intros Hi. unfold from_right. destruct (decide (i < N)); [rewrite phi_scale by (apply HA; lia)|rewrite phi_0]; apply Qcle_refl. Qed.
  Lemma phi_left d i : (i < S N) -> (phi (from_left d i) <= from_left (fun j => phi (d j)) i)%Qc.
  Proof using HB phi_scale. intros Hi. unfold from_left. destruct (decide (i = 0)); [rewrite phi_0|rewrite phi_scale by (apply HB; lia)]; apply Qcle_refl. Qed.
  Lemma right_nonneg g i : i < S N -> (forall j, (0 <= g j)%Qc) -> (0 <= from_right g i)%Qc.
  Proof using HA. intros Hi Hg. unfold from_right. destruct (decide _); [apply qc_mul_nonneg; [apply HA; lia|done]|apply Qcle_refl]. Qed.
  Lemma left_nonneg g i : i < S N -> (forall j, (0 <= g j)%Qc) -> (0 <= from_left g i)%Qc.
  Proof using HB. intros Hi Hg. unfold from_left. destruct (decide _); [apply Qcle_refl|apply qc_mul_nonneg; [apply HB; lia|done]]. Qed.

  Lemma explicit_sum (d e : nat -> Qc) : (forall i, i <= N -> (A i + B i <= 1)%Qc) ->
    (forall i, i <= N -> e i = 0%Qc \/ e i = ((1 - A i - B i) * d i + from_right d i + from_left d i)%Qc) ->
    (vsum_over (S N) (fun i => phi (e i)) <= vsum_over (S N) (fun i => phi (d i)))%Qc.
  Proof using HA HB phi_nonneg phi_add phi_scale.
    intros H1 He.
    assert (S1 : (vsum_over (S N) (fun i => phi (e i)) <= vsum_over (S N) (fun i => (1 - A i - B i) * phi (d i) + from_right (fun j => phi (d j)) i + from_left (fun j => phi (d j)) i))%Qc).
    { apply sum_le. intros i Hi.
      assert (Hk : (0 <= 1 - A i - B i)%Qc) by (specialize (H1 i ltac:(lia)); revert H1; generalize (A i) (B i); qc_lra).
      destruct (He i ltac:(lia)) as [->| ->].
      - rewrite phi_0. pose proof (qc_mul_nonneg _ _ Hk (phi_nonneg (d i))) as P.
        pose proof (right_nonneg (fun j => phi (d j)) i Hi (fun j => phi_nonneg (d j))) as Q. pose proof (left_nonneg (fun j => phi (d j)) i Hi (fun j => phi_nonneg (d j))) as Q2.
        revert P Q Q2. generalize ((1 - A i - B i) * phi (d i))%Qc (from_right (fun j => phi (d j)) i) (from_left (fun j => phi (d j)) i). qc_lra.
      - pose proof (phi_add ((1 - A i - B i) * d i + from_right d i) (from_left d i)) as P1. pose proof (phi_add ((1 - A i - B i) * d i) (from_right d i)) as P2.
        rewrite (phi_scale _ (d i) Hk) in P2. pose proof (phi_right d i Hi) as P3. pose proof (phi_left d i Hi) as P4. revert P1 P2 P3 P4.
        generalize (phi ((1 - A i - B i) * d i + from_right d i + from_left d i)) (phi ((1 - A i - B i) * d i + from_right d i)) (phi (from_left d i)) (phi (from_right d i))
          ((1 - A i - B i) * phi (d i))%Qc (from_right (fun j => phi (d j)) i) (from_left (fun j => phi (d j)) i). qc_lra. }
    eapply Qcle_trans; [exact S1|]. pose proof (neighbours_total (fun j => phi (d j)) (fun j => phi_nonneg (d j))) as S2. cbv beta in S2.
    assert (E : (vsum_over (S N) (fun i => (1 - A i - B i) * phi (d i) + from_right (fun j => phi (d j)) i + from_left (fun j => phi (d j)) i) =
      vsum_over (S N) (fun i => phi (d i)) - vsum_over (S N) (fun i => (A i + B i) * phi (d i)) + vsum_over (S N) (from_right (fun j => phi (d j))) + vsum_over (S N) (from_left (fun j => phi (d j))))%Qc).
    { transitivity (vadd (vadd (vadd (vsum_over (S N) (fun i => phi (d i))) (vscale (- (1))%Qc (vsum_over (S N) (fun i => (A i + B i) * phi (d i))%Qc)))
        (vsum_over (S N) (from_right (fun j => phi (d j))))) (vsum_over (S N) (from_left (fun j => phi (d j))))).
      - rewrite <- !vsum_over_scale, <- !vsum_over_add. apply vsum_over_ext. intros i _. cbn [vadd vscale Qc_value]. ring.
      - cbn [vadd vscale Qc_value]. ring. }
    rewrite E. revert S2. generalize (vsum_over (S N) (fun i => phi (d i))) (vsum_over (S N) (fun i => (A i + B i) * phi (d i))%Qc) (vsum_over (S N) (from_right (fun j => phi (d j)))) (vsum_over (S N) (from_left (fun j => phi (d j)))). qc_lra.
  Qed.
  Lemma implicit_sum (d e : nat -> Qc) :
    (forall i, i <= N -> e i = 0%Qc \/ ((1 + A i + B i) * e i = d i + from_right e i + from_left e i)%Qc) ->
    (vsum_over (S N) (fun i => phi (e i)) <= vsum_over (S N) (fun i => phi (d i)))%Qc.
  Proof using HA HB phi_nonneg phi_add phi_scale.
    intros He.
    assert (S1 : (vsum_over (S N) (fun i => (1 + A i + B i) * phi (e i)) <= vsum_over (S N) (fun i => phi (d i) + from_right (fun j => phi (e j)) i + from_left (fun j => phi (e j)) i))%Qc).
    { apply sum_le. intros i Hi.
      assert (Hk : (0 <= 1 + A i + B i)%Qc) by (pose proof (HA i ltac:(lia)) as P; pose proof (HB i ltac:(lia)) as Q; revert P Q; generalize (A i) (B i); qc_lra).
      destruct (He i ltac:(lia)) as [Hz|Hz].
      - rewrite Hz, phi_0, Qcmult_0_r. pose proof (phi_nonneg (d i)) as P.
        pose proof (right_nonneg (fun j => phi (e j)) i Hi (fun j => phi_nonneg (e j))) as Q. pose proof (left_nonneg (fun j => phi (e j)) i Hi (fun j => phi_nonneg (e j))) as Q2.
        revert P Q Q2. generalize (phi (d i)) (from_right (fun j => phi (e j)) i) (from_left (fun j => phi (e j)) i). qc_lra.
      - rewrite <- phi_scale by done. rewrite Hz. pose proof (phi_add (d i + from_right e i) (from_left e i)) as P1. pose proof (phi_add (d i) (from_right e i)) as P2.
        pose proof (phi_right e i Hi) as P3. pose proof (phi_left e i Hi) as P4. revert P1 P2 P3 P4.
        generalize (phi (d i + from_right e i + from_left e i)) (phi (d i + from_right e i)) (phi (from_left e i)) (phi (from_right e i)) (phi (d i))
          (from_right (fun j => phi (e j)) i) (from_left (fun j => phi (e j)) i). qc_lra. }
    pose proof (neighbours_total (fun j => phi (e j)) (fun j => phi_nonneg (e j))) as S2. cbv beta in S2.
    assert (E1 : vsum_over (S N) (fun i => (1 + A i + B i) * phi (e i))%Qc = (vsum_over (S N) (fun i => phi (e i)) + vsum_over (S N) (fun i => (A i + B i) * phi (e i)))%Qc).
    { change (?a + ?b)%Qc with (vadd a b). rewrite <- vsum_over_add. apply vsum_over_ext. intros i _. cbn [vadd Qc_value]. ring. }
    assert (E2 : vsum_over (S N) (fun i => phi (d i) + from_right (fun j => phi (e j)) i + from_left (fun j => phi (e j)) i)%Qc =
      vadd (vadd (vsum_over (S N) (fun i => phi (d i))) (vsum_over (S N) (from_right (fun j => phi (e j))))) (vsum_over (S N) (from_left (fun j => phi (e j))))).
    { rewrite <- !vsum_over_add. done. }
    rewrite E1, E2 in S1. cbn [vadd Qc_value] in S1. revert S1 S2.
    generalize (vsum_over (S N) (fun i => phi (e i))) (vsum_over (S N) (fun i => (A i + B i) * phi (e i))%Qc) (vsum_over (S N) (fun i => phi (d i))) (vsum_over (S N) (from_right (fun j => phi (e j)))) (vsum_over (S N) (from_left (fun j => phi (e j)))). qc_lra.
  Qed.
End averaged.

Lemma pos_add a b : (pos (a + b) <= pos a + pos b)%Qc.
Proof. unfold pos. destruct (Qclt_le_dec (a + b) 0), (Qclt_le_dec a 0), (Qclt_le_dec b 0); revert q q0 q1; qc_lra. Qed.
Lemma pos_scale (k a : Qc) : (0 <= k)%Qc -> pos (k * a)%Qc = (k * pos a)%Qc.
Proof.
  intros Hk. unfold pos. destruct (Qclt_le_dec a 0) as [H|H].
  - rewrite Qcmult_0_r. destruct (Qclt_le_dec (k * a) 0) as [H2|H2]; [done|]. apply Qcle_antisym; [|done].
    assert (P : (0 <= k * - a)%Qc) by (apply qc_mul_nonneg; [done|revert H; qc_lra]). replace (k * - a)%Qc with (- (k * a))%Qc in P by ring. revert P. generalize (k * a)%Qc. qc_lra.
  - pose proof (qc_mul_nonneg _ _ Hk H) as P. destruct (Qclt_le_dec (k * a) 0) as [H2|H2]; [|done]. exfalso. by apply (Qclt_not_le _ _ H2).
Qed.
Definition neg (a : Qc) : Qc := pos (- a)%Qc.
Lemma neg_add a b : (neg (a + b) <= neg a + neg b)%Qc.
Proof. unfold neg. replace (- (a + b))%Qc with (- a + - b)%Qc by ring. apply pos_add. Qed.
Lemma neg_scale (k a : Qc) : (0 <= k)%Qc -> neg (k * a)%Qc = (k * neg a)%Qc.
Proof. intros Hk. unfold neg. replace (- (k * a))%Qc with (k * - a)%Qc by ring. by apply pos_scale. Qed.

(** ** Profiles *)
Section profiles.
  Context (N : nat).
  Lemma profile_length a x b : length x = N -> length (profile a x b) = S (S N).
  Proof. intros <-. unfold profile. cbn. rewrite app_length. cbn. lia. Qed.
  Lemma profile_0 a x b : at0 (profile a x b) 0 = a.
  Proof. done. Qed.
  Lemma profile_cell a x b c : length x = N -> c < N -> at0 (profile a x b) (S c) = at0 x c.
  Proof. intros <- Hc. unfold at0, profile. change ((a :: x ++ [b]) !! S c) with ((x ++ [b]) !! c). by rewrite lookup_app_l. Qed.
  Lemma profile_last a x b : length x = N -> at0 (profile a x b) (S N) = b.
  Proof. intros <-. unfold at0, profile. change ((a :: x ++ [b]) !! S (length x)) with ((x ++ [b]) !! length x). rewrite lookup_app_r by lia. by rewrite Nat.sub_diag. Qed.
  Definition step_at (l : list Qc) (i : nat) : Qc := (at0 l (S i) - at0 l i)%Qc.
  Lemma smoother_by_steps a x b a' x' b' A B : length x = N -> length x' = N ->
    (forall i, i <= N -> (0 <= A i)%Qc) -> (forall i, i <= N -> (0 <= B i)%Qc) ->
    let d := step_at (profile a x b) in let e := step_at (profile a' x' b') in
    ((forall i, i <= N -> (A i + B i <= 1)%Qc) /\
      (forall i, i <= N -> e i = 0%Qc \/ e i = ((1 - A i - B i) * d i + from_right N A d i + from_left B d i)%Qc)) \/
    (forall i, i <= N -> e i = 0%Qc \/ ((1 + A i + B i) * e i = d i + from_right N A e i + from_left B e i)%Qc) ->
    smoother (profile a' x' b') (profile a x b).
  Proof using.
    intros L L' HA HB d e H. unfold smoother, rise, fall. rewrite !profile_length by done. replace (S (S N) - 1) with (S N) by lia. split.
    - destruct H as [[H1 H]|H].
      + apply (explicit_sum pos pos_nonneg pos_add pos_scale N A B HA HB d e H1 H).
      + apply (implicit_sum pos pos_nonneg pos_add pos_scale N A B HA HB d e H).
    - assert (En : forall l, vsum_over (S N) (fun i => pos (at0 l i - at0 l (S i))%Qc) = vsum_over (S N) (fun i => neg (step_at l i))).
      { intros l. apply vsum_over_ext. intros i _. unfold neg, step_at. f_equal. ring. }
      rewrite !En. destruct H as [[H1 H]|H].
      + apply (explicit_sum neg (fun a => pos_nonneg _) neg_add neg_scale N A B HA HB d e H1 H).
      + apply (implicit_sum neg (fun a => pos_nonneg _) neg_add neg_scale N A B HA HB d e H).
  Qed.
End profiles.

(** ** Steps on the mesh *)
Definition end_or (N i : nat) : Qc := if decide (i = 0 \/ i = N) then ((1 + 1) * Qc_of_nat N)%Qc else Qc_of_nat N.
Lemma end_or_nonneg N i : 1 <= N -> (0 <= end_or N i)%Qc /\ (end_or N i <= (1 + 1) * Qc_of_nat N)%Qc.
Proof.
  intros HN. assert (Hp : (0 <= Qc_of_nat N)%Qc) by (apply Qclt_le_weak, Qc_of_nat_pos; lia). unfold end_or. revert Hp. generalize (Qc_of_nat N). intros q Hp.
  destruct (decide _); split; revert Hp; qc_lra.
Qed.
Section rod_steps.
  Context (N : nat) (m : mesh) (HR : rod N m).
  Lemma rod_dc_at f : f < N + 1 -> at0 (rod_dc N) f = end_or N (if decide (f < N - 1) then S f else if decide (f = N - 1) then 0 else N).
  Proof using HR.
    intros Hf. pose proof (rod_pos _ _ HR) as HN. unfold at0, end_or. destruct (decide (f < N - 1)) as [Hi|Hi].
    - rewrite rod_dc_int by done. by rewrite decide_False by lia.
    - rewrite rod_dc_bnd by lia. destruct (decide (f = N - 1)); by rewrite decide_True by lia.
  Qed.
  Lemma rod_diffused_step dt phi x : length (vf_int phi) = N -> diffused_step m (rod_dc N) dt phi x ->
    let d := step_at (profile (at0 (vf_value phi) 0) (vf_int phi) (at0 (vf_value phi) 1)) in
    let k := fun i => (dt * Qc_of_nat N * end_or N i)%Qc in
    length x = N /\ forall c, c < N -> at0 x c = (at0 (vf_int phi) c + k (S c) * d (S c) - k c * d c)%Qc.
  Proof using HR.
    intros Li [Lx Hx] d k. rewrite (rod_cells _ _ HR) in Lx, Hx. split; [done|]. intros c Hc. specialize (Hx c Hc). pose proof (rod_pos _ _ HR) as HN.
    pose proof (Qc_of_nat_nz N HN) as Hz. rewrite (rod_vol _ _ HR) in Hx by done.
    rewrite (rod_balance (V := Qc) N m _ c HR Hc) in Hx. cbn [vadd vneg Qc_value] in Hx.
    assert (HM : forall f, f < N + 1 -> at0 (magFaceAreas m) f = 1%Qc) by (intros f Hf; unfold at0; by rewrite (rod_mag _ _ HR)).
    assert (Hint : forall f, f < N - 1 -> (at0 (magFaceAreas m) f * normal_gradient m phi (rod_dc N) f)%Qc = (end_or N (S f) * d (S f))%Qc).
    { intros f Hf. rewrite HM by lia. unfold normal_gradient. rewrite (rod_int _ _ HR). rewrite decide_True by done. unfold at_neighbour, at_owner. rewrite (rod_own _ _ HR), (rod_nei _ _ HR) by done.
      rewrite rod_dc_at by lia. rewrite decide_True by done. change (@atV Qc Qc_value) with at0. unfold d, step_at. rewrite (profile_cell N) by (done || lia). rewrite (profile_cell N) by (done || lia).
      replace (f + 1) with (S f) by lia. unfold vsub. cbn [vscale vadd vneg Qc_value]. ring. }
    assert (Hr : (if decide (c = N - 1)%nat then at0 (magFaceAreas m) N * normal_gradient m phi (rod_dc N) N else at0 (magFaceAreas m) c * normal_gradient m phi (rod_dc N) c)%Qc =
       (end_or N (S c) * d (S c))%Qc).
    { destruct (decide (c = N - 1)) as [->|Hne]; [|apply Hint; lia]. replace (S (N - 1)) with N by lia. rewrite HM by lia. unfold normal_gradient. rewrite (rod_int _ _ HR). rewrite decide_False by lia.
      rewrite rod_dc_at by lia. rewrite decide_False, decide_False by lia. replace (N - (N - 1)) with 1 by lia. unfold at_face_cell. rewrite (rod_fc _ _ HR). change (atn [0; N - 1] 1) with (N - 1).
      change (@atV Qc Qc_value) with at0. unfold d, step_at. rewrite (profile_last N) by done. replace N with (S (N - 1)) at 6 by lia. rewrite (profile_cell N) by (done || lia).
      unfold vsub. cbn [vscale vadd vneg Qc_value]. ring. }
    assert (Hl : (if decide (c = 0)%nat then at0 (magFaceAreas m) (N - 1) * normal_gradient m phi (rod_dc N) (N - 1) else - (at0 (magFaceAreas m) (c - 1) * normal_gradient m phi (rod_dc N) (c - 1)))%Qc =
       (- (end_or N c * d c))%Qc).
    { destruct (decide (c = 0)) as [->|Hne].
      - rewrite HM by lia. unfold normal_gradient. rewrite (rod_int _ _ HR). rewrite decide_False by lia. rewrite rod_dc_at by lia. rewrite decide_False, decide_True by lia.
        rewrite Nat.sub_diag. unfold at_face_cell. rewrite (rod_fc _ _ HR). change (atn [0; N - 1] 0) with 0. change (@atV Qc Qc_value) with at0. unfold d, step_at. rewrite profile_0.
        rewrite (profile_cell N) by (done || lia). unfold vsub. cbn [vscale vadd vneg Qc_value]. ring.
      - rewrite Hint by lia. replace (S (c - 1)) with c by lia. done. }
    rewrite Hr, Hl in Hx. unfold k. revert Hx. generalize (end_or N (S c)) (d (S c)) (end_or N c) (d c) (at0 x c) (at0 (vf_int phi) c). intros a1 a2 b1 b2 y z E.
    transitivity (z + Qc_of_nat N * (1 / Qc_of_nat N * (y - z)))%Qc; [field; done|]. rewrite E. ring.
  Qed.

  (** Implicit convection and diffusion: velocity [u] to the right, value [inlet]
      prescribed at the left end, zero gradient at the right end; [gamma] on the
      faces. *)
  Definition diffusivity_at (gamma : list Qc) (i : nat) : Qc := at0 gamma (if decide (i = 0) then N - 1 else if decide (i = N) then N else i - 1).
  Lemma rod_transported_step inlet u flux gamma dt phi old x : dt <> 0%Qc -> (0 <= u)%Qc ->
    (forall f, f < N + 1 -> at0 flux f = if decide (f = N - 1) then (- u)%Qc else u) ->
    at0 (vf_valueFraction phi) 0 = 1%Qc -> at0 (vf_refValue phi) 0 = inlet -> at0 (vf_valueFraction phi) 1 = 0%Qc -> at0 (vf_refGrad phi) 1 = 0%Qc ->
    transported m flux gamma (rod_dc N) dt phi old x ->
    let e := step_at (profile inlet x (at0 x (N - 1))) in
    let k := fun i => (dt * Qc_of_nat N * (diffusivity_at gamma i * end_or N i))%Qc in
    length x = N /\ forall c, c < N -> (at0 x c - k (S c) * e (S c) + (k c + u * dt * Qc_of_nat N) * e c = at0 old c)%Qc.
  Proof using HR.
    intros Hdt Hu Hf Hv0 Hr0 Hv1 Hg1 [Lx Hx] e k. rewrite (rod_cells _ _ HR) in Lx, Hx. split; [done|]. intros c Hc. specialize (Hx c Hc). pose proof (rod_pos _ _ HR) as HN.
    pose proof (Qc_of_nat_nz N HN) as Hz. unfold cell_law in Hx. rewrite (rod_vol _ _ HR) in Hx by done.
    rewrite !(rod_balance (V := Qc) N m _ c HR Hc) in Hx. cbn [vadd vneg Qc_value] in Hx.
    assert (HM : forall f, f < N + 1 -> at0 (magFaceAreas m) f = 1%Qc) by (intros f Hff; unfold at0; by rewrite (rod_mag _ _ HR)).
    assert (Ce : forall i, i < N -> at0 (profile inlet x (at0 x (N - 1))) (S i) = at0 x i) by (intros i Hi; by apply (profile_cell N)).
    assert (Cl : at0 (profile inlet x (at0 x (N - 1))) (S N) = at0 x (N - 1)) by (by apply (profile_last N)).
    (* convection: what flows out to the right, and in from the left *)
    assert (Fi : forall f, f < N - 1 -> convected m flux phi x f = (u * at0 x f)%Qc).
    { intros f Hff. unfold convected, implicit_face_value. rewrite (rod_int _ _ HR), decide_True by done. rewrite Hf by lia. rewrite decide_False by lia.
      destruct (Qclt_le_dec u 0) as [Hn|_]; [exfalso; by apply (Qclt_not_le _ _ Hn)|]. unfold at_owner. rewrite (rod_own _ _ HR) by done. done. }
    assert (Fl : convected m flux phi x (N - 1) = (- (u * inlet))%Qc).
    { unfold convected, implicit_face_value. rewrite (rod_int _ _ HR), decide_False by lia. rewrite Nat.sub_diag. rewrite Hf by lia. rewrite decide_True by done.
      cbn [with_int vf_valueFraction vf_refValue vadd vscale Qc_value]. change (@atV Qc Qc_value) with at0. rewrite Hv0, Hr0. ring. }
    assert (Fr : convected m flux phi x N = (u * at0 x (N - 1))%Qc).
    { unfold convected, implicit_face_value. rewrite (rod_int _ _ HR), decide_False by lia. replace (N - (N - 1)) with 1 by lia. rewrite Hf by lia. rewrite decide_False by lia.
      cbn [with_int vf_valueFraction vf_refValue vadd vscale Qc_value]. unfold at_face_cell. rewrite (rod_fc _ _ HR). change (atn [0; N - 1] 1) with (N - 1).
      cbn [with_int vf_int]. change (@atV Qc Qc_value) with at0. rewrite Hv1. ring. }
    assert (Gi : forall f, f < N - 1 -> diffused m gamma (rod_dc N) phi x f = (diffusivity_at gamma (S f) * end_or N (S f) * e (S f))%Qc).
    { intros f Hff. unfold diffused, implicit_normal_gradient. rewrite (rod_int _ _ HR), decide_True by done. rewrite HM by lia. unfold at_neighbour, at_owner. rewrite (rod_own _ _ HR), (rod_nei _ _ HR) by done.
      rewrite rod_dc_at by lia. rewrite decide_True by done. cbn [with_int vf_int]. change (@atV Qc Qc_value) with at0. unfold e, step_at. rewrite !Ce by lia. unfold diffusivity_at.
      rewrite decide_False, decide_False by lia. replace (S f - 1) with f by lia. replace (f + 1) with (S f) by lia. unfold vsub. cbn [vscale vadd vneg Qc_value]. ring. }
    assert (Gl : diffused m gamma (rod_dc N) phi x (N - 1) = (- (diffusivity_at gamma 0%nat * end_or N 0%nat * e 0%nat))%Qc).
    { unfold diffused, implicit_normal_gradient. rewrite (rod_int _ _ HR), decide_False by lia. rewrite HM by lia. rewrite Nat.sub_diag. rewrite rod_dc_at by lia. rewrite decide_False, decide_True by lia.
      unfold at_face_cell. rewrite (rod_fc _ _ HR). change (atn [0; N - 1] 0) with 0.
      cbn [with_int vf_int vf_valueFraction vf_refValue vf_refGrad]. change (@atV Qc Qc_value) with at0. rewrite Hv0, Hr0. unfold e, step_at. rewrite Ce by lia. rewrite profile_0. unfold diffusivity_at.
      rewrite decide_True by done. unfold vsub. cbn [vscale vadd vneg Qc_value]. ring. }
    assert (Gr : diffused m gamma (rod_dc N) phi x N = 0%Qc).
    { unfold diffused, implicit_normal_gradient. rewrite (rod_int _ _ HR), decide_False by lia. replace (N - (N - 1)) with 1 by lia.
      cbn [with_int vf_int vf_valueFraction vf_refValue vf_refGrad]. change (@atV Qc Qc_value) with at0. rewrite Hv1, Hg1. unfold vsub. cbn [vscale vadd vneg Qc_value]. ring. }
    assert (ER : (if decide (c = N - 1) then convected m flux phi x N else convected m flux phi x c) = (u * at0 x c)%Qc).
    { destruct (decide (c = N - 1)) as [->|Hne]; [done|apply Fi; lia]. }
    assert (EL : (if decide (c = 0) then convected m flux phi x (N - 1) else (- convected m flux phi x (c - 1))%Qc) = (- (u * at0 (profile inlet x (at0 x (N - 1))) c))%Qc).
    { destruct (decide (c = 0)) as [->|Hne]; [by rewrite Fl, profile_0|]. rewrite Fi by lia. rewrite <- (Ce (c - 1)) by lia. by replace (S (c - 1)) with c by lia. }
    assert (DR : (if decide (c = N - 1) then diffused m gamma (rod_dc N) phi x N else diffused m gamma (rod_dc N) phi x c) = (diffusivity_at gamma (S c) * end_or N (S c) * e (S c))%Qc).
    { destruct (decide (c = N - 1)) as [->|Hne]; [|apply Gi; lia]. rewrite Gr. replace (S (N - 1)) with N by lia. unfold e, step_at. rewrite Cl. replace (at0 (profile inlet x (at0 x (N - 1))) N) with (at0 x (N - 1)); [ring|].
      transitivity (at0 (profile inlet x (at0 x (N - 1))) (S (N - 1))); [symmetry; apply Ce; lia|f_equal; lia]. }
    assert (DL : (if decide (c = 0) then diffused m gamma (rod_dc N) phi x (N - 1) else (- diffused m gamma (rod_dc N) phi x (c - 1))%Qc) = (- (diffusivity_at gamma c * end_or N c * e c))%Qc).
    { destruct (decide (c = 0)) as [->|Hne]; [done|]. rewrite Gi by lia. by replace (S (c - 1)) with c by lia. }
    rewrite ER, EL, DR, DL in Hx.
    assert (Ee : e c = (at0 x c - at0 (profile inlet x (at0 x (N - 1))) c)%Qc) by (unfold e, step_at; by rewrite Ce).
    unfold k. revert Hx. rewrite Ee. generalize (e (S c)) (at0 (profile inlet x (at0 x (N - 1))) c) (diffusivity_at gamma c) (diffusivity_at gamma (S c)) (end_or N (S c)) (end_or N c) (at0 x c) (at0 old c).
    intros es p g1 g2 b1 b2 y z E.
    assert (E2 : (y - z = - (dt * Qc_of_nat N * (u * y + - (u * p) - (g2 * b1 * es + - (g1 * b2 * (y - p))))))%Qc).
    { transitivity (dt * Qc_of_nat N * (1 / Qc_of_nat N / dt * (y - z)))%Qc; [field; done|].
      transitivity (dt * Qc_of_nat N * ((1 / Qc_of_nat N / dt * (y - z) + (u * y + - (u * p)) - (g2 * b1 * es + - (g1 * b2 * (y - p)))) - (u * y + - (u * p) - (g2 * b1 * es + - (g1 * b2 * (y - p))))))%Qc; [ring|].
      rewrite E. ring. }
    transitivity (z + (y - z) + (- (dt * Qc_of_nat N * (g2 * b1)) * es + (dt * Qc_of_nat N * (g1 * b2) + u * dt * Qc_of_nat N) * (y - p)))%Qc; [ring|]. rewrite E2. ring.
  Qed.
End rod_steps.

(** The profile of a field: boundary faces 0 and 1 are the left and the right end. *)
Definition end_to_end (phi : volField Qc) : list Qc := profile (at0 (vf_value phi) 0) (vf_int phi) (at0 (vf_value phi) 1).
