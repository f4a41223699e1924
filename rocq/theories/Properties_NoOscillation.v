(** C127: transport along the uniform 1D mesh creates no oscillations. *)
From Coq Require Import Lqa Reals Qcabs.
From Verif Require Import Base Dict Registry Par Exec Reduce ReduceProofs Fields FieldsProofs Value Kernel Mesh MeshSpec MeshProofs Coeff FV FVSpec FVProofs Sparsity SparsitySpec SparsityProps SparsityDet Assembly AssemblySpec AssemblyProps
  Boundary Properties_Boundary CoNum Properties_CoNum ExampleMesh Properties_Mesh Properties_Sparsity Properties_Assembly Dsl DslSpec DslHeapProofs DslProofs DslAssembly Properties_Dsl Properties_DslAssembly
  TimeInt TimeSpec TimeIntProofs TimeIntSteps Properties_TimeInt FrontEnd Transport TransportProofs QcLra Properties_Transport Diffusion DiffusionProofs Properties_Diffusion Geometry Rod RodCoeffs Properties_Rod
  Properties_Advection TotalDistance NoOscillation.
Local Open Scope nat_scope.

(** * C127 *)
(** What [smoother] means. *)
Theorem C127_meaning : forall l' l, smoother l' l ->
  (variation l' <= variation l)%Qc /\ (increasing l -> increasing l') /\ (decreasing l -> decreasing l').
Proof.
  intros l' l [H1 H2]. split; [|split].
  - rewrite !variation_split. revert H1 H2. generalize (rise l) (rise l') (fall l) (fall l'). qc_lra.
  - rewrite !increasing_fall. intros H. by eapply Qcle_trans.
  - rewrite !decreasing_rise. intros H. by eapply Qcle_trans.
Qed.
Print Assumptions C127_meaning.

Lemma advection_boundary N inlet u cx bcs fvSchemes flux n st phi phi' a b : advection_case N inlet u cx bcs fvSchemes flux n st ->
  boundary_corrected cx bcs phi phi' -> vf_value phi = [a; b] -> vf_value phi' = [inlet; at0 (vf_int phi') (N - 1)].
Proof.
  intros [Hg Hw Hc Hfl (pi & Hpi & Hpi0) (po & bco & Hpo & Hpo1 & Hbco) [Ho Hv]] [HB HB2] I2.
  pose proof (generated_rod _ _ Hg) as HR.
  assert (HV : forall p bc b v, (p, bc) ∈ bcs -> vol_prescribes (cx_mesh cx) p bc phi' (Value b) = Some (inl v) -> vf_value phi' !! b = Some v).
  { intros p bc b' v Hin Hp. specialize (HB p bc (Value b') _ Hin Hp). cbn in HB. destruct (vf_value phi' !! b'); [|done]. cbn in HB. by injection HB as ->. }
  assert (V0 : vf_value phi' !! 0 = Some inlet).
  { apply (HV pi (FixedValue inlet)); [done|]. cbn. by rewrite decide_True. }
  assert (V2 : vf_value phi' !! 1 = Some (at0 (vf_int phi') (N - 1))).
  { apply (HV po bco); [done|]. cbn [vol_prescribes]. rewrite decide_True by done. unfold at_face_cell. rewrite (rod_fc _ _ HR). change (atn [0; N - 1] 1) with (N - 1). change (@atV Qc Qc_value) with at0.
    destruct Hbco as [->| ->]; [done|]. cbn [vadd vscale Qc_value]. by rewrite Qcmult_0_r, Qcplus_0_r. }
  assert (V3 : vf_value phi' !! 2 = None).
  { destruct (prescriber (cx_mesh cx) bcs phi' (Value 2)) as [(p & bc & y & H1 & H2)|Hn].
    - exfalso. assert (Hpk : patch_ok (cx_mesh cx) p). { pose proof (ec_setup _ _ _ _ _ _ Hc) as (_ & _ & Hall & _). rewrite Forall_forall in Hall. exact (Hall (p, bc) H1). }
      cbn in H2. destruct (decide (in_patch p 2)) as [Hip|]; [|done]. unfold in_patch in Hip. unfold patch_ok in Hpk. rewrite (rod_bnd _ _ HR) in Hpk. lia.
    - specialize (HB2 (Value 2) Hn ltac:(done)). cbn in HB2. rewrite I2 in HB2. cbn in HB2. destruct (vf_value phi' !! 2); done. }
  destruct (vf_value phi') as [|x [|y [|d v]]]; try done. cbn in V0, V2. by injection V0 as ->; injection V2 as ->.
Qed.
(** Explicit upwind advection: steps of any sizes with Courant number at most 1. *)
Theorem C127_upwind : forall N inlet u dbg cx bcs lin fvSchemes fvSolution flux n st l,
  advection_case N inlet u cx bcs fvSchemes flux n st -> (0 <= u)%Qc ->
  (forall t dt, (t, dt) ∈ l -> (0 <= dt)%Qc /\ (u * dt / (1 / Qc_of_nat N) <= 1)%Qc) ->
  exists st', surely (run_program (explicit_transport flux n) dbg cx n bcs lin fvSchemes fvSolution l st) st' /\
    smoother (end_to_end (ts_phi st')) (end_to_end (ts_phi st)).
Proof.
  intros N inlet u dbg cx bcs lin d sol flux n st l HA Hu Hl. pose proof HA as [Hg Hw Hc Hfl _ _ [Ho Hv]].
  pose proof (generated_rod _ _ Hg) as HR. pose proof (rod_pos _ _ HR) as HN. pose proof (Qc_of_nat_nz N HN) as Hz.
  pose proof (scheme_weights_are _ _ _ HR Hw) as Ew.
  destruct (C95_explicit_transport dbg cx bcs lin d sol flux n st l Hc Ho) as (f & F0 & Fr & Fi). eexists. split; [exact Fr|].
  assert (H : forall k, k <= length l -> length (vf_int (ts_phi (f k))) = N /\ vf_value (ts_phi (f k)) = [inlet; at0 (vf_int (ts_phi (f k))) (N - 1)] /\
     smoother (end_to_end (ts_phi (f k))) (end_to_end (ts_phi st))).
  { induction k as [|k IH]; intros Hk.
    - rewrite F0. split; [|split; [done|apply smoother_refl]]. destruct (ec_state _ _ _ _ _ _ Hc) as [(Hi & _) _]. by rewrite Hi, (rod_cells _ _ HR).
    - destruct (IH ltac:(lia)) as (I1 & I2 & I3). destruct (lookup_lt_is_Some_2 l k ltac:(lia)) as ([t dt] & E). destruct (Fi k t dt E) as [HAd HB].
      destruct (Hl t dt (elem_of_list_lookup_2 _ _ _ E)) as [Hdt HCo].
      destruct (rod_step N (cx_mesh cx) inlet u (cx_surf cx flux) (cx_weights cx) dt (ts_phi (f k)) (vf_int (ts_phi (f (S k)))) HR Ew Hfl Hu I2 HAd) as [L1 V1].
      pose proof (advection_boundary _ _ _ _ _ _ _ _ _ _ _ _ _ HA HB I2) as B1. split; [done|]. split; [done|]. eapply smoother_trans; [|exact I3].
      assert (Ec : (u * dt * Qc_of_nat N <= 1)%Qc).
      { replace (u * dt * Qc_of_nat N)%Qc with (u * dt / (1 / Qc_of_nat N))%Qc by (field; done). done. }
      assert (E0 : (0 <= u * dt * Qc_of_nat N)%Qc).
      { apply qc_mul_nonneg; [by apply qc_mul_nonneg|]. apply Qclt_le_weak, Qc_of_nat_pos. lia. }
      revert Ec E0 V1. generalize (u * dt * Qc_of_nat N)%Qc. intros co Ec E0 V1.
      unfold end_to_end. rewrite B1, I2. change (at0 [?a; ?b] 0) with a. change (at0 [?a; ?b] 1) with b.
      set (x := vf_int (ts_phi (f k))) in *. set (y := vf_int (ts_phi (f (S k)))) in *.
      apply (smoother_by_steps N inlet x (at0 x (N - 1)) inlet y (at0 y (N - 1)) (fun _ => 0%Qc) (fun i => if decide (i = N) then 0%Qc else co)); try done.
      { intros i Hi. destruct (decide (i = N)); [apply Qcle_refl|done]. }
      left. split.
      { intros i Hi. destruct (decide (i = N)); [vm_compute; discriminate|]. revert Ec. qc_lra. }
      intros i Hi. unfold step_at. destruct (decide (i = N)) as [->|Hne].
      + left. rewrite (profile_last N) by done. replace N with (S (N - 1)) at 3 by lia. rewrite (profile_cell N) by (done || lia). ring.
      + right. unfold from_right, from_left. rewrite decide_True by lia. rewrite Qcmult_0_l. rewrite !(profile_cell N) by (done || lia). rewrite V1 by lia. destruct i as [|i].
        * rewrite !decide_True by done. rewrite !profile_0. ring.
        * rewrite !(decide_False (P := S i = 0)) by lia. replace (S i - 1) with i by lia. rewrite (decide_False (P := i = N)) by lia.
          rewrite !(profile_cell N) by (done || lia). rewrite V1 by lia. destruct i as [|i].
          -- rewrite decide_True by done. rewrite !profile_0. ring.
          -- rewrite decide_False by lia. replace (S i - 1) with i by lia. rewrite !(profile_cell N) by (done || lia). ring. }
  apply H. lia.
Qed.
Print Assumptions C127_upwind.

(** An end of the mesh with a prescribed value or with zero gradient. *)
Definition held (m : mesh) (bc : volBC Qc) (phi : volField Qc) (b : nat) : Prop :=
  match bc with
  | FixedValue v => at0 (vf_value phi) b = v
  | FixedGradient g => g = 0%Qc /\ at0 (vf_value phi) b = at0 (vf_int phi) (atn (bFaceCells (bmesh m)) b)
  | Extrapolated => at0 (vf_value phi) b = at0 (vf_int phi) (atn (bFaceCells (bmesh m)) b)
  | Calculated | EmptyBC => False
  end.
Definition held_end (m : mesh) (bcs : list (patch * volBC Qc)) (phi : volField Qc) (b : nat) : Prop :=
  exists p bc, (p, bc) ∈ bcs /\ in_patch p b /\ held m bc phi b.
Lemma held_step cx bcs phi phi' b p bc : (p, bc) ∈ bcs -> in_patch p b -> held (cx_mesh cx) bc phi b -> boundary_corrected cx bcs phi phi' ->
  held (cx_mesh cx) bc phi' b /\ (at0 (vf_value phi') b = at0 (vf_value phi) b \/ at0 (vf_value phi') b = at0 (vf_int phi') (atn (bFaceCells (bmesh (cx_mesh cx))) b)).
Proof.
  intros Hin Hp Hh [HB _].
  assert (HV : forall v, vol_prescribes (cx_mesh cx) p bc phi' (Value b) = Some (inl v) -> at0 (vf_value phi') b = v).
  { intros v Hv. specialize (HB p bc (Value b) _ Hin Hv). cbn in HB. unfold at0. destruct (vf_value phi' !! b); [|done]. cbn in HB. by injection HB as ->. }
  destruct bc as [v|g| | |]; try done; cbn [vol_prescribes] in HV; rewrite decide_True in HV by done; cbn [held] in *.
  - rewrite (HV v eq_refl). split; [done|left]. by rewrite Hh.
  - destruct Hh as [-> _]. rewrite (HV _ eq_refl). unfold at_face_cell. change (@atV Qc Qc_value) with at0. cbn [vadd vscale Qc_value]. rewrite Qcmult_0_r, Qcplus_0_r. split; [done|by right].
  - rewrite (HV _ eq_refl). unfold at_face_cell. change (@atV Qc Qc_value) with at0. split; [done|by right].
Qed.
(** Explicit diffusion with 2 N^2 dt <= 1 (weaker than what bounds need: C104). *)
Theorem C127_diffusion : forall N dbg cx bcs lin fvSchemes fvSolution gamma n st l,
  generated N (cx_mesh cx) -> scheme_deltas N (cx_mesh cx) (cx_dc cx) ->
  diffusion_case cx bcs fvSchemes gamma n st -> old_of st = vf_int (ts_phi st) ->
  held_end (cx_mesh cx) bcs (ts_phi st) 0 -> held_end (cx_mesh cx) bcs (ts_phi st) 1 ->
  (forall t dt, (t, dt) ∈ l -> (0 <= dt)%Qc /\ ((1 + 1) * (Qc_of_nat N * Qc_of_nat N) * dt <= 1)%Qc) ->
  exists st', surely (run_program (explicit_diffusion gamma n) dbg cx n bcs lin fvSchemes fvSolution l st) st' /\
    smoother (end_to_end (ts_phi st')) (end_to_end (ts_phi st)).
Proof.
  intros N dbg cx bcs lin d sol gamma n st l Hg Hd Hc Ho (p0 & bc0 & In0 & Ip0 & H0) (p1 & bc1 & In1 & Ip1 & H1) Hl.
  pose proof (generated_rod _ _ Hg) as HR. pose proof (rod_pos _ _ HR) as HN. pose proof (Qc_of_nat_nz N HN) as Hz.
  pose proof (scheme_deltas_are _ _ _ HR Hd) as Ed.
  destruct (C102_explicit_diffusion dbg cx bcs lin d sol gamma n st l Hc Ho) as (f & F0 & Fr & Fi). eexists. split; [exact Fr|].
  assert (H : forall k, k <= length l -> length (vf_int (ts_phi (f k))) = N /\ held (cx_mesh cx) bc0 (ts_phi (f k)) 0 /\ held (cx_mesh cx) bc1 (ts_phi (f k)) 1 /\
     smoother (end_to_end (ts_phi (f k))) (end_to_end (ts_phi st))).
  { induction k as [|k IH]; intros Hk.
    - rewrite F0. split; [|split; [done|split; [done|apply smoother_refl]]]. destruct (dc_state _ _ _ _ _ _ Hc) as [(Hi & _) _]. by rewrite Hi, (rod_cells _ _ HR).
    - destruct (IH ltac:(lia)) as (I1 & I2 & I3 & I4). destruct (lookup_lt_is_Some_2 l k ltac:(lia)) as ([t dt] & E). destruct (Fi k t dt E) as [HAd HB].
      destruct (Hl t dt (elem_of_list_lookup_2 _ _ _ E)) as [Hdt Hlim]. rewrite Ed in HAd.
      destruct (rod_diffused_step N (cx_mesh cx) HR dt (ts_phi (f k)) (vf_int (ts_phi (f (S k)))) I1 HAd) as [L1 V1].
      destruct (held_step cx bcs (ts_phi (f k)) (ts_phi (f (S k))) 0 p0 bc0 In0 Ip0 I2 HB) as [J2 K2].
      destruct (held_step cx bcs (ts_phi (f k)) (ts_phi (f (S k))) 1 p1 bc1 In1 Ip1 I3 HB) as [J3 K3].
      split; [done|]. split; [done|]. split; [done|]. eapply smoother_trans; [|exact I4]. clear I4.
      rewrite (rod_fc _ _ HR) in K2, K3. change (atn [0; N - 1] 0) with 0 in K2. change (atn [0; N - 1] 1) with (N - 1) in K3.
      set (kk := fun i => (dt * Qc_of_nat N * end_or N i)%Qc).
      change (forall c, c < N -> at0 (vf_int (ts_phi (f (S k)))) c = (at0 (vf_int (ts_phi (f k))) c + kk (S c) * step_at (end_to_end (ts_phi (f k))) (S c) - kk c * step_at (end_to_end (ts_phi (f k))) c)%Qc) in V1.
      assert (Hq : (0 <= Qc_of_nat N)%Qc) by (apply Qclt_le_weak, Qc_of_nat_pos; lia).
      assert (Hk0 : forall i, (0 <= kk i)%Qc).
      { intros i. unfold kk. apply qc_mul_nonneg; [by apply qc_mul_nonneg|]. by apply end_or_nonneg. }
      assert (Hk1 : forall i, (kk i <= 1)%Qc /\ (i <> 0 -> i <> N -> (kk i + kk i <= 1)%Qc)).
      { intros i. unfold kk, end_or. destruct (decide (i = 0 \/ i = N)) as [Hi|Hi]; split.
        - eapply Qcle_trans; [|exact Hlim]. replace ((1 + 1) * (Qc_of_nat N * Qc_of_nat N) * dt)%Qc with (dt * Qc_of_nat N * ((1 + 1) * Qc_of_nat N))%Qc by ring. apply Qcle_refl.
        - intros; exfalso; tauto.
        - assert (P : (0 <= dt * Qc_of_nat N * Qc_of_nat N)%Qc) by (repeat apply qc_mul_nonneg; done).
          replace ((1 + 1) * (Qc_of_nat N * Qc_of_nat N) * dt)%Qc with (dt * Qc_of_nat N * Qc_of_nat N + dt * Qc_of_nat N * Qc_of_nat N)%Qc in Hlim by ring. revert P Hlim. generalize (dt * Qc_of_nat N * Qc_of_nat N)%Qc. qc_lra.
        - intros _ _. replace ((1 + 1) * (Qc_of_nat N * Qc_of_nat N) * dt)%Qc with (dt * Qc_of_nat N * Qc_of_nat N + dt * Qc_of_nat N * Qc_of_nat N)%Qc in Hlim by ring. done. }
      clearbody kk. unfold end_to_end. revert V1 K2 K3 L1 I1. unfold end_to_end.
      generalize (at0 (vf_value (ts_phi (f k))) 0) (at0 (vf_value (ts_phi (f k))) 1) (at0 (vf_value (ts_phi (f (S k)))) 0) (at0 (vf_value (ts_phi (f (S k)))) 1).
      generalize (vf_int (ts_phi (f k))) (vf_int (ts_phi (f (S k)))). intros x y a b a' b' V1 K2 K3 L1 I1.
      apply (smoother_by_steps N a x b a' y b' (fun i => if decide (i = 0) then 0%Qc else kk i) (fun i => if decide (i = N) then 0%Qc else kk i)); try done.
      { intros i Hi. destruct (decide (i = 0)); [apply Qcle_refl|done]. }
      { intros i Hi. destruct (decide (i = N)); [apply Qcle_refl|done]. }
      left. split.
      { intros i Hi. destruct (Hk1 i) as [Q1 Q2]. destruct (decide (i = 0)), (decide (i = N)).
        - vm_compute; discriminate.
        - revert Q1. generalize (kk i). qc_lra.
        - revert Q1. generalize (kk i). qc_lra.
        - by apply Q2. }
      assert (S0 : forall g, at0 (profile a x b) 0 = g -> a = g) by (intros g <-; done).
      intros i Hi. set (dd := step_at (profile a x b)) in *.
      assert (Dd : forall j, at0 (profile a x b) (S j) = (at0 (profile a x b) j + dd j)%Qc) by (intros j; unfold dd, step_at; ring).
      assert (Y1 : forall j, j < N -> at0 (profile a' y b') (S j) = (at0 (profile a x b) (S j) + kk (S j) * dd (S j) - kk j * dd j)%Qc).
      { intros j Hj. rewrite !(profile_cell N) by done. by apply V1. }
      destruct (decide (i = 0)) as [->|Hi0].
      { destruct K2 as [-> | ->].
        - right. unfold step_at at 1. rewrite Y1 by lia. rewrite profile_0. unfold from_right, from_left. rewrite (decide_True (P := 0 < N)) by lia. rewrite !(decide_True (P := 0 = 0)) by lia.
          rewrite (decide_False (P := 0 = N)) by lia. rewrite (decide_False (P := 1 = 0)) by lia. rewrite Dd, profile_0. ring.
        - left. unfold step_at. rewrite profile_0. rewrite (profile_cell N) by (done || lia). ring. }
      destruct (decide (i = N)) as [->|HiN].
      { destruct K3 as [-> | ->].
        - right. unfold step_at at 1. rewrite (profile_last N) by done. replace (at0 (profile a' y b) N) with (at0 (profile a' y b) (S (N - 1))) by (f_equal; lia).
          assert (Yn : at0 (profile a' y b) (S (N - 1)) = (at0 (profile a x b) (S (N - 1)) + kk (S (N - 1)) * dd (S (N - 1)) - kk (N - 1)%nat * dd (N - 1)%nat)%Qc).
          { rewrite !(profile_cell N) by (done || lia). apply V1. lia. }
          rewrite Yn. replace (S (N - 1)) with N by lia. pose proof (Dd N) as DN. rewrite (profile_last N) in DN by done.
          unfold from_right, from_left. rewrite (decide_False (P := N < N)), (decide_False (P := N = 0)) by lia. rewrite (decide_False (P := N - 1 = N)) by lia. rewrite DN at 1. ring.
        - left. unfold step_at. rewrite (profile_last N) by done. replace N with (S (N - 1)) at 3 by lia. rewrite (profile_cell N) by (done || lia). ring. }
      right. unfold step_at at 1. rewrite Y1 by lia. destruct i as [|i]; [done|]. rewrite Y1 by lia. unfold from_right, from_left.
      rewrite (decide_True (P := S i < N)) by lia. rewrite !(decide_False (P := S i = 0)) by lia. rewrite (decide_False (P := S (S i) = 0)) by lia.
      replace (S i - 1) with i by lia. rewrite (decide_False (P := i = N)) by lia. rewrite (Dd (S i)). ring. }
  apply H. lia.
Qed.
Print Assumptions C127_diffusion.

(** Implicit convection and diffusion to the right, with steps of any size: a value
    prescribed at the left end, zero gradient at the right end. *)
Theorem C127_implicit : forall N inlet u dbg cx bcs lin fvSchemes fvSolution flux gamma n st l r,
  generated N (cx_mesh cx) -> scheme_deltas N (cx_mesh cx) (cx_dc cx) -> implicit_case cx bcs lin fvSchemes flux gamma n st ->
  old_of st = vf_int (ts_phi st) -> uniform_flow N u (cx_surf cx flux) -> (0 <= u)%Qc ->
  (forall f, f < N + 1 -> (0 <= at0 (cx_surf cx gamma) f)%Qc) ->
  vf_valueFraction (ts_phi st) = [1; 0]%Qc -> at0 (vf_refValue (ts_phi st)) 0 = inlet -> at0 (vf_refGrad (ts_phi st)) 1 = 0%Qc ->
  (forall t dt, (t, dt) ∈ l -> (0 < dt)%Qc) ->
  run_program (implicit_transport flux gamma n) dbg cx n bcs lin fvSchemes fvSolution l st r ->
  exists st', r = Ok st' /\
    smoother (profile inlet (vf_int (ts_phi st')) (at0 (vf_int (ts_phi st')) (N - 1)))
             (profile inlet (vf_int (ts_phi st)) (at0 (vf_int (ts_phi st)) (N - 1))).
Proof.
  intros N inlet u dbg cx bcs lin d sol flux gamma n st l r Hg Hd Hc Ho [Lf Hf] Hu Hgam Hvf Hrv Hrg Hl Hr.
  pose proof (generated_rod _ _ Hg) as HR. pose proof (rod_pos _ _ HR) as HN.
  pose proof (scheme_deltas_are _ _ _ HR Hd) as Ed.
  destruct (implicit_steps _ _ _ _ _ _ _ _ _ _ _ _ Hc Ho Hr) as (f & F0 & -> & FB & Fi). eexists. split; [done|].
  assert (H : forall k, k <= length l -> length (vf_int (ts_phi (f k))) = N /\
     smoother (profile inlet (vf_int (ts_phi (f k))) (at0 (vf_int (ts_phi (f k))) (N - 1))) (profile inlet (vf_int (ts_phi st)) (at0 (vf_int (ts_phi st)) (N - 1)))).
  { induction k as [|k IH]; intros Hk.
    - rewrite F0. split; [|apply smoother_refl]. destruct (ic_state _ _ _ _ _ _ _ _ Hc) as [(Hi & _) _]. by rewrite Hi, (rod_cells _ _ HR).
    - destruct (IH ltac:(lia)) as (I1 & I2). destruct (lookup_lt_is_Some_2 l k ltac:(lia)) as ([t dt] & E). specialize (Fi k t dt E). rewrite Ed in Fi.
      pose proof (Hl t dt (elem_of_list_lookup_2 _ _ _ E)) as Hdt. assert (Hdt0 : dt <> 0%Qc) by (intros ->; by apply Qclt_not_eq in Hdt).
      destruct (rod_transported_step N (cx_mesh cx) HR inlet u (cx_surf cx flux) (cx_surf cx gamma) dt (ts_phi st) (vf_int (ts_phi (f k))) (vf_int (ts_phi (f (S k))))
        Hdt0 Hu Hf ltac:(by rewrite Hvf) Hrv ltac:(by rewrite Hvf) Hrg Fi) as [L1 V1].
      split; [done|]. eapply smoother_trans; [|exact I2]. clear I2.
      set (kk := fun i => (dt * Qc_of_nat N * (diffusivity_at N (cx_surf cx gamma) i * end_or N i))%Qc).
      set (x := vf_int (ts_phi (f k))) in *. set (y := vf_int (ts_phi (f (S k)))) in *. set (co := (u * dt * Qc_of_nat N)%Qc) in *.
      set (e := step_at (profile inlet y (at0 y (N - 1)))).
      change (forall c, c < N -> (at0 y c - kk (S c) * e (S c) + (kk c + co) * e c = at0 x c)%Qc) in V1.
      assert (Hq : (0 <= Qc_of_nat N)%Qc) by (apply Qclt_le_weak, Qc_of_nat_pos; lia).
      assert (Hco : (0 <= co)%Qc) by (unfold co; repeat apply qc_mul_nonneg; try done; by apply Qclt_le_weak).
      assert (Hk0 : forall i, i <= N -> (0 <= kk i)%Qc).
      { intros i Hi. unfold kk. apply qc_mul_nonneg; [apply qc_mul_nonneg; [by apply Qclt_le_weak|done]|]. apply qc_mul_nonneg; [|by apply end_or_nonneg].
        unfold diffusivity_at. apply Hgam. destruct (decide (i = 0)); [lia|]. destruct (decide (i = N)); lia. }
      clearbody kk co.
      apply (smoother_by_steps N inlet x (at0 x (N - 1)) inlet y (at0 y (N - 1)) (fun i => if decide (i = 0) then 0%Qc else kk i) (fun i => if decide (i = N) then 0%Qc else (kk i + co)%Qc)); try done.
      { intros i Hi. destruct (decide (i = 0)); [apply Qcle_refl|by apply Hk0]. }
      { intros i Hi. destruct (decide (i = N)); [apply Qcle_refl|]. specialize (Hk0 i Hi). revert Hk0 Hco. generalize (kk i). qc_lra. }
      right. intros i Hi. fold e. destruct (decide (i = N)) as [->|HiN].
      { left. unfold e, step_at. rewrite (profile_last N) by done. replace N with (S (N - 1)) at 3 by lia. rewrite (profile_cell N) by (done || lia). ring. }
      right. unfold from_right, from_left. rewrite (decide_True (P := i < N)) by lia. rewrite (decide_False (P := S i = 0)) by lia.
      assert (Hy : at0 y i = (at0 (profile inlet y (at0 y (N - 1))) i + e i)%Qc) by (unfold e, step_at; rewrite (profile_cell N) by (done || lia); ring).
      assert (Hx : step_at (profile inlet x (at0 x (N - 1))) i = (at0 x i - at0 (profile inlet x (at0 x (N - 1))) i)%Qc) by (unfold step_at; rewrite (profile_cell N) by (done || lia); ring).
      rewrite Hx, <- (V1 i) by lia. rewrite Hy. destruct i as [|i].
      + rewrite !(decide_True (P := 0 = 0)) by done. rewrite !profile_0. ring.
      + rewrite !(decide_False (P := S i = 0)) by lia. replace (S i - 1) with i by lia. rewrite (decide_False (P := i = N)) by lia.
        rewrite !(profile_cell N) by (done || lia). rewrite <- (V1 i) by lia. ring. }
  apply H. lia.
Qed.
Print Assumptions C127_implicit.

(** ** Such cases exist for every number of cells, velocity, diffusivity, inlet value
    and initial profile. *)
Definition rod_ctx (N : nat) (m : mesh) (p : sparsity) (u g : Qc) : ctx Qc :=
  Ctx SerialExecutor m (rod_weights N) (rod_dc N) p (fun i => if decide (i = 0) then flow N u else replicate (N + 1) g) (fun _ => []) (fun _ => phi3)
      (fun _ => []) (fun _ => []) (fun i => if decide (i = 0) then "flux"%string else "gamma"%string) (fun _ => "phi"%string).
Example C127_instance : forall N inlet u g x, 1 <= N -> length x = N -> (0 <= g)%Qc -> exists cx,
  advection_case N inlet u cx (advection_bcs inlet) (schemesD "forwardEuler") 0 0 (advection_state N inlet x) /\
  scheme_deltas N (cx_mesh cx) (cx_dc cx) /\
  diffusion_case cx (advection_bcs inlet) (schemesD "forwardEuler") 1 0 (advection_state N inlet x) /\
  held_end (cx_mesh cx) (advection_bcs inlet) (ts_phi (advection_state N inlet x)) 0 /\
  held_end (cx_mesh cx) (advection_bcs inlet) (ts_phi (advection_state N inlet x)) 1 /\
  implicit_case cx (advection_bcs inlet) solve_exactly (schemesD "backwardEuler") 0 1 0 (advection_state N inlet x) /\
  uniform_flow N u (cx_surf cx 0) /\ (forall f, f < N + 1 -> (0 <= at0 (cx_surf cx 1) f)%Qc).
Proof.
  intros N inlet u g x HN Lx Hgp. destruct (C28_uniform_1d_mesh_defined SerialExecutor N (replicate (N + 1) 0) (replicate (N - 1) 0) HN (replicate_length _ _) (replicate_length _ _)) as (m & Hm).
  assert (Hg : generated N m) by (split; [done|]; exists SerialExecutor, (replicate (N + 1) 0), (replicate (N - 1) 0); split; [apply replicate_length|]; split; [apply replicate_length|done]).
  pose proof (generated_rod _ _ Hg) as HR. destruct (C29_pattern m SerialExecutor (valid_connectivity _ (rod_top _ _ HR)) (rod_fit _ _ HR)) as [(p & Hp) HP].
  destruct (HP _ Hp) as (p' & [= <-] & P1 & P2).
  destruct (C28_uniform_1d_mesh _ _ _ _ _ HN (replicate_length _ _) (replicate_length _ _) Hm) as (m' & [= <-] & _ & _ & HB & _ & _ & _ & Hvb & _).
  assert (Lf : length (flow N u) = N + 1) by (unfold flow; rewrite app_length, replicate_length; cbn; lia).
  set (cx := rod_ctx N m p u g).
  assert (Hs : setup_ok cx (advection_bcs inlet)).
  { split.
    - unfold cx_fits. cbn [cx_mesh cx_pattern cx_weights cx_dc cx_exec cx rod_ctx]. rewrite (rod_faces _ _ HR), rod_weights_length, rod_dc_length by done.
      split; [apply (rod_top _ _ HR)|]. split; [done|]. split; [done|]. split; [done|]. split; [done|]. split; [apply (rod_lens _ _ HR)|by left].
    - cbn [cx_mesh cx rod_ctx]. split; [by apply (vb_len _ Hvb)|]. split.
      + unfold patch_ok. rewrite HB. repeat constructor; cbn; lia.
      + intros [|[|i]] [|[|j]] a b Ha Hb Hij; try done; injection Ha as <-; injection Hb as <-; intros c; unfold in_patch; cbn; lia. }
  assert (Hst : state_ok cx (advection_state N inlet x)).
  { split; [|cbn; by rewrite (rod_cells _ _ HR)]. unfold sized. cbn. rewrite (rod_cells _ _ HR), HB. done. }
  assert (Hfl : uniform_flow N u (cx_surf cx 0)).
  { split; [done|]. intros f Hf. cbn [cx_surf cx rod_ctx]. rewrite decide_True by done. unfold flow, at0. destruct (decide (f < N - 1)) as [Hlt|Hge].
    + rewrite lookup_app_l, lookup_replicate_2 by (rewrite ?replicate_length; lia). by rewrite decide_False by lia.
    + rewrite lookup_app_r by (rewrite replicate_length; lia). rewrite replicate_length. destruct (decide (f = N - 1)) as [->|Hne]; [by rewrite Nat.sub_diag|].
      replace (f - (N - 1)) with 1 by lia. done. }
  exists cx. split; [|split; [|split; [|split; [|split; [|split; [|split]]]]]].
  - split.
    + done.
    + exists SerialExecutor, (replicate (N + 1) 0%Qc). split; [apply replicate_length|]. apply (rod_weights_run N m HR); [apply replicate_length|done].
    + split; [done|done| |eexists; vm_compute; reflexivity|eexists; split; vm_compute; reflexivity].
      cbn [cx_surf cx rod_ctx cx_mesh]. rewrite decide_True by done. by rewrite (rod_faces _ _ HR).
    + done.
    + exists (Patch 0 0 1). split; [left|]. unfold in_patch. cbn. lia.
    + exists (Patch 1 1 2), Extrapolated. split; [right; left|]. split; [unfold in_patch; cbn; lia|by left].
    + done.
  - exists SerialExecutor, (replicate (N + 1) 0%R). split; [apply replicate_length|]. apply (rod_nonOrth N m HR); [apply replicate_length|done].
  - split; try done.
    all: try (eexists; vm_compute; reflexivity). all: try (eexists; split; vm_compute; reflexivity).
    all: cbn [cx_surf cx rod_ctx cx_mesh]; rewrite ?decide_False by done; rewrite ?(rod_faces _ _ HR), ?replicate_length; done.
  - exists (Patch 0 0 1), (FixedValue inlet). split; [left|]. split; [unfold in_patch; cbn; lia|done].
  - exists (Patch 1 1 2), Extrapolated. split; [right; left|]. split; [unfold in_patch; cbn; lia|].
    cbn [held cx_mesh cx rod_ctx ts_phi advection_state vf_value vf_int]. rewrite (rod_fc _ _ HR). done.
  - split; try done.
    all: try (eexists; vm_compute; reflexivity). all: try (eexists; split; vm_compute; reflexivity).
    all: try (cbn [cx_surf cx rod_ctx cx_mesh]; rewrite ?decide_True by done; rewrite ?decide_False by done; rewrite ?(rod_faces _ _ HR), ?replicate_length; done).
    + apply C48_serial_pattern; [apply (rod_top _ _ HR)|exact (rod_fit _ _ HR)|done].
    + apply solve_exactly_exact.
  - done.
  - intros f Hf. cbn [cx_surf cx rod_ctx]. rewrite decide_False by done. unfold at0. by rewrite lookup_replicate_2.
Qed.
(** A profile with one interior peak: its rise, fall and variation; the flattened
    profile is smoother, a shifted peak of the same height is too, a higher one is not. *)
Example C127_instance_numbers :
  rise [0; 1; Q2Qc 3; 1]%Qc = Q2Qc 3 /\ fall [0; 1; Q2Qc 3; 1]%Qc = Q2Qc 2 /\ variation [0; 1; Q2Qc 3; 1]%Qc = Q2Qc 5 /\
  smoother [0; Q2Qc 2; Q2Qc 2; 1]%Qc [0; 1; Q2Qc 3; 1]%Qc /\ ~ smoother [0; 1; Q2Qc 4; 1]%Qc [0; 1; Q2Qc 3; 1]%Qc.
Proof.
  split; [apply Qc_is_canon; vm_compute; reflexivity|]. split; [apply Qc_is_canon; vm_compute; reflexivity|]. split; [apply Qc_is_canon; vm_compute; reflexivity|].
  split; [split; vm_compute; discriminate|]. intros [H _]. revert H. vm_compute. intros H. by apply H.
Qed.
