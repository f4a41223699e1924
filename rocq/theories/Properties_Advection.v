(** C104: explicit upwind advection and explicit diffusion on the uniform 1D mesh. *)
From Coq Require Import Lqa Reals.
From Verif Require Import Base Dict Registry Par Exec Reduce ReduceProofs Fields FieldsProofs Value Kernel Mesh MeshSpec MeshProofs Coeff FV FVSpec FVProofs Sparsity SparsitySpec SparsityProps SparsityDet Assembly AssemblySpec AssemblyProps
  Boundary Properties_Boundary CoNum Properties_CoNum ExampleMesh Properties_Mesh Properties_Sparsity Properties_Assembly Dsl DslSpec DslHeapProofs DslProofs DslAssembly Properties_Dsl Properties_DslAssembly
  TimeInt TimeSpec TimeIntProofs TimeIntSteps Properties_TimeInt FrontEnd Transport TransportProofs QcLra Properties_Transport Diffusion DiffusionProofs Properties_Diffusion Geometry Rod RodCoeffs Properties_Rod.
Local Open Scope nat_scope.

(** ** Specification *)
(** Pascal's triangle. *)
Fixpoint binomial (n j : nat) : nat :=
  match n, j with
  | _, 0 => 1
  | 0, S _ => 0
  | S n', S j' => binomial n' j' + binomial n' j
  end.
(** The value [j] cells upstream of cell [c]: beyond the inlet, that of the inlet. *)
Definition upstream (inlet : Qc) (x : list Qc) (c j : nat) : Qc := if decide (c < j) then inlet else at0 x (c - j).
(** Mean of the upstream values, the number of cells travelled in [k] steps being
    binomially distributed with probability [co]. *)
Definition binomial_mean (k : nat) (co inlet : Qc) (x : list Qc) (c : nat) : Qc :=
  vsum_over (S k) (fun j => Qc_of_nat (binomial k j) * (co ^ j * (1 - co) ^ (k - j)) * upstream inlet x c j)%Qc.

(** Uniform velocity [u] to the right: outward flux -u at the left end (boundary
    face 0), u at the right end and on the faces between. *)
Definition uniform_flow (N : nat) (u : Qc) (flux : list Qc) : Prop :=
  length flux = N + 1 /\ forall f, f < N + 1 -> at0 flux f = if decide (f = N - 1) then (- u)%Qc else u.
Record advection_case (N : nat) (inlet u : Qc) cx bcs (fvSchemes : dict) (flux n : nat) (st : tstate) : Prop := {
  ac_mesh : generated N (cx_mesh cx);
  ac_weights : scheme_weights N (cx_mesh cx) (cx_weights cx);
  ac_case : explicit_case cx bcs fvSchemes flux n st;
  ac_flow : uniform_flow N u (cx_surf cx flux);
  ac_inlet : exists p, (p, FixedValue inlet) ∈ bcs /\ in_patch p 0;
  ac_outlet : exists p bc, (p, bc) ∈ bcs /\ in_patch p 1 /\ (bc = Extrapolated \/ bc = FixedGradient 0%Qc);
  ac_start : old_of st = vf_int (ts_phi st) /\ vf_value (ts_phi st) = [inlet; at0 (vf_int (ts_phi st)) (N - 1)];
}.

(** ** Proofs *)
Lemma binomial_over n : forall j, n < j -> binomial n j = 0.
Proof. induction n as [|n IH]; intros [|j] Hj; try lia; cbn; [done|]. rewrite !IH by lia. done. Qed.
Lemma binomial_S n j : binomial (S n) (S j) = binomial n j + binomial n (S j).
Proof. done. Qed.
Lemma binomial_0 n : binomial n 0 = 1.
Proof. by destruct n. Qed.
Lemma sum_shift k (g : nat -> Qc) : vsum_over (S k) g = (g 0%nat + vsum_over k (fun j => g (S j)))%Qc.
Proof.
  induction k as [|k IH]; [rewrite vsum_over_S, !vsum_over_0; cbn; ring|].
  rewrite vsum_over_S, IH, vsum_over_S. cbn [vadd Qc_value]. ring.
Qed.
(** One more step moves a fraction [co] by one cell. *)
Definition weighted (k : nat) (co : Qc) (g : nat -> Qc) : Qc :=
  vsum_over (S k) (fun j => Qc_of_nat (binomial k j) * (co ^ j * (1 - co) ^ (k - j)) * g j)%Qc.
Lemma weighted_S k co g : weighted (S k) co g = ((1 - co) * weighted k co g + co * weighted k co (fun j => g (S j)))%Qc.
Proof.
  unfold weighted. rewrite sum_shift. rewrite (sum_shift k (fun j => _ * g j)%Qc).
  assert (E : vsum_over (S k) (fun j => Qc_of_nat (binomial (S k) (S j)) * (co ^ S j * (1 - co) ^ (S k - S j)) * g (S j))%Qc =
    (co * vsum_over (S k) (fun j => Qc_of_nat (binomial k j) * (co ^ j * (1 - co) ^ (k - j)) * g (S j))
     + (1 - co) * vsum_over k (fun j => Qc_of_nat (binomial k (S j)) * (co ^ S j * (1 - co) ^ (k - S j)) * g (S j)))%Qc).
  { transitivity (vadd (vscale co (vsum_over (S k) (fun j => Qc_of_nat (binomial k j) * (co ^ j * (1 - co) ^ (k - j)) * g (S j))%Qc))
      (vsum_over (S k) (fun j => Qc_of_nat (binomial k (S j)) * (co ^ S j * (1 - co) ^ (k - j)) * g (S j))%Qc)).
    - rewrite <- vsum_over_scale, <- vsum_over_add. apply vsum_over_ext. intros j Hj. rewrite binomial_S, Qc_of_nat_add. cbn [vadd vscale Qc_value].
      replace (S k - S j) with (k - j) by lia. cbn [Qcpower]. ring.
    - cbn [vadd vscale Qc_value]. f_equal. rewrite vsum_over_S, binomial_over by lia. rewrite Qc_of_nat_0. cbn [vadd Qc_value].
      rewrite Qcmult_0_l, Qcmult_0_l, Qcplus_0_r. match goal with |- _ = (?a * ?s)%Qc => change (a * s)%Qc with (vscale a s : Qc) end. rewrite <- vsum_over_scale. apply vsum_over_ext. intros j Hj. cbn [vscale Qc_value].
      replace (k - j) with (S (k - S j)) by lia. cbn [Qcpower]. ring. }
  rewrite E, !binomial_0. replace (S k - 0) with (S (k - 0)) by lia. cbn [Qcpower]. ring.
Qed.
Lemma weighted_ext k co g h : (forall j, g j = h j) -> weighted k co g = weighted k co h.
Proof. intros E. apply vsum_over_ext. intros j _. by rewrite E. Qed.
Lemma weighted_0 co g : weighted 0 co g = g 0.
Proof. unfold weighted. rewrite vsum_over_S, vsum_over_0. cbn. change (Qc_of_nat 1) with 1%Qc. ring. Qed.
Lemma weighted_const k co v : weighted k co (fun _ => v) = v.
Proof. induction k as [|k IH]; [by rewrite weighted_0|]. rewrite weighted_S, IH. ring. Qed.
Lemma mean_step k co inlet x c :
  binomial_mean (S k) co inlet x c =
    ((1 - co) * binomial_mean k co inlet x c + co * (if decide (c = 0)%nat then inlet else binomial_mean k co inlet x (c - 1)))%Qc.
Proof.
  change (weighted (S k) co (upstream inlet x c) = ((1 - co) * weighted k co (upstream inlet x c) + co * (if decide (c = 0)%nat then inlet else weighted k co (upstream inlet x (c - 1))))%Qc).
  rewrite weighted_S. do 2 f_equal. destruct (decide (c = 0)) as [->|Hc].
  - transitivity (weighted k co (fun _ => inlet)); [|apply weighted_const]. apply weighted_ext. intros j. unfold upstream. by rewrite decide_True by lia.
  - apply weighted_ext. intros j. unfold upstream. destruct (decide (c < S j)); [rewrite decide_True by lia; done|rewrite decide_False by lia]. f_equal. lia.
Qed.
Lemma mean_start co inlet x c : binomial_mean 0 co inlet x c = at0 x c.
Proof. change (weighted 0 co (upstream inlet x c) = at0 x c). rewrite weighted_0. unfold upstream. rewrite decide_False by lia. f_equal. lia. Qed.
Lemma weighted_one k g : weighted k 1 g = g k.
Proof.
  revert g. induction k as [|k IH]; intros g; [apply weighted_0|]. rewrite weighted_S, (IH (fun j => g (S j))). ring.
Qed.

(** One step on the rod. *)
Lemma rod_step N m inlet u flux w dt phi x : rod N m -> w = rod_weights N -> uniform_flow N u flux -> (0 <= u)%Qc ->
  vf_value phi = [inlet; at0 (vf_int phi) (N - 1)] -> advanced m flux w dt phi x ->
  length x = N /\ forall c, c < N -> at0 x c = ((1 - u * dt * Qc_of_nat N) * at0 (vf_int phi) c +
    u * dt * Qc_of_nat N * (if decide (c = 0)%nat then inlet else at0 (vf_int phi) (c - 1)))%Qc.
Proof.
  intros HR -> [Lf Hf] Hu Hv [Lx Hx]. rewrite (rod_cells _ _ HR) in Lx, Hx. split; [done|]. intros c Hc. specialize (Hx c Hc). pose proof (rod_pos _ _ HR) as HN.
  pose proof (Qc_of_nat_nz N HN) as Hz. rewrite (rod_vol _ _ HR) in Hx by done.
  rewrite (rod_balance (V := Qc) N m _ c HR Hc) in Hx. cbn [vadd vneg Qc_value] in Hx.
  assert (W : forall f, N - 1 <= f < N + 1 -> at0 (rod_weights N) f = 1%Qc) by (intros f Hff; unfold at0; by rewrite rod_weights_bnd).
  (* value on the right face is that of the cell, on the left face that of the cell before *)
  assert (Hint : forall f, f < N - 1 -> face_value m Upwind phi flux (rod_weights N) f = at0 (vf_int phi) f).
  { intros f Hff. unfold face_value. rewrite (rod_int _ _ HR). rewrite decide_True by done. rewrite Hf by lia. rewrite (decide_False (P := f = N - 1)) by lia.
    destruct (Qclt_le_dec u 0) as [Hn|_]; [exfalso; by apply (Qclt_not_le _ _ Hn)|]. unfold at_owner. by rewrite (rod_own _ _ HR). }
  assert (Hbnd : forall f, N - 1 <= f < N + 1 -> face_value m Upwind phi flux (rod_weights N) f = at0 (vf_value phi) (f - (N - 1))).
  { intros f Hff. unfold face_value. rewrite (rod_int _ _ HR). rewrite decide_False by lia. rewrite W by lia. cbn [vscale Qc_value]. change (@atV Qc Qc_value) with at0. ring. }
  assert (Hr : (if decide (c = N - 1)%nat then at0 flux N * face_value m Upwind phi flux (rod_weights N) N else at0 flux c * face_value m Upwind phi flux (rod_weights N) c)%Qc =
     (u * at0 (vf_int phi) c)%Qc).
  { destruct (decide (c = N - 1)) as [->|Hne].
    - rewrite Hbnd by lia. rewrite Hv. replace (N - (N - 1)) with 1 by lia. rewrite Hf by lia. rewrite decide_False by lia. done.
    - rewrite Hint by lia. rewrite Hf by lia. by rewrite decide_False by lia. }
  assert (Hl : (if decide (c = 0)%nat then at0 flux (N - 1) * face_value m Upwind phi flux (rod_weights N) (N - 1) else - (at0 flux (c - 1) * face_value m Upwind phi flux (rod_weights N) (c - 1)))%Qc =
     (- (u * (if decide (c = 0)%nat then inlet else at0 (vf_int phi) (c - 1))))%Qc).
  { destruct (decide (c = 0)) as [->|Hne].
    - rewrite Hbnd by lia. rewrite Hv, Nat.sub_diag. rewrite Hf by lia. rewrite decide_True by done. change (at0 [inlet; at0 (vf_int phi) (N - 1)] 0) with inlet. ring.
    - rewrite Hint by lia. rewrite Hf by lia. by rewrite decide_False by lia. }
  rewrite Hr, Hl in Hx. revert Hx. generalize (at0 x c) (at0 (vf_int phi) c) (if decide (c = 0) then inlet else at0 (vf_int phi) (c - 1)). intros a b d E.
  transitivity (b + Qc_of_nat N * (1 / Qc_of_nat N * (a - b)))%Qc; [field; done|]. rewrite E. ring.
Qed.

(** * C104 *)
(** After any number of steps of Courant number [co] the value of every cell is
    the binomial mean of the upstream initial values. *)
Theorem C104_advection : forall N inlet u co dbg cx bcs lin fvSchemes fvSolution flux n st l,
  advection_case N inlet u cx bcs fvSchemes flux n st -> (0 <= u)%Qc ->
  (forall t dt, (t, dt) ∈ l -> (u * dt / (1 / Qc_of_nat N) = co)%Qc) ->
  exists st', surely (run_program (explicit_transport flux n) dbg cx n bcs lin fvSchemes fvSolution l st) st' /\
    length (vf_int (ts_phi st')) = N /\
    forall c, c < N -> at0 (vf_int (ts_phi st')) c = binomial_mean (length l) co inlet (vf_int (ts_phi st)) c.
Proof.
  intros N inlet u co dbg cx bcs lin fvSchemes fvSolution flux n st l [Hg Hw Hc Hfl (pi & Hpi & Hpi0) (po & bco & Hpo & Hpo1 & Hbco) [Ho Hv]] Hu Hco.
  pose proof (generated_rod _ _ Hg) as HR. pose proof (rod_pos _ _ HR) as HN. pose proof (Qc_of_nat_nz N HN) as Hz.
  pose proof (scheme_weights_are _ _ _ HR Hw) as Ew.
  destruct (C95_explicit_transport dbg cx bcs lin fvSchemes fvSolution flux n st l Hc Ho) as (f & F0 & Fr & Fi). eexists. split; [exact Fr|].
  assert (H : forall k, k <= length l -> length (vf_int (ts_phi (f k))) = N /\ vf_value (ts_phi (f k)) = [inlet; at0 (vf_int (ts_phi (f k))) (N - 1)] /\
     forall c, c < N -> at0 (vf_int (ts_phi (f k))) c = binomial_mean k co inlet (vf_int (ts_phi st)) c).
  { induction k as [|k IH]; intros Hk.
    - rewrite F0. split; [|split; [done|intros c _; by rewrite mean_start]]. destruct (ec_state _ _ _ _ _ _ Hc) as [(Hi & _) _]. by rewrite Hi, (rod_cells _ _ HR).
    - destruct (IH ltac:(lia)) as (I1 & I2 & I3). destruct (lookup_lt_is_Some_2 l k ltac:(lia)) as ([t dt] & E). destruct (Fi k t dt E) as [HA HB].
      destruct (rod_step N (cx_mesh cx) inlet u (cx_surf cx flux) (cx_weights cx) dt (ts_phi (f k)) (vf_int (ts_phi (f (S k)))) HR Ew Hfl Hu I2 HA) as [L1 V1].
      split; [done|]. split.
      + destruct HB as [HB HB2].
        assert (HV : forall p bc b v, (p, bc) ∈ bcs -> vol_prescribes (cx_mesh cx) p bc (ts_phi (f (S k))) (Value b) = Some (inl v) -> vf_value (ts_phi (f (S k))) !! b = Some v).
        { intros p bc b v Hin Hp. specialize (HB p bc (Value b) _ Hin Hp). cbn in HB. destruct (vf_value (ts_phi (f (S k))) !! b); [|done]. cbn in HB. by injection HB as ->. }
        assert (V0 : vf_value (ts_phi (f (S k))) !! 0 = Some inlet).
        { apply (HV pi (FixedValue inlet)); [done|]. cbn. by rewrite decide_True. }
        assert (V2 : vf_value (ts_phi (f (S k))) !! 1 = Some (at0 (vf_int (ts_phi (f (S k)))) (N - 1))).
        { apply (HV po bco); [done|]. cbn [vol_prescribes]. rewrite decide_True by done. unfold at_face_cell. rewrite (rod_fc _ _ HR). change (atn [0; N - 1] 1) with (N - 1). change (@atV Qc Qc_value) with at0.
          destruct Hbco as [->| ->]; [done|]. cbn [vadd vscale Qc_value]. by rewrite Qcmult_0_r, Qcplus_0_r. }
        assert (V3 : vf_value (ts_phi (f (S k))) !! 2 = None).
        { destruct (prescriber (cx_mesh cx) bcs (ts_phi (f (S k))) (Value 2)) as [(p & bc & y & H1 & H2)|Hn].
          - exfalso. assert (Hpk : patch_ok (cx_mesh cx) p). { pose proof (ec_setup _ _ _ _ _ _ Hc) as (_ & _ & Hall & _). rewrite Forall_forall in Hall. exact (Hall (p, bc) H1). }
            cbn in H2. destruct (decide (in_patch p 2)) as [Hip|]; [|done]. unfold in_patch in Hip. unfold patch_ok in Hpk. rewrite (rod_bnd _ _ HR) in Hpk. lia.
          - specialize (HB2 (Value 2) Hn ltac:(done)). cbn in HB2. rewrite I2 in HB2. cbn in HB2. destruct (vf_value (ts_phi (f (S k))) !! 2); done. }
        destruct (vf_value (ts_phi (f (S k)))) as [|a [|b [|d v]]]; try done. cbn in V0, V2. by injection V0 as ->; injection V2 as ->.
      + intros c Hcc. rewrite V1 by done. rewrite mean_step, I3 by done.
        assert (Ec : (u * dt * Qc_of_nat N = co)%Qc).
        { rewrite <- (Hco t dt (elem_of_list_lookup_2 _ _ _ E)). field. done. }
        rewrite Ec. destruct (decide (c = 0)); [done|]. rewrite I3 by lia. done. }
  destruct (H (length l) ltac:(lia)) as (H1 & _ & H2). done.
Qed.
Print Assumptions C104_advection.

(** With Courant number 1 the profile moves exactly one cell per step. *)
Theorem C104_exact_shift : forall N inlet u dbg cx bcs lin fvSchemes fvSolution flux n st l,
  advection_case N inlet u cx bcs fvSchemes flux n st -> (0 <= u)%Qc ->
  (forall t dt, (t, dt) ∈ l -> (u * dt / (1 / Qc_of_nat N) = 1)%Qc) ->
  exists st', surely (run_program (explicit_transport flux n) dbg cx n bcs lin fvSchemes fvSolution l st) st' /\
    length (vf_int (ts_phi st')) = N /\
    forall c, c < N -> at0 (vf_int (ts_phi st')) c = if decide (c < length l) then inlet else at0 (vf_int (ts_phi st)) (c - length l).
Proof.
  intros N inlet u dbg cx bcs lin fvSchemes fvSolution flux n st l Hc Hu Hl.
  destruct (C104_advection N inlet u 1%Qc dbg cx bcs lin fvSchemes fvSolution flux n st l Hc Hu Hl) as (st' & H1 & H2 & H3).
  exists st'. split; [done|]. split; [done|]. intros c Hcc. rewrite (H3 c Hcc).
  change (weighted (length l) 1 (upstream inlet (vf_int (ts_phi st)) c) = upstream inlet (vf_int (ts_phi st)) c (length l)). apply weighted_one.
Qed.
Print Assumptions C104_exact_shift.

(** Explicit diffusion on the rod: a step keeps all bounds of all fields exactly if
    3 N^2 dt <= 1 (the end cells, whose boundary face is half a cell away, decide). *)
Lemma rod_number N m dc dt c : rod N m -> dc = rod_dc N -> 2 <= N -> c < N ->
  diffusion_number m dc dt c = (dt * (Qc_of_nat N * Qc_of_nat N) * (if decide (c = 0 \/ c = N - 1)%nat then 1 + 1 + 1 else 1 + 1))%Qc.
Proof.
  intros HR -> HN Hc. pose proof (Qc_of_nat_nz N ltac:(lia)) as Hz. unfold diffusion_number. rewrite (rod_vol _ _ HR) by done.
  rewrite (conductance_balance m (rod_top _ _ HR)), (rod_balance (V := Qc) N m _ c HR Hc). rewrite (rod_int _ _ HR).
  assert (HA : forall f, f < N + 1 -> at0 (magFaceAreas m) f = 1%Qc) by (intros f Hf; unfold at0; by rewrite (rod_mag _ _ HR)).
  assert (HI : forall f, f < N - 1 -> at0 (rod_dc N) f = Qc_of_nat N) by (intros f Hf; unfold at0; by rewrite rod_dc_int).
  assert (HB : forall f, N - 1 <= f < N + 1 -> at0 (rod_dc N) f = ((1 + 1) * Qc_of_nat N)%Qc) by (intros f Hf; unfold at0; by rewrite rod_dc_bnd by lia).
  assert (E1 : (if decide (c = N - 1)%nat then (if decide (N < N - 1 /\ atn (faceOwner m) N <> c)%nat then - (1) * (at0 (magFaceAreas m) N * at0 (rod_dc N) N) else at0 (magFaceAreas m) N * at0 (rod_dc N) N)
     else (if decide (c < N - 1 /\ atn (faceOwner m) c <> c)%nat then - (1) * (at0 (magFaceAreas m) c * at0 (rod_dc N) c) else at0 (magFaceAreas m) c * at0 (rod_dc N) c))%Qc =
     (if decide (c = N - 1)%nat then (1 + 1) * Qc_of_nat N else Qc_of_nat N)%Qc).
  { destruct (decide (c = N - 1)) as [->|Hne].
    - rewrite decide_False by lia. rewrite HA, HB by lia. ring.
    - rewrite decide_False by (rewrite (rod_own _ _ HR) by lia; lia). rewrite HA, HI by lia. ring. }
  assert (E2 : (if decide (c = 0)%nat then (if decide (N - 1 < N - 1 /\ atn (faceOwner m) (N - 1) <> c)%nat then - (1) * (at0 (magFaceAreas m) (N - 1)%nat * at0 (rod_dc N) (N - 1)%nat) else at0 (magFaceAreas m) (N - 1)%nat * at0 (rod_dc N) (N - 1)%nat)
     else - (if decide (c - 1 < N - 1 /\ atn (faceOwner m) (c - 1) <> c)%nat then - (1) * (at0 (magFaceAreas m) (c - 1)%nat * at0 (rod_dc N) (c - 1)%nat) else at0 (magFaceAreas m) (c - 1)%nat * at0 (rod_dc N) (c - 1)%nat))%Qc =
     (if decide (c = 0)%nat then (1 + 1) * Qc_of_nat N else Qc_of_nat N)%Qc).
  { destruct (decide (c = 0)) as [->|Hne].
    - rewrite decide_False by lia. rewrite HA, HB by lia. ring.
    - rewrite decide_True by (rewrite (rod_own _ _ HR) by lia; lia). rewrite HA, HI by lia. ring. }
  cbn [vadd vneg Qc_value]. rewrite E1, E2.
  destruct (decide (c = N - 1)) as [Ha|Ha], (decide (c = 0)) as [Hb|Hb]; [lia|rewrite decide_True by lia|rewrite decide_True by lia|rewrite decide_False by lia]; field; done.
Qed.
Theorem C104_diffusion_limit : forall N m dc dt, generated N m -> 2 <= N -> scheme_deltas N m dc -> (0 <= dt)%Qc ->
  ((1 + 1 + 1) * (Qc_of_nat N * Qc_of_nat N) * dt <= 1)%Qc <->
  (forall lo hi phi x, field_ok m phi -> boundary_ok m phi -> cells_between m lo hi (vf_int phi) -> boundary_within m lo hi phi ->
     diffused_step m dc dt phi x -> cells_between m lo hi x).
Proof.
  intros N m dc dt Hg HN Hd Hdt. pose proof (generated_rod _ _ Hg) as HR. pose proof (scheme_deltas_are _ _ _ HR Hd) as Edc.
  rewrite <- (C102_sharp m dc dt (rod_top _ _ HR)); [|subst dc|done].
  - rewrite (rod_cells _ _ HR). split.
    + intros H c Hc. rewrite (rod_number N m dc dt c HR Edc HN Hc).
      assert (P : (0 <= dt * (Qc_of_nat N * Qc_of_nat N))%Qc).
      { apply qc_mul_nonneg; [done|]. apply sq_nonneg. }
      revert H P. generalize (Qc_of_nat N * Qc_of_nat N)%Qc. intros q H P. destruct (decide _).
      * replace (dt * q * (1 + 1 + 1))%Qc with ((1 + 1 + 1) * q * dt)%Qc by ring. done.
      * replace ((1 + 1 + 1) * q * dt)%Qc with ((1 + 1 + 1) * (dt * q))%Qc in H by ring. revert H P. generalize (dt * q)%Qc. qc_lra.
    + intros H. specialize (H 0 ltac:(lia)). rewrite (rod_number N m dc dt 0 HR Edc HN ltac:(lia)), decide_True in H by lia.
      replace ((1 + 1 + 1) * (Qc_of_nat N * Qc_of_nat N) * dt)%Qc with (dt * (Qc_of_nat N * Qc_of_nat N) * (1 + 1 + 1))%Qc by ring. done.
  - intros f Hf. rewrite (rod_faces _ _ HR) in Hf. unfold at0. rewrite (rod_mag _ _ HR) by done. split; [vm_compute; discriminate|].
    assert (Hp : (0 <= Qc_of_nat N)%Qc) by (apply Qclt_le_weak, Qc_of_nat_pos; lia).
    destruct (decide (f < N - 1)); [by rewrite rod_dc_int|]. rewrite rod_dc_bnd by lia. simpl. revert Hp. generalize (Qc_of_nat N). qc_lra.
Qed.
Print Assumptions C104_diffusion_limit.

(** ** Such cases exist for every number of cells, velocity, inlet value and initial
    profile. *)
Definition flow (N : nat) (u : Qc) : list Qc := replicate (N - 1) u ++ [(- u)%Qc; u].
Definition advection_ctx (N : nat) (m : mesh) (p : sparsity) (u : Qc) : ctx Qc :=
  Ctx SerialExecutor m (rod_weights N) (rod_dc N) p (fun _ => flow N u) (fun _ => []) (fun _ => phi3)
      (fun _ => []) (fun _ => []) (fun _ => "flux"%string) (fun _ => "phi"%string).
Definition advection_bcs (inlet : Qc) : list (patch * volBC Qc) := [(Patch 0 0 1, FixedValue inlet); (Patch 1 1 2, Extrapolated)].
Definition advection_state (N : nat) (inlet : Qc) (x : list Qc) : tstate :=
  TState (VolField x [inlet; at0 x (N - 1)] [inlet; 0%Qc] [1; 0]%Qc [0; 0]%Qc) (Some x).
Example C104_instance : forall N inlet u x, 1 <= N -> length x = N -> exists cx,
  advection_case N inlet u cx (advection_bcs inlet) (schemesD "forwardEuler") 0 0 (advection_state N inlet x) /\ scheme_deltas N (cx_mesh cx) (cx_dc cx).
Proof.
  intros N inlet u x HN Lx. destruct (C28_uniform_1d_mesh_defined SerialExecutor N (replicate (N + 1) 0) (replicate (N - 1) 0) HN (replicate_length _ _) (replicate_length _ _)) as (m & Hm).
  assert (Hg : generated N m) by (split; [done|]; exists SerialExecutor, (replicate (N + 1) 0), (replicate (N - 1) 0); split; [apply replicate_length|]; split; [apply replicate_length|done]).
  pose proof (generated_rod _ _ Hg) as HR. destruct (C29_pattern m SerialExecutor (valid_connectivity _ (rod_top _ _ HR)) (rod_fit _ _ HR)) as [(p & Hp) HP].
  destruct (HP _ Hp) as (p' & [= <-] & P1 & P2).
  destruct (C28_uniform_1d_mesh _ _ _ _ _ HN (replicate_length _ _) (replicate_length _ _) Hm) as (m' & [= <-] & _ & _ & HB & _ & _ & _ & Hvb & _).
  assert (Lf : length (flow N u) = N + 1) by (unfold flow; rewrite app_length, replicate_length; cbn; lia).
  exists (advection_ctx N m p u). split.
  2: { exists SerialExecutor, (replicate (N + 1) 0%R). split; [apply replicate_length|]. apply (rod_nonOrth N m HR); [apply replicate_length|done]. }
  split.
  - done.
  - exists SerialExecutor, (replicate (N + 1) 0%Qc). split; [apply replicate_length|]. apply (rod_weights_run N m HR); [apply replicate_length|done].
  - split.
    + split.
      * unfold cx_fits. cbn [cx_mesh cx_pattern cx_weights cx_dc cx_exec advection_ctx]. rewrite (rod_faces _ _ HR), rod_weights_length, rod_dc_length by done.
        split; [apply (rod_top _ _ HR)|]. split; [done|]. split; [done|]. split; [done|]. split; [done|]. split; [apply (rod_lens _ _ HR)|by left].
      * cbn [cx_mesh advection_ctx]. split; [by apply (vb_len _ Hvb)|]. split.
        -- unfold patch_ok. rewrite HB. repeat constructor; cbn; lia.
        -- intros [|[|i]] [|[|j]] a b Ha Hb Hij; try done; injection Ha as <-; injection Hb as <-; intros c; unfold in_patch; cbn; lia.
    + split; [|cbn; by rewrite (rod_cells _ _ HR)]. unfold sized. cbn. rewrite (rod_cells _ _ HR), HB. done.
    + cbn [cx_surf advection_ctx cx_mesh]. by rewrite (rod_faces _ _ HR).
    + eexists. vm_compute. reflexivity.
    + eexists. split; vm_compute; reflexivity.
  - split; [done|]. intros f Hf. cbn [cx_surf advection_ctx]. unfold flow, at0. destruct (decide (f < N - 1)) as [Hlt|Hge].
    + rewrite lookup_app_l, lookup_replicate_2 by (rewrite ?replicate_length; lia). by rewrite decide_False by lia.
    + rewrite lookup_app_r by (rewrite replicate_length; lia). rewrite replicate_length. destruct (decide (f = N - 1)) as [->|Hne]; [by rewrite Nat.sub_diag|].
      replace (f - (N - 1)) with 1 by lia. done.
  - exists (Patch 0 0 1). split; [left|]. unfold in_patch. cbn. lia.
  - exists (Patch 1 1 2), Extrapolated. split; [right; left|]. split; [unfold in_patch; cbn; lia|by left].
  - done.
Qed.
(** Two steps with Courant number 1/2 from a unit jump. *)
Example C104_instance_numbers :
  map (binomial_mean 2 (Q2Qc (1 # 2)) 1%Qc [0; 0; 0; 0]%Qc) [0; 1; 2; 3] = [Q2Qc (3 # 4); Q2Qc (1 # 4); 0; 0]%Qc.
Proof. reflexivity. Qed.
