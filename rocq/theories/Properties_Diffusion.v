(** C102, C103: explicit diffusion; how perturbations of a transport problem evolve. *)
From Coq Require Import Lqa.
From Verif Require Import Base Dict Registry Par Exec Reduce ReduceProofs Fields FieldsProofs Value Kernel Mesh MeshSpec Coeff FV FVSpec Sparsity SparsitySpec SparsityDet Assembly AssemblySpec AssemblyProps
  Boundary Properties_Boundary CoNum Properties_CoNum ExampleMesh Properties_Sparsity Properties_Assembly Dsl DslSpec DslHeapProofs DslProofs DslAssembly Properties_Dsl Properties_DslAssembly
  TimeInt TimeSpec TimeIntProofs TimeIntSteps Properties_TimeInt FrontEnd Transport TransportProofs QcLra Properties_Transport Diffusion DiffusionProofs.
Local Open Scope nat_scope.

(** Expression eqn = imp::ddt(T) - SpatialOperator(LaplacianOperator(Explicit, gamma, T)) *)
Definition explicit_diffusion (gamma n : nat) : outcome (expression * heap Qc) :=
  program [ImpDdt n; ExpLaplacian gamma n] (EOpMinus (TermT (TVar 0)) (TermS (SVar 0))).
Record diffusion_case cx bcs (fvSchemes : dict) (gamma n : nat) (st : tstate) : Prop := {
  dc_setup : setup_ok cx bcs;
  dc_state : state_ok cx st;
  dc_gamma : length (cx_surf cx gamma) = nFaces (cx_mesh cx);
  dc_laplacian : exists s, (laplacian_build (cx_surfName cx gamma) (cx_volName cx n) (IDict fvSchemes)).1 = Ok s;
  dc_ddt : exists schemes, dict_subDict fvSchemes "ddtSchemes" = Ok schemes /\ get_string schemes "type" = Ok "forwardEuler"%string;
}.

(** * C102 *)
(** The program runs to the end on every executor; every step is the explicit one
    with diffusivity 1, whatever [gamma] holds (C78), followed by the correction
    of the boundary values. *)
Theorem C102_explicit_diffusion : forall dbg cx bcs lin fvSchemes fvSolution gamma n st l,
  diffusion_case cx bcs fvSchemes gamma n st -> old_of st = vf_int (ts_phi st) ->
  exists f, f 0 = st /\ surely (run_program (explicit_diffusion gamma n) dbg cx n bcs lin fvSchemes fvSolution l st) (f (length l)) /\
    forall i t dt, l !! i = Some (t, dt) ->
      diffused_step (cx_mesh cx) (cx_dc cx) dt (ts_phi (f i)) (vf_int (ts_phi (f (S i)))) /\
      boundary_corrected cx bcs (ts_phi (f i)) (ts_phi (f (S i))).
Proof.
  intros dbg cx bcs lin fvSchemes fvSolution gamma n st l [Hset Hst Hfl (ds & Hd) (schemes & Hs1 & Hs2)] Hold.
  set (bs := [ImpDdt n; ExpLaplacian gamma n]). set (eqn := EOpMinus (TermT (TVar 0)) (TermS (SVar 0))).
  set (sel := fun k : spatialKind Qc => match k with LaplacianOperator g p _ => LaplacianOperator g p true | k => k end).
  pose proof (Hst) as [(Hi & Hv & Hrv & Hvf & Hrg) Ho].
  assert (Hobj : forall p o, p ∈ spatial_objects eqn -> h_spatial (declared (V := Qc) bs) !! p = Some o ->
    o = SpatialOp (LaplacianOperator gamma n false) Explicit (coeff_scalar 1%Qc)).
  { intros p o Hp. cbn in Hp. apply elem_of_list_In in Hp. destruct Hp as [<-|[]]; cbn; intros E; injection E as <-; auto. }
  destruct (C47_time_loop dbg cx n bcs lin fvSchemes fvSolution schemes sel (declared bs) eqn st Hset Hst) as (e' & h' & Ee & HL); try done.
  - cbn. split; eexists; (split; [reflexivity|done]).
  - cbn. lia.
  - intros p o Hp E. rewrite (Hobj p o Hp E). cbn [op_build so_kind so_type so_coeff]. rewrite Hd. done.
  - intros p o Hp E _. rewrite (Hobj p o Hp E); cbn; (split; [|done]); rewrite ?(decide_True (P := n = n)) by done; (split; [done|]; split; [done|]; split; [done|]; repeat split; done).
  - destruct (HL l) as (f & h'' & F0 & Fr & Fi). exists f. split; [done|].
    assert (HO : forall i, i <= length l -> old_of (f i) = vf_int (ts_phi (f i))).
    { intros [|i] Hil; [by rewrite F0|]. destruct (lookup_lt_is_Some_2 l i ltac:(lia)) as ([t dt] & E). destruct (Fi i t dt E) as [[_ _ Hos] _].
      unfold old_of. by rewrite Hos. }
    split.
    + intros r. unfold run_program, explicit_diffusion. rewrite program_spec. fold bs eqn. rewrite Ee. split.
      * intros (e & h & E & Hr). injection E as <- <-. revert Hr. rewrite (rseq_surely _ _ _ _ Fr). done.
      * intros ->. exists e', h'. split; [done|]. rewrite (rseq_surely _ _ _ _ Fr). done.
    + intros i t dt E. destruct (Fi i t dt E) as [[Hlen Hval _] Hbc]. split; [|done]. split; [done|].
      intros c Hc. rewrite Hval by done. rewrite HO by (apply lookup_lt_Some in E; lia).
      unfold explicit_part, eqn. cbn [equation_value term_value tterm_value sterm_value]. unfold object_value, object_value_T.
      cbn [declared omap list_omap builder_spatial builder_temporal bs h_spatial h_temporal lookup list_lookup so_coeff so_type so_kind to_coeff to_type to_phi sel].
      unfold explicit_kind, laplacian_spec, per_volume. cbn [at_state cx_mesh cx_surf cx_vol cx_dc]. rewrite !decide_True by done.
      unfold coeff_val, coeff_scalar, coeff_default, vsub. cbn [vadd vneg vscale vzero Qc_value coeff_ view_].
      pose proof (vt_vol _ (proj1 (proj1 Hset)) c Hc) as HV. apply Qclt_not_eq in HV.
      field. intros E0. by rewrite E0 in HV.
Qed.
Print Assumptions C102_explicit_diffusion.

(** What is in the domain changes by what diffuses in through the boundary. *)
Theorem C102_conservation : forall dbg cx bcs lin fvSchemes fvSolution gamma n st l,
  diffusion_case cx bcs fvSchemes gamma n st -> old_of st = vf_int (ts_phi st) ->
  exists f, f 0 = st /\ surely (run_program (explicit_diffusion gamma n) dbg cx n bcs lin fvSchemes fvSolution l st) (f (length l)) /\
    content (cx_mesh cx) (vf_int (ts_phi (f (length l)))) = (content (cx_mesh cx) (vf_int (ts_phi st)) +
      vsum_over (length l) (fun i => at0 l.*2 i * boundary_influx (cx_mesh cx) (cx_dc cx) (ts_phi (f i))))%Qc.
Proof.
  intros dbg cx bcs lin fvSchemes fvSolution gamma n st l Hc Ho.
  destruct (C102_explicit_diffusion dbg cx bcs lin fvSchemes fvSolution gamma n st l Hc Ho) as (f & F0 & Fr & Fi). exists f. split; [done|]. split; [done|].
  pose proof (proj1 (proj1 (dc_setup _ _ _ _ _ _ Hc))) as Hm.
  assert (H : forall k, k <= length l -> content (cx_mesh cx) (vf_int (ts_phi (f k))) = (content (cx_mesh cx) (vf_int (ts_phi st)) +
      vsum_over k (fun i => at0 l.*2 i * boundary_influx (cx_mesh cx) (cx_dc cx) (ts_phi (f i))))%Qc).
  { induction k as [|k IH]; intros Hk.
    - rewrite F0, vsum_over_0. cbn [vzero Qc_value]. ring.
    - destruct (lookup_lt_is_Some_2 l k ltac:(lia)) as ([t dt] & E). rewrite vsum_over_S. cbn [vadd Qc_value].
      assert (Edt : at0 l.*2 k = dt) by (unfold at0; by rewrite list_lookup_fmap, E).
      destruct (Fi k t dt E) as [HA _]. rewrite Edt, (step_content _ Hm _ _ _ _ HA), (IH ltac:(lia)). ring. }
  by apply H.
Qed.
Print Assumptions C102_conservation.

(** Bounds are kept if the diffusion number of every cell is at most 1. *)
Theorem C102_bounded : forall dbg cx bcs lin fvSchemes fvSolution gamma n st l lo hi,
  diffusion_case cx bcs fvSchemes gamma n st -> old_of st = vf_int (ts_phi st) ->
  face_positive (cx_mesh cx) (cx_dc cx) ->
  (forall t dt c, (t, dt) ∈ l -> c < nCells (cx_mesh cx) -> (0 <= dt)%Qc /\ (diffusion_number (cx_mesh cx) (cx_dc cx) dt c <= 1)%Qc) ->
  diffusion_conditions (cx_mesh cx) lo hi bcs ->
  cells_between (cx_mesh cx) lo hi (vf_int (ts_phi st)) -> boundary_within (cx_mesh cx) lo hi (ts_phi st) ->
  exists st', surely (run_program (explicit_diffusion gamma n) dbg cx n bcs lin fvSchemes fvSolution l st) st' /\
    cells_between (cx_mesh cx) lo hi (vf_int (ts_phi st')) /\ boundary_within (cx_mesh cx) lo hi (ts_phi st').
Proof.
  intros dbg cx bcs lin fvSchemes fvSolution gamma n st l lo hi Hc Ho Hpos Hdt Hbc H0 Hb0.
  destruct (C102_explicit_diffusion dbg cx bcs lin fvSchemes fvSolution gamma n st l Hc Ho) as (f & F0 & Fr & Fi). eexists. split; [exact Fr|].
  pose proof (proj1 (proj1 (dc_setup _ _ _ _ _ _ Hc))) as Hm.
  assert (H : forall k, k <= length l -> cells_between (cx_mesh cx) lo hi (vf_int (ts_phi (f k))) /\ boundary_within (cx_mesh cx) lo hi (ts_phi (f k))).
  { induction k as [|k IH]; intros Hk; [by rewrite F0|]. destruct (IH ltac:(lia)) as [I1 I2].
    destruct (lookup_lt_is_Some_2 l k ltac:(lia)) as ([t dt] & E). destruct (Fi k t dt E) as [HA [HB _]].
    assert (Hin : (t, dt) ∈ l) by (by apply (elem_of_list_lookup_2 _ k)).
    assert (I1' : cells_between (cx_mesh cx) lo hi (vf_int (ts_phi (f (S k))))).
    { intros c Hcc. assert (Hnum : forall c, c < nCells (cx_mesh cx) -> (diffusion_number (cx_mesh cx) (cx_dc cx) dt c <= 1)%Qc) by (intros d Hd; by apply (Hdt t dt d)).
      destruct (Hdt t dt c Hin Hcc) as [Hp _]. split.
      - by apply (step_lower (cx_mesh cx) Hm (cx_dc cx) dt (ts_phi (f k)) _ lo hi).
      - by apply (step_upper (cx_mesh cx) Hm (cx_dc cx) dt (ts_phi (f k)) _ lo hi). }
    split; [done|]. intros b Hb. destruct (Hbc b Hb) as (p & bc & Hbin & Hpb & Hk2).
    pose proof (vt_fc _ Hm b Hb) as Hfc.
    assert (HV : forall v, vol_prescribes (cx_mesh cx) p bc (ts_phi (f (S k))) (Value b) = Some (inl v) -> at0 (vf_value (ts_phi (f (S k)))) b = v).
    { intros v Hv. specialize (HB p bc (Value b) _ Hbin Hv). cbn in HB. unfold at0. destruct (vf_value (ts_phi (f (S k))) !! b); [|done]. cbn in HB. by injection HB as ->. }
    destruct bc as [v|g| | |]; try done; cbn [vol_prescribes] in HV; rewrite decide_True in HV by done.
    - rewrite (HV v eq_refl). done.
    - subst g. rewrite (HV _ eq_refl). unfold at_face_cell. change (@atV Qc Qc_value) with at0. cbn [vadd vscale Qc_value]. rewrite Qcmult_0_r, Qcplus_0_r. by apply I1'.
    - rewrite (HV _ eq_refl). unfold at_face_cell. change (@atV Qc Qc_value) with at0. by apply I1'. }
  by apply H.
Qed.
Print Assumptions C102_bounded.

(** ... and for a step the condition is sharp: it holds in every cell exactly if
    the step keeps all bounds of all fields. *)
Theorem C102_sharp : forall m dc dt, valid_topology m -> face_positive m dc -> (0 <= dt)%Qc ->
  (forall c, c < nCells m -> (diffusion_number m dc dt c <= 1)%Qc) <->
  (forall lo hi phi x, field_ok m phi -> boundary_ok m phi -> cells_between m lo hi (vf_int phi) -> boundary_within m lo hi phi ->
     diffused_step m dc dt phi x -> cells_between m lo hi x).
Proof.
  intros m dc dt Hm Hpos Hdt. split.
  - intros Hnum lo hi phi x _ _ H1 H2 Hx c Hc. split; [by apply (step_lower m Hm dc dt phi x lo hi)|by apply (step_upper m Hm dc dt phi x lo hi)].
  - intros Hall c Hc. set (z := replicate (nBoundaryFaces m) 0%Qc).
    set (spike := map (fun d => if decide (d = c) then 1%Qc else 0%Qc) (seq 0 (nCells m))).
    set (phi := VolField spike z z z z).
    assert (Hs : forall d, d < nCells m -> at0 spike d = if decide (d = c) then 1%Qc else 0%Qc).
    { intros d Hd. unfold spike, at0. change (map ?f ?l) with (f <$> l). rewrite list_lookup_fmap, lookup_seq_lt by done. done. }
    assert (Hz : forall b, b < nBoundaryFaces m -> at0 z b = 0%Qc).
    { intros b Hb. unfold z, at0. by rewrite lookup_replicate_2. }
    destruct (step_exists m Hm dc dt phi) as (x & Hx).
    destruct (Hall 0%Qc 1%Qc phi x) with (c := c) as [Hlo _]; try done.
    + split; cbn [vf_int vf_value phi]; [unfold spike; by rewrite map_length, seq_length|unfold z; by rewrite replicate_length].
    + repeat split; cbn; unfold z; rewrite replicate_length; done.
    + intros d Hd. cbn [vf_int phi]. rewrite Hs by done. destruct (decide _); split; vm_compute; discriminate.
    + intros b Hb. cbn [vf_value phi]. rewrite Hz by done. split; vm_compute; discriminate.
    + rewrite (spike_step m Hm dc dt c phi x Hc Hs Hz Hx) in Hlo. revert Hlo. generalize (diffusion_number m dc dt c). qc_lra.
Qed.
Print Assumptions C102_sharp.

(** The result does not depend on gamma, on the executor, on names or on
    anything else but mesh, distances, boundary conditions and step sizes. *)
Lemma prescriber m (bcs : list (patch * volBC Qc)) phi en :
  (exists p bc x, (p, bc) ∈ bcs /\ vol_prescribes m p bc phi en = Some x) \/ (forall p bc, (p, bc) ∈ bcs -> vol_prescribes m p bc phi en = None).
Proof.
  induction bcs as [|[p bc] bcs [IH|IH]]; [right; intros p bc H; by apply elem_of_nil in H| |].
  - destruct IH as (q & qc & x & H1 & H2). left. exists q, qc, x. split; [by right|done].
  - destruct (vol_prescribes m p bc phi en) as [x|] eqn:E; [left; exists p, bc, x; split; [left|done]|].
    right. intros q qc [[= -> ->]|H]%elem_of_cons; [done|by apply IH].
Qed.
Lemma prescribes_int m p bc (phi psi : volField Qc) en : vf_int phi = vf_int psi -> vol_prescribes m p bc phi en = vol_prescribes m p bc psi en.
Proof. intros E. destruct en; cbn [vol_prescribes]; try done; destruct (decide _); try done; destruct bc; try done; unfold at_face_cell; by rewrite E. Qed.
Lemma read_ext (phi psi : volField Qc) : (forall en, read phi en = read psi en) -> phi = psi.
Proof.
  intros H. assert (inl_inj' : forall (a b : option Qc), (inl <$> a : option (Qc + Qc)) = inl <$> b -> a = b) by (intros [a|] [b|] E; cbn in E; congruence).
  assert (inr_inj' : forall (a b : option Qc), (inr <$> a : option (Qc + Qc)) = inr <$> b -> a = b) by (intros [a|] [b|] E; cbn in E; congruence).
  destruct phi, psi. f_equal; apply list_eq; intros i.
  - exact (inl_inj' _ _ (H (Internal i))).
  - exact (inl_inj' _ _ (H (Value i))).
  - exact (inl_inj' _ _ (H (RefValue i))).
  - exact (inr_inj' _ _ (H (ValueFraction i))).
  - exact (inl_inj' _ _ (H (RefGrad i))).
Qed.
Lemma corrected_unique cx1 cx2 bcs (phi phi1 phi2 : volField Qc) : cx_mesh cx1 = cx_mesh cx2 -> boundary_corrected cx1 bcs phi phi1 -> boundary_corrected cx2 bcs phi phi2 ->
  vf_int phi1 = vf_int phi2 -> phi1 = phi2.
Proof.
  intros Em [A1 A2] [B1 B2] E. rewrite <- Em in *. apply read_ext. intros en.
  destruct (prescriber (cx_mesh cx1) bcs phi1 en) as [(p & bc & x & H1 & H2)|H].
  - rewrite (A1 p bc en x H1 H2). symmetry. apply (B1 p bc en x H1). by rewrite <- (prescribes_int _ _ _ phi1).
  - destruct en; try (rewrite A2, B2; [done|..]; try done; intros p bc Hp; rewrite <- (prescribes_int _ _ _ phi1) by done; by apply H).
    cbn. by rewrite E.
Qed.
Lemma step_unique m dc dt phi x y : valid_topology m -> diffused_step m dc dt phi x -> diffused_step m dc dt phi y -> x = y.
Proof.
  intros Hm [L1 H1] [L2 H2]. apply (list_eq_same_length _ _ (nCells m)); [done..|]. intros c a b Hc Ha Hb.
  specialize (H1 c Hc). specialize (H2 c Hc). unfold at0 in H1 at 2. unfold at0 in H2 at 2. rewrite Ha in H1. rewrite Hb in H2. cbn in H1, H2. rewrite <- H2 in H1.
  pose proof (vt_vol m Hm c Hc) as HV. revert HV H1. generalize (at0 (cellVolumes m) c) (at0 (vf_int phi) c). intros V o HV E.
  assert (V <> 0)%Qc by (intros ->; by apply Qclt_not_eq in HV).
  transitivity (o + V * (a - o) / V)%Qc; [field; done|]. rewrite E. field. done.
Qed.
Theorem C102_unique_result : forall dbg1 dbg2 cx1 cx2 bcs lin1 lin2 schemes1 schemes2 solution1 solution2 gamma1 gamma2 n1 n2 st l,
  diffusion_case cx1 bcs schemes1 gamma1 n1 st -> diffusion_case cx2 bcs schemes2 gamma2 n2 st -> old_of st = vf_int (ts_phi st) ->
  cx_mesh cx1 = cx_mesh cx2 -> cx_dc cx1 = cx_dc cx2 ->
  exists st1 st2, surely (run_program (explicit_diffusion gamma1 n1) dbg1 cx1 n1 bcs lin1 schemes1 solution1 l st) st1 /\
    surely (run_program (explicit_diffusion gamma2 n2) dbg2 cx2 n2 bcs lin2 schemes2 solution2 l st) st2 /\ ts_phi st1 = ts_phi st2.
Proof.
  intros dbg1 dbg2 cx1 cx2 bcs lin1 lin2 schemes1 schemes2 solution1 solution2 gamma1 gamma2 n1 n2 st l Hc1 Hc2 Ho Em Ed.
  destruct (C102_explicit_diffusion dbg1 cx1 bcs lin1 schemes1 solution1 gamma1 n1 st l Hc1 Ho) as (f & F0 & Fr & Fi).
  destruct (C102_explicit_diffusion dbg2 cx2 bcs lin2 schemes2 solution2 gamma2 n2 st l Hc2 Ho) as (g & G0 & Gr & Gi).
  eexists _, _. split; [exact Fr|]. split; [exact Gr|].
  assert (H : forall k, k <= length l -> ts_phi (f k) = ts_phi (g k)).
  { induction k as [|k IH]; intros Hk; [by rewrite F0, G0|].
    destruct (lookup_lt_is_Some_2 l k ltac:(lia)) as ([t dt] & E). destruct (Fi k t dt E) as [A1 A2], (Gi k t dt E) as [B1 B2].
    rewrite <- IH in B1, B2 by lia. rewrite <- Em, <- Ed in B1. apply (corrected_unique cx1 cx2 bcs (ts_phi (f k))); try done.
    by eapply step_unique; [exact (proj1 (proj1 (dc_setup _ _ _ _ _ _ Hc1)))|..]. }
  by apply H.
Qed.
Print Assumptions C102_unique_result.

(** * C103 *)
(** Two runs of the implicit transport program that differ in the initial values
    and prescribed boundary values stay as close as these were. *)
Theorem C103_max_norm : forall dbg1 dbg2 cx1 cx2 bcs1 bcs2 lin1 lin2 schemes1 schemes2 solution1 solution2 flux1 flux2 gamma1 gamma2 n1 n2 st1 st2 l r1 r2 eps,
  implicit_case cx1 bcs1 lin1 schemes1 flux1 gamma1 n1 st1 -> implicit_case cx2 bcs2 lin2 schemes2 flux2 gamma2 n2 st2 ->
  old_of st1 = vf_int (ts_phi st1) -> old_of st2 = vf_int (ts_phi st2) ->
  cx_mesh cx1 = cx_mesh cx2 -> cx_dc cx1 = cx_dc cx2 -> cx_surf cx1 flux1 = cx_surf cx2 flux2 -> cx_surf cx1 gamma1 = cx_surf cx2 gamma2 ->
  (forall t dt, (t, dt) ∈ l -> (0 < dt)%Qc) ->
  diffusive (cx_mesh cx1) (cx_surf cx1 gamma1) (cx_dc cx1) -> divergence_free (cx_mesh cx1) (cx_surf cx1 flux1) ->
  inflow_boundary (cx_mesh cx1) (cx_surf cx1 flux1) (ts_phi st1) ->
  boundary_apart (cx_mesh cx1) eps (ts_phi st1) (ts_phi st2) -> cells_apart (cx_mesh cx1) eps (vf_int (ts_phi st1)) (vf_int (ts_phi st2)) ->
  run_program (implicit_transport flux1 gamma1 n1) dbg1 cx1 n1 bcs1 lin1 schemes1 solution1 l st1 r1 ->
  run_program (implicit_transport flux2 gamma2 n2) dbg2 cx2 n2 bcs2 lin2 schemes2 solution2 l st2 r2 ->
  exists st1' st2', r1 = Ok st1' /\ r2 = Ok st2' /\ cells_apart (cx_mesh cx1) eps (vf_int (ts_phi st1')) (vf_int (ts_phi st2')).
Proof.
  intros dbg1 dbg2 cx1 cx2 bcs1 bcs2 lin1 lin2 schemes1 schemes2 solution1 solution2 flux1 flux2 gamma1 gamma2 n1 n2 st1 st2 l r1 r2 eps
    Hc1 Hc2 Ho1 Ho2 Em Ed Ef Eg Hdt Hdiff Hdiv Hin Hba Hca Hr1 Hr2.
  destruct (implicit_steps _ _ _ _ _ _ _ _ _ _ _ _ Hc1 Ho1 Hr1) as (f & F0 & -> & FB & Fi).
  destruct (implicit_steps _ _ _ _ _ _ _ _ _ _ _ _ Hc2 Ho2 Hr2) as (g & G0 & -> & GB & Gi).
  eexists _, _. split; [done|]. split; [done|].
  pose proof (proj1 (proj1 (ic_setup _ _ _ _ _ _ _ _ Hc1))) as Hm.
  assert (Hin2 : inflow_boundary (cx_mesh cx1) (cx_surf cx1 flux1) (ts_phi st2)).
  { intros b Hb. destruct (Hba b Hb) as (E & _). rewrite <- E. by apply Hin. }
  assert (HL : forall k, k <= length l -> length (vf_int (ts_phi (f k))) = nCells (cx_mesh cx1) /\ length (vf_int (ts_phi (g k))) = nCells (cx_mesh cx1)).
  { intros [|k] Hk.
    - rewrite F0, G0. split; [apply (ic_state _ _ _ _ _ _ _ _ Hc1)|]. rewrite Em. apply (ic_state _ _ _ _ _ _ _ _ Hc2).
    - destruct (lookup_lt_is_Some_2 l k ltac:(lia)) as ([t dt] & E). split; [apply (Fi k t dt E)|]. rewrite Em. apply (Gi k t dt E). }
  assert (H : forall k, k <= length l -> cells_apart (cx_mesh cx1) eps (vf_int (ts_phi (f k))) (vf_int (ts_phi (g k)))).
  { induction k as [|k IH]; intros Hk; [by rewrite F0, G0|].
    destruct (lookup_lt_is_Some_2 l k ltac:(lia)) as ([t dt] & E). specialize (Fi k t dt E). specialize (Gi k t dt E). rewrite <- Em, <- Ed, <- Ef, <- Eg in Gi.
    assert (Hp : (0 < dt)%Qc) by (by apply (Hdt t dt), (elem_of_list_lookup_2 _ k)). specialize (IH ltac:(lia)). destruct (HL k ltac:(lia)) as [L1 L2].
    intros c Hcc. split.
    - apply (transported_one_sided (cx_mesh cx1) Hm (cx_surf cx1 flux1) (cx_surf cx1 gamma1) (cx_dc cx1) Hdiff dt (ts_phi st1) (ts_phi st2) (vf_int (ts_phi (f k))) (vf_int (ts_phi (g k)))); try done.
      + intros b Hb. destruct (Hba b Hb) as (B1 & B2 & B3). split; [done|]. split; [|done]. destruct B2 as [B2|[B2 _]]; [by left|by right].
      + intros d Hd. by apply IH.
    - apply (transported_one_sided (cx_mesh cx1) Hm (cx_surf cx1 flux1) (cx_surf cx1 gamma1) (cx_dc cx1) Hdiff dt (ts_phi st2) (ts_phi st1) (vf_int (ts_phi (g k))) (vf_int (ts_phi (f k)))); try done.
      + intros b Hb. destruct (Hba b Hb) as (B1 & B2 & B3). split; [done|]. split; [|done]. rewrite <- B1. destruct B2 as [B2|[_ B2]]; [by left|by right].
      + intros d Hd. by apply IH. }
  by apply H.
Qed.
Print Assumptions C103_max_norm.

(** With the same boundary data, and values prescribed wherever fluid enters, the
    volume-weighted squared distance never grows. *)
Theorem C103_distance : forall dbg1 dbg2 cx1 cx2 bcs1 bcs2 lin1 lin2 schemes1 schemes2 solution1 solution2 flux1 flux2 gamma1 gamma2 n1 n2 st1 st2 l r1 r2,
  implicit_case cx1 bcs1 lin1 schemes1 flux1 gamma1 n1 st1 -> implicit_case cx2 bcs2 lin2 schemes2 flux2 gamma2 n2 st2 ->
  old_of st1 = vf_int (ts_phi st1) -> old_of st2 = vf_int (ts_phi st2) ->
  cx_mesh cx1 = cx_mesh cx2 -> cx_dc cx1 = cx_dc cx2 -> cx_surf cx1 flux1 = cx_surf cx2 flux2 -> cx_surf cx1 gamma1 = cx_surf cx2 gamma2 ->
  (forall t dt, (t, dt) ∈ l -> (0 < dt)%Qc) ->
  diffusive (cx_mesh cx1) (cx_surf cx1 gamma1) (cx_dc cx1) -> divergence_free (cx_mesh cx1) (cx_surf cx1 flux1) ->
  inflow_boundary (cx_mesh cx1) (cx_surf cx1 flux1) (ts_phi st1) -> inflow_values (cx_mesh cx1) (cx_surf cx1 flux1) (ts_phi st1) ->
  boundary_apart (cx_mesh cx1) 0 (ts_phi st1) (ts_phi st2) ->
  run_program (implicit_transport flux1 gamma1 n1) dbg1 cx1 n1 bcs1 lin1 schemes1 solution1 l st1 r1 ->
  run_program (implicit_transport flux2 gamma2 n2) dbg2 cx2 n2 bcs2 lin2 schemes2 solution2 l st2 r2 ->
  exists st1' st2', r1 = Ok st1' /\ r2 = Ok st2' /\
    (square_distance (cx_mesh cx1) (vf_int (ts_phi st1')) (vf_int (ts_phi st2')) <=
     square_distance (cx_mesh cx1) (vf_int (ts_phi st1)) (vf_int (ts_phi st2)))%Qc.
Proof.
  intros dbg1 dbg2 cx1 cx2 bcs1 bcs2 lin1 lin2 schemes1 schemes2 solution1 solution2 flux1 flux2 gamma1 gamma2 n1 n2 st1 st2 l r1 r2
    Hc1 Hc2 Ho1 Ho2 Em Ed Ef Eg Hdt Hdiff Hdiv Hin Hiv Hba Hr1 Hr2.
  destruct (implicit_steps _ _ _ _ _ _ _ _ _ _ _ _ Hc1 Ho1 Hr1) as (f & F0 & -> & FB & Fi).
  destruct (implicit_steps _ _ _ _ _ _ _ _ _ _ _ _ Hc2 Ho2 Hr2) as (g & G0 & -> & GB & Gi).
  eexists _, _. split; [done|]. split; [done|].
  pose proof (proj1 (proj1 (ic_setup _ _ _ _ _ _ _ _ Hc1))) as Hm.
  assert (H : forall k, k <= length l -> (square_distance (cx_mesh cx1) (vf_int (ts_phi (f k))) (vf_int (ts_phi (g k))) <=
     square_distance (cx_mesh cx1) (vf_int (ts_phi st1)) (vf_int (ts_phi st2)))%Qc).
  { induction k as [|k IH]; intros Hk; [rewrite F0, G0; apply Qcle_refl|].
    destruct (lookup_lt_is_Some_2 l k ltac:(lia)) as ([t dt] & E). specialize (Fi k t dt E). specialize (Gi k t dt E). rewrite <- Em, <- Ed, <- Ef, <- Eg in Gi.
    assert (Hp : (0 < dt)%Qc) by (by apply (Hdt t dt), (elem_of_list_lookup_2 _ k)).
    eapply Qcle_trans; [|apply IH; lia].
    apply (transported_distance (cx_mesh cx1) Hm (cx_surf cx1 flux1) (cx_surf cx1 gamma1) (cx_dc cx1) Hdiff Hdiv (ts_phi st1) (ts_phi st2) Hin Hiv) with (dt := dt); try done.
    intros b Hb. destruct (Hba b Hb) as (B1 & B2 & B3). split; [done|]. split; [|done]. destruct B2 as [B2|[B2 B4]]; [by left|right].
    revert B2 B4. generalize (at0 (vf_refValue (ts_phi st1)) b) (at0 (vf_refValue (ts_phi st2)) b). intros u v P Q. apply Qcle_antisym; [revert P|revert Q]; qc_lra. }
  by apply H.
Qed.
Print Assumptions C103_distance.

(** * Cases *)
(** fork3, one step of size 1/2: the diffusion number is 1 in every cell. *)
Example C102_instance : diffusion_case cxD bcsT (schemesD "forwardEuler") 1 0 (stD x0D) /\ face_positive fork3 (cx_dc cxD) /\
  (forall c, c < 3 -> (diffusion_number fork3 (cx_dc cxD) (Q2Qc (1 # 2)) c <= 1)%Qc) /\ ~ (diffusion_number fork3 (cx_dc cxD) 1 0 <= 1)%Qc /\
  diffusion_conditions fork3 1%Qc (Q2Qc 7) bcsT /\ boundary_within fork3 1%Qc (Q2Qc 7) (ts_phi (stD x0D)) /\
  exists st', surely (run_program (explicit_diffusion 1 0) true cxD 0 bcsT solve_exactly (schemesD "forwardEuler") [] [(0%Qc, Q2Qc (1 # 2))] (stD x0D)) st' /\
    vf_int (ts_phi st') = [Q2Qc 4; Q2Qc 4; Q2Qc 2] /\ cells_between fork3 1%Qc (Q2Qc 7) (vf_int (ts_phi st')).
Proof.
  assert (Hc : diffusion_case cxD bcsT (schemesD "forwardEuler") 1 0 (stD x0D)).
  { split; [apply cxD_setup|split; [repeat split|]; done|done|eexists; vm_compute; reflexivity|eexists; split; vm_compute; reflexivity]. }
  assert (Hn : forall c, c < 3 -> (diffusion_number fork3 (cx_dc cxD) (Q2Qc (1 # 2)) c <= 1)%Qc) by (cells3; vm_compute; discriminate).
  assert (Hp : face_positive fork3 (cx_dc cxD)) by (cells3; split; vm_compute; discriminate).
  assert (Hb : diffusion_conditions fork3 1%Qc (Q2Qc 7) bcsT).
  { cells3.
    + exists (Patch 0 0 1), (FixedValue (Q2Qc 7)). split; [left|]. split; [cbv; lia|]. split; vm_compute; discriminate.
    + exists (Patch 1 1 2), (FixedGradient 0%Qc). split; [right; left|]. split; [cbv; lia|]. done. }
  assert (Hw : boundary_within fork3 1%Qc (Q2Qc 7) (ts_phi (stD x0D))) by (cells3; split; vm_compute; discriminate).
  split; [done|]. split; [done|]. split; [done|]. split; [intros H; by vm_compute in H|]. split; [done|]. split; [done|].
  destruct (C102_explicit_diffusion true cxD bcsT solve_exactly (schemesD "forwardEuler") [] 1 0 (stD x0D) [(0%Qc, Q2Qc (1 # 2))] Hc eq_refl) as (f & F0 & Fr & Fi).
  destruct (C102_bounded true cxD bcsT solve_exactly (schemesD "forwardEuler") [] 1 0 (stD x0D) [(0%Qc, Q2Qc (1 # 2))] 1%Qc (Q2Qc 7) Hc eq_refl) as (st' & Hs & HB & _); [exact Hp| |exact Hb| |exact Hw|].
  - intros t dt c Ht Hcc. apply elem_of_list_singleton in Ht. injection Ht as -> ->. split; [vm_compute; discriminate|by apply Hn].
  - cells3; split; vm_compute; discriminate.
  - exists st'. split; [done|]. split; [|done]. assert (st' = f 1) as ->.
    { pose proof (proj1 (Fr (Ok st'))) as HH. assert (Ok st' = Ok (f 1)) as E; [apply HH; by apply Hs|]. by injection E. }
    destruct (Fi 0 _ _ eq_refl) as [[L1 V1] _]. rewrite F0 in V1.
    apply (list3 (vf_int (ts_phi (f 1)))); [done|..]; eapply one_volume.
    1: exact (V1 0 ltac:(cbn; lia)). 2: exact (V1 1 ltac:(cbn; lia)). 3: exact (V1 2 ltac:(cbn; lia)).
    all: apply Qc_is_canon; vm_compute; reflexivity.
Qed.
(** Two runs of the case of C91; the second starts 1 higher in one cell. *)
Definition y0D : list Qc := [1%Qc; Q2Qc 5; Q2Qc 4].
Definition y1D : list Qc := [Q2Qc (71 # 17); Q2Qc (197 # 34); Q2Qc (70 # 17)].
Example C103_instance :
  run_program (implicit_transport 0 1 0) false cxD 0 bcsT solve_exactly (schemesD "backwardEuler") [] [(0, 1)]%Qc (stD x0D) (Ok (stD x1D)) /\
  run_program (implicit_transport 0 1 0) false cxD 0 bcsT solve_exactly (schemesD "backwardEuler") [] [(0, 1)]%Qc (stD y0D) (Ok (stD y1D)) /\
  inflow_values fork3 (cx_surf cxD 0) (ts_phi (stD x0D)) /\ boundary_apart fork3 0 (ts_phi (stD x0D)) (ts_phi (stD y0D)) /\ cells_apart fork3 1 x0D y0D /\
  cells_apart fork3 1 x1D y1D /\ (square_distance fork3 x1D y1D <= square_distance fork3 x0D y0D)%Qc /\ square_distance fork3 x0D y0D = 1%Qc.
Proof.
  assert (Hr : run_program (implicit_transport 0 1 0) false cxD 0 bcsT solve_exactly (schemesD "backwardEuler") [] [(0, 1)]%Qc (stD y0D) (Ok (stD y1D))).
  { apply (C91_implicit_complete false cxD bcsT solve_exactly (schemesD "backwardEuler") [] 0 1 0 [(0, 1)]%Qc (fun i => match i with 0 => stD y0D | _ => stD y1D end)).
    - by apply cxD_case.
    - apply solve_exactly_complete.
    - intros [|i] t dt E; [|done]. injection E as <- <-. split; [|split; [done|repeat split]]. split; [done|].
      cells3; unfold cell_law; apply Qc_is_canon; vm_compute; reflexivity. }
  assert (Hi : inflow_values fork3 (cx_surf cxD 0) (ts_phi (stD x0D))).
  { cells3; intros Hs; [done|]. by vm_compute in Hs. }
  assert (H0 : boundary_apart fork3 0 (ts_phi (stD x0D)) (ts_phi (stD y0D))).
  { cells3; (split; [done|]; split; [|done]); [right|by left]. split; vm_compute; discriminate. }
  assert (H1 : boundary_apart fork3 1 (ts_phi (stD x0D)) (ts_phi (stD y0D))).
  { cells3; (split; [done|]; split; [|done]); [right|by left]. split; vm_compute; discriminate. }
  assert (Ha : cells_apart fork3 1 x0D y0D) by (cells3; split; vm_compute; discriminate).
  assert (Hdt : forall t dt, (t, dt) ∈ [(0, 1)]%Qc -> (0 < dt)%Qc).
  { intros t dt Ht. apply elem_of_list_singleton in Ht. injection Ht as -> ->. vm_compute. reflexivity. }
  destruct C91_instance as [A1 A2]. destruct cxD_bounds as (B1 & B2 & B3 & B4).
  split; [exact A2|]. split; [exact Hr|]. split; [exact Hi|]. split; [exact H0|]. split; [exact Ha|]. split; [|split].
  - destruct (C103_max_norm false false cxD cxD bcsT bcsT solve_exactly solve_exactly (schemesD "backwardEuler") (schemesD "backwardEuler") [] [] 0 0 1 1 0 0 (stD x0D) (stD y0D) [(0, 1)]%Qc
      (Ok (stD x1D)) (Ok (stD y1D)) 1%Qc) as (s1 & s2 & E1 & E2 & H);
      [exact A1|by apply cxD_case|reflexivity|reflexivity|reflexivity|reflexivity|reflexivity|reflexivity|exact Hdt|exact B1|exact B2|apply B3|..];
      [first [exact H1|exact Hi]|first [exact Ha|exact H0]|exact A2|exact Hr|].
    injection E1 as <-. injection E2 as <-. exact H.
  - destruct (C103_distance false false cxD cxD bcsT bcsT solve_exactly solve_exactly (schemesD "backwardEuler") (schemesD "backwardEuler") [] [] 0 0 1 1 0 0 (stD x0D) (stD y0D) [(0, 1)]%Qc
      (Ok (stD x1D)) (Ok (stD y1D))) as (s1 & s2 & E1 & E2 & H);
      [exact A1|by apply cxD_case|reflexivity|reflexivity|reflexivity|reflexivity|reflexivity|reflexivity|exact Hdt|exact B1|exact B2|apply B3|..];
      [first [exact H1|exact Hi]|first [exact Ha|exact H0]|exact A2|exact Hr|].
    injection E1 as <-. injection E2 as <-. exact H.
  - apply Qc_is_canon; vm_compute; reflexivity.
Qed.
