(** C126: the total distance between two runs of a transport or diffusion program
    does not grow. *)
From Coq Require Import Qcabs.
From Verif Require Import Base Dict Registry Par Exec Reduce ReduceProofs Fields FieldsProofs Value Kernel Mesh MeshSpec Coeff FV FVSpec Sparsity SparsitySpec SparsityDet Assembly AssemblySpec AssemblyProps
  Boundary Properties_Boundary CoNum Properties_CoNum ExampleMesh Properties_Sparsity Properties_Assembly Dsl DslSpec DslHeapProofs DslProofs DslAssembly Properties_Dsl Properties_DslAssembly
  TimeInt TimeSpec TimeIntProofs TimeIntSteps Properties_TimeInt FrontEnd Transport TransportProofs QcLra Properties_Transport Diffusion DiffusionProofs Properties_Diffusion TotalDistance.
Local Open Scope nat_scope.

(** Two fields corrected by the same condition of a face have the same value on it,
    or the same step from the cell to it. *)
Lemma corrected_alike cx1 cx2 bcs phi phi' psi psi' p bc b :
  cx_mesh cx1 = cx_mesh cx2 -> boundary_corrected cx1 bcs phi phi' -> boundary_corrected cx2 bcs psi psi' ->
  (p, bc) ∈ bcs -> in_patch p b ->
  match bc with FixedValue _ => same_value phi' psi' b | FixedGradient _ | Extrapolated => same_step (cx_mesh cx1) phi' psi' b | _ => True end.
Proof.
  intros Em [H1 _] [H2 _] Hin Hp.
  assert (V1 : forall v, vol_prescribes (cx_mesh cx1) p bc phi' (Value b) = Some (inl v) -> at0 (vf_value phi') b = v).
  { intros v Hv. specialize (H1 p bc (Value b) _ Hin Hv). cbn in H1. unfold at0. destruct (vf_value phi' !! b); [|done]. cbn in H1. by injection H1 as ->. }
  assert (V2 : forall v, vol_prescribes (cx_mesh cx1) p bc psi' (Value b) = Some (inl v) -> at0 (vf_value psi') b = v).
  { intros v Hv. rewrite Em in Hv. specialize (H2 p bc (Value b) _ Hin Hv). cbn in H2. unfold at0. destruct (vf_value psi' !! b); [|done]. cbn in H2. by injection H2 as ->. }
  destruct bc as [v|g| | |]; cbn [vol_prescribes] in V1, V2; try done; rewrite decide_True in V1, V2 by done; unfold same_value, same_step; rewrite (V1 _ eq_refl), (V2 _ eq_refl).
  - done.
  - unfold at_face_cell. change (@atV Qc Qc_value) with at0. cbn [vadd vscale Qc_value]. ring.
  - unfold at_face_cell. change (@atV Qc Qc_value) with at0. ring.
Qed.

(** * C126 *)
(** Explicit upwind convection: two runs with the same flux and the same boundary
    conditions, prescribing the value where fluid enters and the gradient where it
    leaves, with a Courant number of at most 1 in every cell. *)
Theorem C126_upwind : forall dbg1 dbg2 cx1 cx2 bcs lin1 lin2 schemes1 schemes2 solution1 solution2 flux1 flux2 n1 n2 st1 st2 l,
  explicit_case cx1 bcs schemes1 flux1 n1 st1 -> explicit_case cx2 bcs schemes2 flux2 n2 st2 ->
  old_of st1 = vf_int (ts_phi st1) -> old_of st2 = vf_int (ts_phi st2) ->
  cx_mesh cx1 = cx_mesh cx2 -> cx_weights cx1 = cx_weights cx2 -> cx_surf cx1 flux1 = cx_surf cx2 flux2 ->
  (forall t dt c, (t, dt) ∈ l -> c < nCells (cx_mesh cx1) -> (0 < dt)%Qc /\ (cell_courant (cx_mesh cx1) (cx_surf cx1 flux1) dt c <= 1)%Qc) ->
  divergence_free (cx_mesh cx1) (cx_surf cx1 flux1) ->
  (forall b, b < nBoundaryFaces (cx_mesh cx1) -> at0 (cx_weights cx1) (nInternalFaces (cx_mesh cx1) + b) = 1%Qc) ->
  flow_prescribed (cx_mesh cx1) (cx_surf cx1 flux1) bcs -> boundary_alike_flow (cx_mesh cx1) (cx_surf cx1 flux1) (ts_phi st1) (ts_phi st2) ->
  exists st1' st2',
    surely (run_program (explicit_transport flux1 n1) dbg1 cx1 n1 bcs lin1 schemes1 solution1 l st1) st1' /\
    surely (run_program (explicit_transport flux2 n2) dbg2 cx2 n2 bcs lin2 schemes2 solution2 l st2) st2' /\
    (total_distance (cx_mesh cx1) (vf_int (ts_phi st1')) (vf_int (ts_phi st2')) <=
     total_distance (cx_mesh cx1) (vf_int (ts_phi st1)) (vf_int (ts_phi st2)))%Qc.
Proof.
  intros dbg1 dbg2 cx1 cx2 bcs lin1 lin2 schemes1 schemes2 solution1 solution2 flux1 flux2 n1 n2 st1 st2 l Hc1 Hc2 Ho1 Ho2 Em Ew Ef Hdt Hdiv Hw Hbc Hb0.
  destruct (C95_explicit_transport dbg1 cx1 bcs lin1 schemes1 solution1 flux1 n1 st1 l Hc1 Ho1) as (f & F0 & Fr & Fi).
  destruct (C95_explicit_transport dbg2 cx2 bcs lin2 schemes2 solution2 flux2 n2 st2 l Hc2 Ho2) as (g & G0 & Gr & Gi).
  pose proof (proj1 (proj1 (ec_setup _ _ _ _ _ _ Hc1))) as Hm.
  eexists _, _. split; [exact Fr|]. split; [exact Gr|].
  assert (H : forall k, k <= length l -> boundary_alike_flow (cx_mesh cx1) (cx_surf cx1 flux1) (ts_phi (f k)) (ts_phi (g k)) /\
    (total_distance (cx_mesh cx1) (vf_int (ts_phi (f k))) (vf_int (ts_phi (g k))) <= total_distance (cx_mesh cx1) (vf_int (ts_phi st1)) (vf_int (ts_phi st2)))%Qc).
  { induction k as [|k IH]; intros Hk; [rewrite F0, G0; split; [done|apply Qcle_refl]|]. destruct (IH ltac:(lia)) as [I1 I2].
    destruct (lookup_lt_is_Some_2 l k ltac:(lia)) as ([t dt] & E). destruct (Fi k t dt E) as [HA HB], (Gi k t dt E) as [HA2 HB2].
    rewrite <- Em, <- Ef, <- Ew in HA2. split.
    - intros b Hb. destruct (Hbc b Hb) as (p & bc & Hin & Hpb & Hk2). pose proof (corrected_alike cx1 cx2 bcs _ _ _ _ p bc b Em HB HB2 Hin Hpb) as HQ.
      destruct bc as [v|q| | |]; try done; split; intros Hs; try exact HQ; exfalso; by apply (Qclt_not_le _ _ Hs).
    - destruct (decide (nCells (cx_mesh cx1) = 0)) as [E0|E0].
      { unfold total_distance. rewrite !E0. apply Qcle_refl. }
      eapply Qcle_trans; [|exact I2].
      apply (upwind_total (cx_mesh cx1) Hm (cx_surf cx1 flux1) (cx_weights cx1) Hdiv Hw dt (ts_phi (f k)) (ts_phi (g k))); try done.
      + by apply (Hdt t dt 0 (elem_of_list_lookup_2 _ _ _ E) ltac:(lia)).
      + intros c Hc. by apply (Hdt t dt c (elem_of_list_lookup_2 _ _ _ E) Hc). }
  by apply H.
Qed.
Print Assumptions C126_upwind.

(** Explicit diffusion. *)
Theorem C126_diffusion : forall dbg1 dbg2 cx1 cx2 bcs lin1 lin2 schemes1 schemes2 solution1 solution2 gamma1 gamma2 n1 n2 st1 st2 l,
  diffusion_case cx1 bcs schemes1 gamma1 n1 st1 -> diffusion_case cx2 bcs schemes2 gamma2 n2 st2 ->
  old_of st1 = vf_int (ts_phi st1) -> old_of st2 = vf_int (ts_phi st2) ->
  cx_mesh cx1 = cx_mesh cx2 -> cx_dc cx1 = cx_dc cx2 -> face_positive (cx_mesh cx1) (cx_dc cx1) ->
  (forall t dt c, (t, dt) ∈ l -> c < nCells (cx_mesh cx1) -> (0 <= dt)%Qc /\ (diffusion_number (cx_mesh cx1) (cx_dc cx1) dt c <= 1)%Qc) ->
  all_prescribed (cx_mesh cx1) bcs -> boundary_alike (cx_mesh cx1) (ts_phi st1) (ts_phi st2) ->
  exists st1' st2',
    surely (run_program (explicit_diffusion gamma1 n1) dbg1 cx1 n1 bcs lin1 schemes1 solution1 l st1) st1' /\
    surely (run_program (explicit_diffusion gamma2 n2) dbg2 cx2 n2 bcs lin2 schemes2 solution2 l st2) st2' /\
    (total_distance (cx_mesh cx1) (vf_int (ts_phi st1')) (vf_int (ts_phi st2')) <=
     total_distance (cx_mesh cx1) (vf_int (ts_phi st1)) (vf_int (ts_phi st2)))%Qc.
Proof.
  intros dbg1 dbg2 cx1 cx2 bcs lin1 lin2 schemes1 schemes2 solution1 solution2 gamma1 gamma2 n1 n2 st1 st2 l Hc1 Hc2 Ho1 Ho2 Em Ed Hpos Hdt Hbc Hb0.
  destruct (C102_explicit_diffusion dbg1 cx1 bcs lin1 schemes1 solution1 gamma1 n1 st1 l Hc1 Ho1) as (f & F0 & Fr & Fi).
  destruct (C102_explicit_diffusion dbg2 cx2 bcs lin2 schemes2 solution2 gamma2 n2 st2 l Hc2 Ho2) as (g & G0 & Gr & Gi).
  pose proof (proj1 (proj1 (dc_setup _ _ _ _ _ _ Hc1))) as Hm.
  eexists _, _. split; [exact Fr|]. split; [exact Gr|].
  assert (H : forall k, k <= length l -> boundary_alike (cx_mesh cx1) (ts_phi (f k)) (ts_phi (g k)) /\
    (total_distance (cx_mesh cx1) (vf_int (ts_phi (f k))) (vf_int (ts_phi (g k))) <= total_distance (cx_mesh cx1) (vf_int (ts_phi st1)) (vf_int (ts_phi st2)))%Qc).
  { induction k as [|k IH]; intros Hk; [rewrite F0, G0; split; [done|apply Qcle_refl]|]. destruct (IH ltac:(lia)) as [I1 I2].
    destruct (lookup_lt_is_Some_2 l k ltac:(lia)) as ([t dt] & E). destruct (Fi k t dt E) as [HA HB], (Gi k t dt E) as [HA2 HB2].
    rewrite <- Em, <- Ed in HA2. split.
    - intros b Hb. destruct (Hbc b Hb) as (p & bc & Hin & Hpb & Hk2). pose proof (corrected_alike cx1 cx2 bcs _ _ _ _ p bc b Em HB HB2 Hin Hpb) as HQ.
      destruct bc as [v|q| | |]; try done; [left|right..]; exact HQ.
    - destruct (decide (nCells (cx_mesh cx1) = 0)) as [E0|E0].
      { unfold total_distance. rewrite !E0. apply Qcle_refl. }
      eapply Qcle_trans; [|exact I2].
      apply (diffusion_total (cx_mesh cx1) Hm (cx_dc cx1) Hpos dt (ts_phi (f k)) (ts_phi (g k))); try done.
      + by apply (Hdt t dt 0 (elem_of_list_lookup_2 _ _ _ E) ltac:(lia)).
      + intros c Hc. by apply (Hdt t dt c (elem_of_list_lookup_2 _ _ _ E) Hc). }
  by apply H.
Qed.
Print Assumptions C126_diffusion.

(** Implicit convection and diffusion, for every size of time step and every flux,
    divergence-free or not. *)
Theorem C126_implicit : forall dbg1 dbg2 cx1 cx2 bcs1 bcs2 lin1 lin2 schemes1 schemes2 solution1 solution2 flux1 flux2 gamma1 gamma2 n1 n2 st1 st2 l r1 r2,
  implicit_case cx1 bcs1 lin1 schemes1 flux1 gamma1 n1 st1 -> implicit_case cx2 bcs2 lin2 schemes2 flux2 gamma2 n2 st2 ->
  old_of st1 = vf_int (ts_phi st1) -> old_of st2 = vf_int (ts_phi st2) ->
  cx_mesh cx1 = cx_mesh cx2 -> cx_dc cx1 = cx_dc cx2 -> cx_surf cx1 flux1 = cx_surf cx2 flux2 -> cx_surf cx1 gamma1 = cx_surf cx2 gamma2 ->
  (forall t dt, (t, dt) ∈ l -> (0 < dt)%Qc) ->
  diffusive (cx_mesh cx1) (cx_surf cx1 gamma1) (cx_dc cx1) ->
  inflow_boundary (cx_mesh cx1) (cx_surf cx1 flux1) (ts_phi st1) -> inflow_values (cx_mesh cx1) (cx_surf cx1 flux1) (ts_phi st1) ->
  boundary_apart (cx_mesh cx1) 0 (ts_phi st1) (ts_phi st2) ->
  run_program (implicit_transport flux1 gamma1 n1) dbg1 cx1 n1 bcs1 lin1 schemes1 solution1 l st1 r1 ->
  run_program (implicit_transport flux2 gamma2 n2) dbg2 cx2 n2 bcs2 lin2 schemes2 solution2 l st2 r2 ->
  exists st1' st2', r1 = Ok st1' /\ r2 = Ok st2' /\
    (total_distance (cx_mesh cx1) (vf_int (ts_phi st1')) (vf_int (ts_phi st2')) <=
     total_distance (cx_mesh cx1) (vf_int (ts_phi st1)) (vf_int (ts_phi st2)))%Qc.
Proof.
  intros dbg1 dbg2 cx1 cx2 bcs1 bcs2 lin1 lin2 schemes1 schemes2 solution1 solution2 flux1 flux2 gamma1 gamma2 n1 n2 st1 st2 l r1 r2
    Hc1 Hc2 Ho1 Ho2 Em Ed Ef Eg Hdt Hdiff Hin Hiv Hba Hr1 Hr2.
  destruct (implicit_steps _ _ _ _ _ _ _ _ _ _ _ _ Hc1 Ho1 Hr1) as (f & F0 & -> & FB & Fi).
  destruct (implicit_steps _ _ _ _ _ _ _ _ _ _ _ _ Hc2 Ho2 Hr2) as (g & G0 & -> & GB & Gi).
  eexists _, _. split; [done|]. split; [done|].
  pose proof (proj1 (proj1 (ic_setup _ _ _ _ _ _ _ _ Hc1))) as Hm.
  assert (H : forall k, k <= length l -> (total_distance (cx_mesh cx1) (vf_int (ts_phi (f k))) (vf_int (ts_phi (g k))) <=
     total_distance (cx_mesh cx1) (vf_int (ts_phi st1)) (vf_int (ts_phi st2)))%Qc).
  { induction k as [|k IH]; intros Hk; [rewrite F0, G0; apply Qcle_refl|].
    destruct (lookup_lt_is_Some_2 l k ltac:(lia)) as ([t dt] & E). specialize (Fi k t dt E). specialize (Gi k t dt E). rewrite <- Em, <- Ed, <- Ef, <- Eg in Gi.
    assert (Hp : (0 < dt)%Qc) by (by apply (Hdt t dt), (elem_of_list_lookup_2 _ k)).
    eapply Qcle_trans; [|apply IH; lia].
    apply (transported_total (cx_mesh cx1) Hm (cx_surf cx1 flux1) (cx_surf cx1 gamma1) (cx_dc cx1) Hdiff (ts_phi st1) (ts_phi st2) Hin Hiv) with (dt := dt); try done.
    intros b Hb. destruct (Hba b Hb) as (B1 & B2 & B3). split; [done|]. split; [|done]. destruct B2 as [B2|[B2 B4]]; [by left|right].
    revert B2 B4. generalize (at0 (vf_refValue (ts_phi st1)) b) (at0 (vf_refValue (ts_phi st2)) b). intros u v P Q. apply Qcle_antisym; [revert P|revert Q]; qc_lra. }
  by apply H.
Qed.
Print Assumptions C126_implicit.

(** The three cells of [fork3], fluid entering cell 1 and leaving through cell 2, and
    two initial fields at total distance 2. *)
Definition z0D : list Qc := [Q2Qc 2; Q2Qc 4; Q2Qc 3].
Example C126_instance : (total_distance fork3 x0D z0D = Q2Qc 2)%Qc /\
  explicit_case cxD bcsT (schemesD "forwardEuler") 0 0 (stD x0D) /\ explicit_case cxD bcsT (schemesD "forwardEuler") 0 0 (stD z0D) /\
  flow_prescribed fork3 (cx_surf cxD 0) bcsT /\ boundary_alike_flow fork3 (cx_surf cxD 0) (ts_phi (stD x0D)) (ts_phi (stD z0D)) /\
  all_prescribed fork3 bcsT /\ boundary_alike fork3 (ts_phi (stD x0D)) (ts_phi (stD z0D)) /\
  (exists sx sz, surely (run_program (explicit_transport 0 0) true cxD 0 bcsT solve_exactly (schemesD "forwardEuler") [] [(0%Qc, Q2Qc (1 # 2))] (stD x0D)) sx /\
     surely (run_program (explicit_transport 0 0) false cxD 0 bcsT solve_exactly (schemesD "forwardEuler") [] [(0%Qc, Q2Qc (1 # 2))] (stD z0D)) sz /\
     (total_distance fork3 (vf_int (ts_phi sx)) (vf_int (ts_phi sz)) <= Q2Qc 2)%Qc) /\
  (exists sx sz, surely (run_program (explicit_diffusion 1 0) true cxD 0 bcsT solve_exactly (schemesD "forwardEuler") [] [(0%Qc, Q2Qc (1 # 2))] (stD x0D)) sx /\
     surely (run_program (explicit_diffusion 1 0) false cxD 0 bcsT solve_exactly (schemesD "forwardEuler") [] [(0%Qc, Q2Qc (1 # 2))] (stD z0D)) sz /\
     (total_distance fork3 (vf_int (ts_phi sx)) (vf_int (ts_phi sz)) <= Q2Qc 2)%Qc) /\
  (total_distance fork3 x1D y1D <= total_distance fork3 x0D y0D)%Qc /\ (total_distance fork3 x1D y1D < total_distance fork3 x0D y0D)%Qc.
Proof.
  assert (Hx : forall x, length x = 3 -> explicit_case cxD bcsT (schemesD "forwardEuler") 0 0 (stD x)).
  { intros x Hx. split; [apply cxD_setup|split; [repeat split|]; done|done|eexists; vm_compute; reflexivity|eexists; split; vm_compute; reflexivity]. }
  assert (Hd : forall x, length x = 3 -> diffusion_case cxD bcsT (schemesD "forwardEuler") 1 0 (stD x)).
  { intros x Hx'. split; [apply cxD_setup|split; [repeat split|]; done|done|eexists; vm_compute; reflexivity|eexists; split; vm_compute; reflexivity]. }
  assert (HD : total_distance fork3 x0D z0D = Q2Qc 2) by (apply Qc_is_canon; vm_compute; reflexivity).
  assert (Hf : flow_prescribed fork3 (cx_surf cxD 0) bcsT).
  { cells3.
    + exists (Patch 0 0 1), (FixedValue (Q2Qc 7)). split; [left|]. split; [cbv; lia|]. vm_compute; discriminate.
    + exists (Patch 1 1 2), (FixedGradient 0%Qc). split; [right; left|]. split; [cbv; lia|]. vm_compute; discriminate. }
  assert (Ha : all_prescribed fork3 bcsT).
  { cells3.
    + exists (Patch 0 0 1), (FixedValue (Q2Qc 7)). split; [left|]. split; [cbv; lia|]. done.
    + exists (Patch 1 1 2), (FixedGradient 0%Qc). split; [right; left|]. split; [cbv; lia|]. done. }
  assert (Hbf : boundary_alike_flow fork3 (cx_surf cxD 0) (ts_phi (stD x0D)) (ts_phi (stD z0D))).
  { cells3; split; intros Hs; try (by vm_compute in Hs); apply Qc_is_canon; vm_compute; reflexivity. }
  assert (Hba : boundary_alike fork3 (ts_phi (stD x0D)) (ts_phi (stD z0D))).
  { cells3; [left|right]; apply Qc_is_canon; vm_compute; reflexivity. }
  split; [done|]. split; [by apply Hx|]. split; [by apply Hx|]. split; [done|]. split; [done|]. split; [done|]. split; [done|].
  split; [|split; [|split]].
  - rewrite <- HD.
    apply (C126_upwind true false cxD cxD bcsT solve_exactly solve_exactly (schemesD "forwardEuler") (schemesD "forwardEuler") [] [] 0 0 0 0 (stD x0D) (stD z0D) [(0%Qc, Q2Qc (1 # 2))]); try done; try (by apply Hx).
    + intros t dt c Ht. apply elem_of_list_singleton in Ht. injection Ht as -> ->. revert c. cells3; split; vm_compute; done.
    + apply cxD_bounds.
    + cells3; done.
  - rewrite <- HD.
    apply (C126_diffusion true false cxD cxD bcsT solve_exactly solve_exactly (schemesD "forwardEuler") (schemesD "forwardEuler") [] [] 1 1 0 0 (stD x0D) (stD z0D) [(0%Qc, Q2Qc (1 # 2))]); try done; try (by apply Hd).
    + cells3; split; vm_compute; discriminate.
    + intros t dt c Ht. apply elem_of_list_singleton in Ht. injection Ht as -> ->. revert c. cells3; split; vm_compute; done.
  - destruct C103_instance as (A1 & A2 & A3 & A4 & _). destruct cxD_bounds as (B1 & B2 & B3 & B4).
    destruct (C126_implicit false false cxD cxD bcsT bcsT solve_exactly solve_exactly (schemesD "backwardEuler") (schemesD "backwardEuler") [] [] 0 0 1 1 0 0 (stD x0D) (stD y0D) [(0%Qc, 1%Qc)]
      (Ok (stD x1D)) (Ok (stD y1D))) as (s1 & s2 & E1 & E2 & H);
      [by apply cxD_case|by apply cxD_case|reflexivity|reflexivity|reflexivity|reflexivity|reflexivity|reflexivity| |exact B1|apply B3|exact A3|exact A4|exact A1|exact A2|].
    + intros t dt Ht. apply elem_of_list_singleton in Ht. injection Ht as -> ->. vm_compute. reflexivity.
    + injection E1 as <-. injection E2 as <-. exact H.
  - vm_compute. reflexivity.
Qed.
