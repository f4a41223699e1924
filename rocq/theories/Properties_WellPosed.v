(** C114: the equations users solve have a solution, so a complete linear solver
    always finds a result. *)
From Coq Require Import Lqa.
From Verif Require Import Base Dict Registry Par Exec Fields FieldsProofs Value Kernel Mesh MeshSpec Coeff FV FVSpec FVProofs FVProps Sparsity SparsitySpec SparsityDet Assembly AssemblySpec AssemblyProps
  Boundary Properties_Boundary Properties_CoNum ExampleMesh Properties_Sparsity Properties_Assembly Dsl DslSpec DslHeapProofs DslProofs DslAssembly Properties_Dsl Properties_DslAssembly
  TimeInt TimeSpec TimeIntProofs TimeIntSteps Properties_TimeInt FrontEnd SteadySolve Transport TransportProofs Properties_Transport Properties_Steady Properties_Pressure QcLra SteadyMax Properties_SteadyMax LinearSolve WellPosed.
Local Open Scope nat_scope.

(** Implicit transport: whatever the field, for any number and positive size of
    steps, there is a run to the end. *)
Theorem C114_implicit_exists : forall dbg cx bcs lin fvSchemes fvSolution flux gamma n st l,
  implicit_case cx bcs lin fvSchemes flux gamma n st -> complete_solver lin ->
  (forall t dt, (t, dt) ∈ l -> (0 < dt)%Qc) ->
  diffusive (cx_mesh cx) (cx_surf cx gamma) (cx_dc cx) ->
  (forall c, c < nCells (cx_mesh cx) -> (0 <= cell_balance (cx_mesh cx) (at0 (cx_surf cx flux)) c)%Qc) ->
  inflow_boundary (cx_mesh cx) (cx_surf cx flux) (ts_phi st) ->
  exists st', run_program (implicit_transport flux gamma n) dbg cx n bcs lin fvSchemes fvSolution l st (Ok st').
Proof.
  intros dbg cx bcs lin fvSchemes fvSolution flux gamma n st l Hc Hlin Hdt Hdiff Hout Hin.
  pose proof (proj1 (proj1 (ic_setup _ _ _ _ _ _ _ _ Hc))) as Hm.
  assert (Hf : exists f, f 0 = st /\ forall i t dt, l !! i = Some (t, dt) ->
     transported (cx_mesh cx) (cx_surf cx flux) (cx_surf cx gamma) (cx_dc cx) dt (ts_phi (f i)) (old_of (f i)) (vf_int (ts_phi (f (S i)))) /\
     ts_old (f (S i)) = Some (vf_int (ts_phi (f (S i)))) /\ same_boundary (ts_phi (f (S i))) (ts_phi (f i))).
  { clear Hc. revert st Hin. induction l as [|[t dt] l IH]; intros st Hin.
    - exists (fun _ => st). split; [done|]. intros i t dt E. by rewrite lookup_nil in E.
    - destruct (transported_exists (cx_mesh cx) Hm (cx_surf cx flux) (cx_surf cx gamma) (cx_dc cx) (ts_phi st) Hdiff Hout Hin dt (old_of st)) as (x & Hx).
      { apply (Hdt t). by left. }
      destruct (IH ltac:(intros t' dt' H; apply (Hdt t'); by right) (TState (with_int (ts_phi st) x) (Some x)) Hin) as (g & G0 & Hg).
      exists (fun i => match i with 0 => st | S i => g i end). split; [done|]. intros [|i] t' dt' E.
      + injection E as <- <-. rewrite G0. split; [exact Hx|]. split; [done|]. repeat split.
      + by apply (Hg i t' dt'). }
  destruct Hf as (f & <- & Hf). exists (f (length l)). by apply C91_implicit_complete.
Qed.
Print Assumptions C114_implicit_exists.

(** Steady transport. *)
Theorem C114_steady_exists : forall dbg cx bcs lin fvSchemes fvSolution flux gamma n st t dt,
  steady_case cx lin fvSchemes fvSolution flux gamma n st -> complete_solver lin ->
  diffusive (cx_mesh cx) (cx_surf cx gamma) (cx_dc cx) ->
  (forall c, c < nCells (cx_mesh cx) -> (0 <= cell_balance (cx_mesh cx) (at0 (cx_surf cx flux)) c)%Qc) ->
  inflow_boundary (cx_mesh cx) (cx_surf cx flux) (ts_phi st) ->
  (forall U, ~ cut_off (cx_mesh cx) (cx_surf cx flux) (cx_surf cx gamma) (cx_dc cx) (ts_phi st) U) ->
  exists st', run_program (steady_transport flux gamma n) dbg cx n bcs lin fvSchemes fvSolution [(t, dt)] st (Ok st').
Proof.
  intros dbg cx bcs lin fvSchemes fvSolution flux gamma n st t dt Hc Hlin Hdiff Hout Hin Hcut.
  destruct (balanced_exists (cx_mesh cx) (proj1 (sc_fits _ _ _ _ _ _ _ _ Hc)) (cx_surf cx flux) (cx_surf cx gamma) (cx_dc cx) (ts_phi st) Hdiff Hout Hin Hcut (fun _ => 0%Qc)) as (x & Hx).
  eexists. exact (C113_every_solution dbg cx bcs lin fvSchemes fvSolution flux gamma n st t dt x Hc Hlin Hx).
Qed.
Print Assumptions C114_steady_exists.

(** ** The pressure equation *)
Local Lemma balanced_pressure cx rAU flux p x : valid_topology (cx_mesh cx) ->
  balanced (cx_mesh cx) [] (cx_surf cx rAU) (cx_dc cx) p (fun c => - cell_balance (cx_mesh cx) (at0 (cx_surfV cx flux)) c)%Qc x <->
  length x = nCells (cx_mesh cx) /\ forall c, c < nCells (cx_mesh cx) -> cell_balance (cx_mesh cx) (corrected_flux cx rAU flux p x) c = 0%Qc.
Proof.
  intros Hm. set (m := cx_mesh cx).
  assert (E : forall c, cell_balance m (corrected_flux cx rAU flux p x) c =
    (cell_balance m (at0 (cx_surfV cx flux)) c - cell_balance m (diffused m (cx_surf cx rAU) (cx_dc cx) p x) c)%Qc).
  { intros c. rewrite (balance_congr m Hm (corrected_flux cx rAU flux p x) (fun f => at0 (cx_surfV cx flux) f + - (1) * diffused m (cx_surf cx rAU) (cx_dc cx) p x f)%Qc) by (intros i _; unfold corrected_flux; fold m; ring).
    rewrite balance_add, balance_scaled. ring. }
  assert (Z : forall c, cell_balance m (convected m [] p x) c = 0%Qc).
  { intros c. rewrite (balance_congr m Hm (convected m [] p x) (fun f => 0 * at0 [] f)%Qc).
    - rewrite balance_scaled. ring.
    - intros f _. unfold convected. assert (E' : at0 [] f = 0%Qc) by (by destruct f). rewrite E'. ring. }
  unfold balanced. fold m. apply and_iff_compat_l. split; intros H c Hc; specialize (H c Hc); [rewrite E|rewrite E in H]; rewrite ?Z in *; revert H;
    generalize (cell_balance m (at0 (cx_surfV cx flux)) c) (cell_balance m (diffused m (cx_surf cx rAU) (cx_dc cx) p x) c); qc_lra.
Qed.
Local Lemma no_flow_no_loss m (Hm : valid_topology m) c : (0 <= cell_balance m (at0 []) c)%Qc.
Proof.
  rewrite (balance_congr m Hm (at0 []) (fun f => 0 * at0 [] f)%Qc) by (intros [|f] _; cbn; ring).
  rewrite balance_scaled. apply (nonneg_eq 0%Qc); [apply Qcle_refl|ring].
Qed.
Local Lemma mixed_inflow' m phi : mixed_boundary m phi -> inflow_boundary m [] phi.
Proof. intros H b Hb. destruct (H b Hb). split; [done|]. split; [done|]. right. replace (at0 [] (nInternalFaces m + b)) with 0%Qc by (by destruct (nInternalFaces m + b)). apply Qcle_refl. Qed.

(** If no group of cells is cut off from prescribed pressures, there is a result
    whatever the fluxes; by C113 it is the only one. *)
Theorem C114_pressure_exists : forall dbg cx bcs lin fvSchemes fvSolution rAU flux n st t dt,
  pressure_case cx lin fvSchemes fvSolution rAU flux n st -> complete_solver lin ->
  diffusive (cx_mesh cx) (cx_surf cx rAU) (cx_dc cx) -> mixed_boundary (cx_mesh cx) (ts_phi st) ->
  (forall U, ~ cut_off (cx_mesh cx) [] (cx_surf cx rAU) (cx_dc cx) (ts_phi st) U) ->
  exists st', run_program (pressure_equation rAU flux n) dbg cx n bcs lin fvSchemes fvSolution [(t, dt)] st (Ok st').
Proof.
  intros dbg cx bcs lin fvSchemes fvSolution rAU flux n st t dt Hc Hlin Hdiff Hmix Hcut.
  pose proof (proj1 (pc_fits _ _ _ _ _ _ _ _ Hc)) as Hm.
  destruct (balanced_exists (cx_mesh cx) Hm [] (cx_surf cx rAU) (cx_dc cx) (ts_phi st) Hdiff (fun c _ => no_flow_no_loss _ Hm c) (mixed_inflow' _ _ Hmix) Hcut
    (fun c => - cell_balance (cx_mesh cx) (at0 (cx_surfV cx flux)) c)%Qc) as (x & Hx).
  destruct (proj1 (balanced_pressure cx rAU flux (ts_phi st) x Hm) Hx) as [L D]. eexists.
    exact (C100_every_solution dbg cx bcs lin fvSchemes fvSolution rAU flux n st t dt x Hc Hlin L D).
Qed.
Print Assumptions C114_pressure_exists.

(** Only gradients prescribed, connected domain: there is a result exactly if the
    fluxes, corrected by the prescribed gradients, add up to zero over the boundary. *)
Theorem C114_pressure_compatible : forall dbg cx bcs lin fvSchemes fvSolution rAU flux n st t dt,
  pressure_case cx lin fvSchemes fvSolution rAU flux n st -> complete_solver lin ->
  diffusive (cx_mesh cx) (cx_surf cx rAU) (cx_dc cx) ->
  (forall b, b < nBoundaryFaces (cx_mesh cx) -> at0 (vf_valueFraction (ts_phi st)) b = 0%Qc) ->
  (forall c c', c < nCells (cx_mesh cx) -> c' < nCells (cx_mesh cx) -> linked (cx_mesh cx) [] (cx_surf cx rAU) (cx_dc cx) c c') ->
  (exists st', run_program (pressure_equation rAU flux n) dbg cx n bcs lin fvSchemes fvSolution [(t, dt)] st (Ok st')) <->
  vsum_over (nBoundaryFaces (cx_mesh cx)) (fun b => let f := (nInternalFaces (cx_mesh cx) + b)%nat in
    at0 (cx_surfV cx flux) f - at0 (cx_surf cx rAU) f * at0 (magFaceAreas (cx_mesh cx)) f * at0 (vf_refGrad (ts_phi st)) b)%Qc = 0%Qc.
Proof.
  intros dbg cx bcs lin fvSchemes fvSolution rAU flux n st t dt Hc Hlin Hdiff Hz Hl.
  pose proof (proj1 (pc_fits _ _ _ _ _ _ _ _ Hc)) as Hm. set (m := cx_mesh cx) in *.
  assert (Htot : sum_to (nCells m) (fun c => - cell_balance m (at0 (cx_surfV cx flux)) c)%Qc = (- sum_to (nBoundaryFaces m) (fun b => at0 (cx_surfV cx flux) (nInternalFaces m + b)))%Qc).
  { rewrite (sum_to_ext (nCells m) _ (fun c => - (1) * cell_balance m (at0 (cx_surfV cx flux)) c)%Qc) by (intros; ring).
    rewrite sum_to_scale. pose proof (balance_total m Hm (V := Qc) (at0 (cx_surfV cx flux))) as Ht.
    change (sum_to (nCells m) (λ i : nat, cell_balance m (at0 (cx_surfV cx flux)) i)) with (sum_to (nCells m) (cell_balance m (at0 (cx_surfV cx flux)))).
    rewrite Ht. ring. }
  assert (Hsum : sum_to (nBoundaryFaces m) (fun b => let f := (nInternalFaces m + b)%nat in
      at0 (cx_surfV cx flux) f - at0 (cx_surf cx rAU) f * at0 (magFaceAreas m) f * at0 (vf_refGrad (ts_phi st)) b)%Qc =
    (sum_to (nBoundaryFaces m) (fun b => at0 (cx_surfV cx flux) (nInternalFaces m + b)) - sum_to (nBoundaryFaces m) (prescribed_flux m (cx_surf cx rAU) (ts_phi st)))%Qc).
  { rewrite (sum_to_ext (nBoundaryFaces m) _ (fun b => at0 (cx_surfV cx flux) (nInternalFaces m + b)%nat + - (1) * prescribed_flux m (cx_surf cx rAU) (ts_phi st) b)%Qc) by (intros; unfold prescribed_flux; cbv zeta; ring).
    rewrite sum_to_add, sum_to_scale. ring. }
  rewrite Hsum. split.
  - intros (st' & Hrun). destruct (C100_divergence_free _ _ _ _ _ _ _ _ _ _ _ _ Hc Hrun) as (f & F0 & Fr & Fi).
    destruct (Fi 0 ltac:(cbn; lia)) as (L & D & _ & _). rewrite F0 in D.
    pose proof (proj2 (balanced_pressure cx rAU flux (ts_phi st) (vf_int (ts_phi (f 1))) Hm) (conj L D)) as Hb.
    pose proof (balanced_total m Hm _ _ _ Hz _ _ Hb) as Ht. fold m in Ht. rewrite Htot in Ht. revert Ht.
    generalize (sum_to (nBoundaryFaces m) (fun b => at0 (cx_surfV cx flux) (nInternalFaces m + b))) (sum_to (nBoundaryFaces m) (prescribed_flux m (cx_surf cx rAU) (ts_phi st))). qc_lra.
  - intros H. destruct (level_exists m Hm (cx_surf cx rAU) (cx_dc cx) (ts_phi st) Hdiff Hz (fun c => - cell_balance m (at0 (cx_surfV cx flux)) c)%Qc Hl) as (x & Hx).
    { rewrite Htot. revert H. generalize (sum_to (nBoundaryFaces m) (fun b => at0 (cx_surfV cx flux) (nInternalFaces m + b))) (sum_to (nBoundaryFaces m) (prescribed_flux m (cx_surf cx rAU) (ts_phi st))). qc_lra. }
    destruct (proj1 (balanced_pressure cx rAU flux (ts_phi st) x Hm) Hx) as [L D]. eexists.
    exact (C100_every_solution dbg cx bcs lin fvSchemes fvSolution rAU flux n st t dt x Hc Hlin L D).
Qed.
Print Assumptions C114_pressure_compatible.

(** ** Cases on the mesh fork3 *)
(** 1000 steps of the case of C91, without computing any of them. *)
Example C114_instance : exists st', run_program (implicit_transport 0 1 0) false cxD 0 bcsT solve_exactly (schemesD "backwardEuler") [] (repeat (0, 1)%Qc 1000) (stD x0D) (Ok st').
Proof.
  destruct cxD_bounds as (B1 & B2 & B3 & B4). apply C114_implicit_exists; try done.
  - by apply cxD_case.
  - apply solve_exactly_complete.
  - intros t dt Ht. apply elem_of_list_In, repeat_spec in Ht. injection Ht as -> ->. vm_compute. reflexivity.
  - intros c Hcc. pose proof (B2 c Hcc) as E. change (0 <= cell_balance fork3 (at0 (cx_surf cxD 0)) c)%Qc. rewrite E. apply Qcle_refl.
Qed.
(** Flux 2 in, 2 out: a result; with the outflow 3 there is none. *)
Definition cxP3 : ctx Qc :=
  Ctx SerialExecutor fork3 [1; 1; 1; 1]%Qc [1; 1; 1; 1]%Qc patA
      (fun _ => [1; 1; 1; 1]%Qc) (fun _ => [0%Qc; 0%Qc; Q2Qc (-2); Q2Qc 3]) (fun _ => phi3)
      (fun _ => [1; 1; 1]%Qc) (fun _ => [1; 1; 1]%Qc) (fun _ => "rAU"%string) (fun _ => "p"%string).
Example C114_compatible_instance :
  (exists st', run_program (pressure_equation 0 0 0) false cxP 0 [] solve_exactly schemesP solutionP [(0, 1)]%Qc (stP [1; 1; 1]%Qc) (Ok st')) /\
  ~ (exists st', run_program (pressure_equation 0 0 0) false cxP3 0 [] solve_exactly schemesP solutionP [(0, 1)]%Qc (stP [1; 1; 1]%Qc) (Ok st')).
Proof.
  destruct C113_pressure_instance as (_ & H1 & H2 & H3 & _).
  assert (Hz : forall b, b < nBoundaryFaces fork3 -> at0 (vf_valueFraction (ts_phi (stP [1; 1; 1]%Qc))) b = 0%Qc) by (cells3; done).
  assert (Hc3 : pressure_case cxP3 solve_exactly schemesP solutionP 0 0 0 (stP [1; 1; 1]%Qc)).
  { destruct (cxP_case [1; 1; 1]%Qc eq_refl) as [P1 P2 P3 P4 P5 P6 P7 P8]. split; try done. }
  split.
  - apply (C114_pressure_compatible false cxP [] solve_exactly schemesP solutionP 0 0 0 (stP [1; 1; 1]%Qc) 0%Qc 1%Qc (cxP_case [1; 1; 1]%Qc eq_refl) solve_exactly_complete H1 Hz H3).
    apply Qc_is_canon; vm_compute; reflexivity.
  - intros H. apply (C114_pressure_compatible false cxP3 [] solve_exactly schemesP solutionP 0 0 0 (stP [1; 1; 1]%Qc) 0%Qc 1%Qc Hc3 solve_exactly_complete H1 Hz H3) in H.
    apply (f_equal this) in H. vm_compute in H. discriminate.
Qed.
