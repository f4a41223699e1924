(** C113: steady transport and the pressure equation: bounds, and when the result
    is determined. *)
From Coq Require Import Lqa.
From Verif Require Import Base Dict Registry Par Exec Fields FieldsProofs Value Kernel Mesh MeshSpec Coeff FV FVSpec FVProofs FVProps Sparsity SparsitySpec SparsityDet Assembly AssemblySpec AssemblyProps
  Boundary Properties_Boundary Properties_CoNum ExampleMesh Properties_Sparsity Properties_Assembly Dsl DslSpec DslHeapProofs DslProofs DslAssembly Properties_Dsl Properties_DslAssembly
  TimeInt TimeSpec TimeIntProofs TimeIntSteps Properties_TimeInt FrontEnd SteadySolve Transport TransportProofs Properties_Transport Properties_Steady Properties_Pressure QcLra SteadyMax.
Local Open Scope nat_scope.

(** Expression eqn = imp::div(flux, T) - imp::laplacian(gamma, T); T is field [n]. *)
Definition steady_transport (flux gamma n : nat) : outcome (expression * heap Qc) :=
  program [ImpDiv flux n; ImpLaplacian gamma n] (EOpMinus (TermS (SVar 0)) (TermS (SVar 1))).
Definition steady_bs (flux gamma n : nat) := [ImpDiv flux n; ImpLaplacian gamma n].

Record steady_case cx lin (fvSchemes fvSolution : dict) (flux gamma n : nat) (st : tstate) : Prop := {
  sc_fits : cx_fits cx;
  sc_state : state_ok cx st;
  sc_flux : length (cx_surf cx flux) = nFaces (cx_mesh cx);
  sc_gamma : length (cx_surf cx gamma) = nFaces (cx_mesh cx);
  sc_div : exists s, (div_build (cx_surfName cx flux) (cx_volName cx n) (IDict fvSchemes)).1 = Ok s;
  sc_laplacian : exists s, (laplacian_build (cx_surfName cx gamma) (cx_volName cx n) (IDict fvSchemes)).1 = Ok s;
  sc_solver : exists name, solver_create fvSolution = Ok name;
  sc_pattern : surely (sp_create (cx_exec cx) (cx_mesh cx)) (cx_pattern cx);
  sc_exact : exact_solver lin;
}.

Lemma steady_equation_spec cx lin fvSchemes fvSolution flux gamma n st : steady_case cx lin fvSchemes fvSolution flux gamma n st ->
  let h := declared (steady_bs flux gamma n) in exists sel,
  equation_wf h (nCells (cx_mesh cx)) pressure_eqn /\ single_fields h pressure_eqn /\
  schemes_selected cx fvSchemes sel h pressure_eqn /\ all_supported cx n sel h pressure_eqn st /\
  forall s x c, c < nCells (cx_mesh cx) -> steady_at cx n sel h pressure_eqn s x c =
    (cell_balance (cx_mesh cx) (convected (cx_mesh cx) (cx_surf cx flux) (ts_phi s) x) c -
     cell_balance (cx_mesh cx) (diffused (cx_mesh cx) (cx_surf cx gamma) (cx_dc cx) (ts_phi s) x) c)%Qc.
Proof.
  intros [Hcx Hst Hfl Hga (ds & Hd) (ls & Hla) (name & Hname) Hpat Hex] h.
  set (sel := fun k : spatialKind Qc => match k with DivOperator f p _ => DivOperator f p (Some (if decide (ds.2 = "upwind"%string) then Upwind else Linear)) | LaplacianOperator g p _ => LaplacianOperator g p true | k => k end).
  pose proof Hst as [(Hi & Hv & Hrv & Hvf & Hrg) Ho].
  assert (Hobj : forall p o, p ∈ spatial_objects pressure_eqn -> h_spatial h !! p = Some o ->
    o = SpatialOp (DivOperator flux n None) Implicit (coeff_scalar 1%Qc) \/ o = SpatialOp (LaplacianOperator gamma n false) Implicit (coeff_scalar 1%Qc)).
  { intros p o Hp. cbn in Hp. apply elem_of_list_In in Hp. destruct Hp as [<-|[<-|[]]]; cbn; intros E; injection E as <-; auto. }
  exists sel. split; [|split; [|split; [|split]]].
  - cbn. split; eexists; (split; [reflexivity|done]).
  - cbn. split; lia.
  - intros p o Hp E. destruct (Hobj p o Hp E) as [-> | ->]; cbn [op_build so_kind so_type so_coeff].
    + rewrite Hd. destruct ds as [s1 s2]. done.
    + by rewrite Hla.
  - split.
    + intros p o Hp E. destruct (Hobj p o Hp E) as [-> | ->]; cbn; (split; [|done]); rewrite ?(decide_True (P := n = n)) by done;
        (split; [done|]; split; [done|]; split; [done|]; repeat split; done).
    + intros p o Hp E. cbn in Hp. by apply elem_of_nil in Hp.
  - intros s x c Hc. unfold steady_at, pressure_eqn. cbn [equation_value term_value tterm_value sterm_value]. unfold object_value, object_value_T.
    unfold h, steady_bs. cbn [declared omap list_omap builder_spatial builder_temporal h_spatial h_temporal lookup list_lookup so_coeff so_type so_kind to_coeff to_type to_phi sel].
    unfold implicit_kind, explicit_kind. cbn [at_state cx_mesh cx_surf cx_surfV cx_vol cx_dc cx_old]. rewrite !decide_True by done.
    unfold vsub, coeff_val, coeff_scalar. cbn [vadd vneg vscale Qc_value coeff_ view_].
    change (@atV Qc Qc_value) with at0. unfold convected, diffused. ring.
Qed.

(** Every call of solve() that ends, ends normally with a field whose convective and
    diffusive fluxes balance in every cell. *)
Theorem C113_steady_balanced : forall dbg cx bcs lin fvSchemes fvSolution flux gamma n st t dt r,
  steady_case cx lin fvSchemes fvSolution flux gamma n st ->
  run_program (steady_transport flux gamma n) dbg cx n bcs lin fvSchemes fvSolution [(t, dt)] st r ->
  exists st', r = Ok st' /\
    balanced (cx_mesh cx) (cx_surf cx flux) (cx_surf cx gamma) (cx_dc cx) (ts_phi st) (fun _ => 0%Qc) (vf_int (ts_phi st')) /\
    ts_phi st' = with_int (ts_phi st) (vf_int (ts_phi st')).
Proof.
  intros dbg cx bcs lin fvSchemes fvSolution flux gamma n st t dt r Hc (e & h & Ep & Hrun).
  destruct (steady_equation_spec _ _ _ _ _ _ _ _ Hc) as (sel & W & S & B & A & HS).
  destruct Hc as [Hcx Hst _ _ _ _ (name & Hname) Hpat Hex].
  unfold steady_transport in Ep. rewrite program_spec in Ep.
  destruct (C99_steady_solve dbg cx n bcs lin fvSchemes fvSolution name sel _ _ st Hcx Hst W S eq_refl ltac:(done) B A Hpat Hex Hname) as (e' & h' & Ee & HL).
  unfold steady_bs, pressure_eqn in Ee. rewrite Ep in Ee. injection Ee as <- <-.
  assert (Hr : exists st', r = Ok st' /\ solves_steady cx n sel (declared (steady_bs flux gamma n)) pressure_eqn st st').
  { destruct Hrun as [([h2 s2] & H1 & ->)|[(x & H1 & ->)|[(H1 & ->)|(H1 & ->)]]]; destruct (HL _ _ H1) as (f & h'' & F0 & Fr & Fi); try done.
    injection Fr as -> ->. exists (f (length [(t, dt)])). split; [done|]. specialize (Fi 0 ltac:(cbn; lia)). by rewrite F0 in Fi. }
  destruct Hr as (st' & -> & L & E & O & P). exists st'. split; [done|]. split; [|exact P]. split; [done|].
  intros c Hcc. pose proof (E c Hcc) as Ec. by rewrite HS in Ec by done.
Qed.
Print Assumptions C113_steady_balanced.

(** Maximum principle: if the flux has no divergence and no group of cells is cut
    off from all prescribed values, all values lie between the prescribed ones. *)
Theorem C113_bounded : forall dbg cx bcs lin fvSchemes fvSolution flux gamma n st t dt r lo hi,
  steady_case cx lin fvSchemes fvSolution flux gamma n st ->
  diffusive (cx_mesh cx) (cx_surf cx gamma) (cx_dc cx) -> divergence_free (cx_mesh cx) (cx_surf cx flux) ->
  inflow_boundary (cx_mesh cx) (cx_surf cx flux) (ts_phi st) -> no_gradient (cx_mesh cx) (ts_phi st) ->
  boundary_between (cx_mesh cx) lo hi (ts_phi st) ->
  (forall U, ~ cut_off (cx_mesh cx) (cx_surf cx flux) (cx_surf cx gamma) (cx_dc cx) (ts_phi st) U) ->
  run_program (steady_transport flux gamma n) dbg cx n bcs lin fvSchemes fvSolution [(t, dt)] st r ->
  exists st', r = Ok st' /\ cells_between (cx_mesh cx) lo hi (vf_int (ts_phi st')).
Proof.
  intros dbg cx bcs lin fvSchemes fvSolution flux gamma n st t dt r lo hi Hc Hdiff Hdiv Hin Hng Hbb Hcut Hrun.
  destruct (C113_steady_balanced _ _ _ _ _ _ _ _ _ _ _ _ _ Hc Hrun) as (st' & -> & Hb & _). exists st'. split; [done|].
  exact (balanced_between (cx_mesh cx) (proj1 (sc_fits _ _ _ _ _ _ _ _ Hc)) _ _ _ Hdiff _ _ lo hi Hdiv Hin Hng Hbb Hcut Hb).
Qed.
Print Assumptions C113_bounded.

(** Larger prescribed values and gradients give a larger field; the same data the
    same field, whatever executor, pattern, linear solver, names and initial values. *)
Theorem C113_comparison : forall dbg1 dbg2 cx1 cx2 bcs1 bcs2 lin1 lin2 schemes1 schemes2 solution1 solution2 flux1 flux2 gamma1 gamma2 n1 n2 st1 st2 t1 dt1 t2 dt2 r1 r2,
  steady_case cx1 lin1 schemes1 solution1 flux1 gamma1 n1 st1 -> steady_case cx2 lin2 schemes2 solution2 flux2 gamma2 n2 st2 ->
  cx_mesh cx1 = cx_mesh cx2 -> cx_dc cx1 = cx_dc cx2 -> cx_surf cx1 flux1 = cx_surf cx2 flux2 -> cx_surf cx1 gamma1 = cx_surf cx2 gamma2 ->
  diffusive (cx_mesh cx1) (cx_surf cx1 gamma1) (cx_dc cx1) ->
  (forall c, c < nCells (cx_mesh cx1) -> (0 <= cell_balance (cx_mesh cx1) (at0 (cx_surf cx1 flux1)) c)%Qc) ->
  inflow_boundary (cx_mesh cx1) (cx_surf cx1 flux1) (ts_phi st1) ->
  boundary_below (cx_mesh cx1) (ts_phi st1) (ts_phi st2) ->
  (forall U, ~ cut_off (cx_mesh cx1) (cx_surf cx1 flux1) (cx_surf cx1 gamma1) (cx_dc cx1) (ts_phi st1) U) ->
  run_program (steady_transport flux1 gamma1 n1) dbg1 cx1 n1 bcs1 lin1 schemes1 solution1 [(t1, dt1)] st1 r1 ->
  run_program (steady_transport flux2 gamma2 n2) dbg2 cx2 n2 bcs2 lin2 schemes2 solution2 [(t2, dt2)] st2 r2 ->
  exists st1' st2', r1 = Ok st1' /\ r2 = Ok st2' /\
    forall c, c < nCells (cx_mesh cx1) -> (at0 (vf_int (ts_phi st1')) c <= at0 (vf_int (ts_phi st2')) c)%Qc.
Proof.
  intros dbg1 dbg2 cx1 cx2 bcs1 bcs2 lin1 lin2 schemes1 schemes2 solution1 solution2 flux1 flux2 gamma1 gamma2 n1 n2 st1 st2 t1 dt1 t2 dt2 r1 r2
    Hc1 Hc2 Em Ed Ef Eg Hdiff Hout Hin Hbb Hcut Hr1 Hr2.
  destruct (C113_steady_balanced _ _ _ _ _ _ _ _ _ _ _ _ _ Hc1 Hr1) as (st1' & -> & Hb1 & _).
  destruct (C113_steady_balanced _ _ _ _ _ _ _ _ _ _ _ _ _ Hc2 Hr2) as (st2' & -> & Hb2 & _).
  rewrite <- Em, <- Ed, <- Ef, <- Eg in Hb2. eexists _, _. split; [done|]. split; [done|].
  exact (balanced_comparison (cx_mesh cx1) (proj1 (sc_fits _ _ _ _ _ _ _ _ Hc1)) _ _ _ Hdiff Hout (ts_phi st1) (ts_phi st2) _ _ _ _ Hin Hbb Hcut (fun _ _ => Qcle_refl _) Hb1 Hb2).
Qed.
Print Assumptions C113_comparison.

Theorem C113_unique : forall dbg1 dbg2 cx1 cx2 bcs1 bcs2 lin1 lin2 schemes1 schemes2 solution1 solution2 flux1 flux2 gamma1 gamma2 n1 n2 st1 st2 t1 dt1 t2 dt2 r1 r2,
  steady_case cx1 lin1 schemes1 solution1 flux1 gamma1 n1 st1 -> steady_case cx2 lin2 schemes2 solution2 flux2 gamma2 n2 st2 ->
  cx_mesh cx1 = cx_mesh cx2 -> cx_dc cx1 = cx_dc cx2 -> cx_surf cx1 flux1 = cx_surf cx2 flux2 -> cx_surf cx1 gamma1 = cx_surf cx2 gamma2 ->
  same_boundary (ts_phi st1) (ts_phi st2) ->
  diffusive (cx_mesh cx1) (cx_surf cx1 gamma1) (cx_dc cx1) ->
  (forall c, c < nCells (cx_mesh cx1) -> (0 <= cell_balance (cx_mesh cx1) (at0 (cx_surf cx1 flux1)) c)%Qc) ->
  inflow_boundary (cx_mesh cx1) (cx_surf cx1 flux1) (ts_phi st1) ->
  (forall U, ~ cut_off (cx_mesh cx1) (cx_surf cx1 flux1) (cx_surf cx1 gamma1) (cx_dc cx1) (ts_phi st1) U) ->
  run_program (steady_transport flux1 gamma1 n1) dbg1 cx1 n1 bcs1 lin1 schemes1 solution1 [(t1, dt1)] st1 r1 ->
  run_program (steady_transport flux2 gamma2 n2) dbg2 cx2 n2 bcs2 lin2 schemes2 solution2 [(t2, dt2)] st2 r2 ->
  exists st1' st2', r1 = Ok st1' /\ r2 = Ok st2' /\ ts_phi st1' = ts_phi st2'.
Proof.
  intros dbg1 dbg2 cx1 cx2 bcs1 bcs2 lin1 lin2 schemes1 schemes2 solution1 solution2 flux1 flux2 gamma1 gamma2 n1 n2 st1 st2 t1 dt1 t2 dt2 r1 r2
    Hc1 Hc2 Em Ed Ef Eg Hsb Hdiff Hout Hin Hcut Hr1 Hr2.
  destruct (C113_steady_balanced _ _ _ _ _ _ _ _ _ _ _ _ _ Hc1 Hr1) as (st1' & -> & Hb1 & P1).
  destruct (C113_steady_balanced _ _ _ _ _ _ _ _ _ _ _ _ _ Hc2 Hr2) as (st2' & -> & Hb2 & P2).
  rewrite <- Em, <- Ed, <- Ef, <- Eg in Hb2. eexists _, _. split; [done|]. split; [done|].
  assert (Hw : forall x, with_int (ts_phi st2) x = with_int (ts_phi st1) x).
  { intros x. destruct Hsb as (S1 & S2 & S3 & S4). unfold with_int. by rewrite S1, S2, S3, S4. }
  rewrite P1, P2, Hw. f_equal.
  apply (balanced_unique (cx_mesh cx1) (proj1 (sc_fits _ _ _ _ _ _ _ _ Hc1)) _ _ _ Hdiff Hout (ts_phi st1) _ _ _ Hin Hcut Hb1).
  destruct Hb2 as [L2 E2]. split; [done|]. intros c Hc. rewrite <- (E2 c Hc). unfold convected, diffused. by rewrite Hw.
Qed.
Print Assumptions C113_unique.

(** What "not cut off" means along faces: it is enough that from every cell a path
    leads, each cell feeling the next, to a face with a prescribed value. *)
Theorem C113_paths : forall m flux gamma dc phi,
  (forall c, c < nCells m -> supplied m flux gamma dc phi c) -> forall U, ~ cut_off m flux gamma dc phi U.
Proof. exact supplied_not_cut_off. Qed.
Print Assumptions C113_paths.

(** ** The pressure equation *)
(** What every result satisfies. *)
Definition mixed_boundary (m : mesh) (phi : volField Qc) : Prop :=
  forall b, b < nBoundaryFaces m -> (0 <= at0 (vf_valueFraction phi) b)%Qc /\ (at0 (vf_valueFraction phi) b <= 1)%Qc.
Local Lemma no_flow f : at0 [] f = 0%Qc.
Proof. by destruct f. Qed.
Local Lemma no_flow_out m (Hm : valid_topology m) c : cell_balance m (at0 []) c = 0%Qc.
Proof.
  rewrite (balance_congr m Hm (at0 []) (fun f => 0 * at0 [] f)%Qc) by (intros f _; rewrite no_flow; ring).
  rewrite balance_scaled. ring.
Qed.
Local Lemma mixed_inflow m phi : mixed_boundary m phi -> inflow_boundary m [] phi.
Proof. intros H b Hb. destruct (H b Hb). split; [done|]. split; [done|]. right. rewrite no_flow. apply Qcle_refl. Qed.
Local Lemma pressure_balanced dbg cx bcs lin fvSchemes fvSolution rAU flux n st t dt r :
  pressure_case cx lin fvSchemes fvSolution rAU flux n st ->
  run_program (pressure_equation rAU flux n) dbg cx n bcs lin fvSchemes fvSolution [(t, dt)] st r ->
  exists st', r = Ok st' /\
    balanced (cx_mesh cx) [] (cx_surf cx rAU) (cx_dc cx) (ts_phi st) (fun c => - cell_balance (cx_mesh cx) (at0 (cx_surfV cx flux)) c)%Qc (vf_int (ts_phi st')) /\
    same_boundary (ts_phi st') (ts_phi st).
Proof.
  intros Hc Hrun. pose proof (proj1 (pc_fits _ _ _ _ _ _ _ _ Hc)) as Hm.
  destruct (C100_divergence_free _ _ _ _ _ _ _ _ _ _ _ _ Hc Hrun) as (f & F0 & -> & Fi).
  destruct (Fi 0 ltac:(cbn; lia)) as (L & D & _ & B). rewrite F0 in D, B. exists (f 1). split; [done|]. split; [|exact B].
  split; [done|]. intros c Hcc. specialize (D c Hcc). set (x := vf_int (ts_phi (f 1))) in *.
  rewrite (balance_congr (cx_mesh cx) Hm (convected (cx_mesh cx) [] (ts_phi st) x) (fun f => 0 * at0 [] f)%Qc) by (intros i _; unfold convected; rewrite no_flow; ring).
  rewrite (balance_congr (cx_mesh cx) Hm (corrected_flux cx rAU flux (ts_phi st) x) (fun f => at0 (cx_surfV cx flux) f + - (1) * diffused (cx_mesh cx) (cx_surf cx rAU) (cx_dc cx) (ts_phi st) x f)%Qc) in D by (intros i _; unfold corrected_flux; ring).
  rewrite balance_add, balance_scaled in D. rewrite balance_scaled. revert D.
  generalize (cell_balance (cx_mesh cx) (at0 (cx_surfV cx flux)) c) (cell_balance (cx_mesh cx) (diffused (cx_mesh cx) (cx_surf cx rAU) (cx_dc cx) (ts_phi st) x) c) (cell_balance (cx_mesh cx) (at0 []) c).
  intros a b d H. replace (0 * d)%Qc with 0%Qc by ring. revert H. qc_lra.
Qed.

(** The pressure is determined if no group of cells is cut off from all faces with
    prescribed pressure: two runs give the same one. *)
Theorem C113_pressure_unique : forall dbg1 dbg2 cx1 cx2 bcs1 bcs2 lin1 lin2 schemes1 schemes2 solution1 solution2 rAU1 rAU2 flux1 flux2 n1 n2 st1 st2 t1 dt1 t2 dt2 r1 r2,
  pressure_case cx1 lin1 schemes1 solution1 rAU1 flux1 n1 st1 -> pressure_case cx2 lin2 schemes2 solution2 rAU2 flux2 n2 st2 ->
  cx_mesh cx1 = cx_mesh cx2 -> cx_dc cx1 = cx_dc cx2 -> cx_surfV cx1 flux1 = cx_surfV cx2 flux2 -> cx_surf cx1 rAU1 = cx_surf cx2 rAU2 ->
  same_boundary (ts_phi st1) (ts_phi st2) ->
  diffusive (cx_mesh cx1) (cx_surf cx1 rAU1) (cx_dc cx1) -> mixed_boundary (cx_mesh cx1) (ts_phi st1) ->
  (forall U, ~ cut_off (cx_mesh cx1) [] (cx_surf cx1 rAU1) (cx_dc cx1) (ts_phi st1) U) ->
  run_program (pressure_equation rAU1 flux1 n1) dbg1 cx1 n1 bcs1 lin1 schemes1 solution1 [(t1, dt1)] st1 r1 ->
  run_program (pressure_equation rAU2 flux2 n2) dbg2 cx2 n2 bcs2 lin2 schemes2 solution2 [(t2, dt2)] st2 r2 ->
  exists st1' st2', r1 = Ok st1' /\ r2 = Ok st2' /\ vf_int (ts_phi st1') = vf_int (ts_phi st2').
Proof.
  intros dbg1 dbg2 cx1 cx2 bcs1 bcs2 lin1 lin2 schemes1 schemes2 solution1 solution2 rAU1 rAU2 flux1 flux2 n1 n2 st1 st2 t1 dt1 t2 dt2 r1 r2
    Hc1 Hc2 Em Ed Ef Eg Hsb Hdiff Hmix Hcut Hr1 Hr2. pose proof (proj1 (pc_fits _ _ _ _ _ _ _ _ Hc1)) as Hm.
  destruct (pressure_balanced _ _ _ _ _ _ _ _ _ _ _ _ _ Hc1 Hr1) as (st1' & -> & Hb1 & _).
  destruct (pressure_balanced _ _ _ _ _ _ _ _ _ _ _ _ _ Hc2 Hr2) as (st2' & -> & Hb2 & _).
  rewrite <- Em, <- Ed, <- Ef, <- Eg in Hb2. eexists _, _. split; [done|]. split; [done|].
  assert (Hw : forall x, with_int (ts_phi st2) x = with_int (ts_phi st1) x).
  { intros x. destruct Hsb as (S1 & S2 & S3 & S4). unfold with_int. by rewrite S1, S2, S3, S4. }
  apply (balanced_unique (cx_mesh cx1) Hm [] _ _ Hdiff (fun c _ => nonneg_eq _ _ (Qcle_refl 0%Qc) (eq_sym (no_flow_out _ Hm c))) (ts_phi st1) _ _ _ (mixed_inflow _ _ Hmix) Hcut Hb1).
  destruct Hb2 as [L2 E2]. split; [done|]. intros c Hc. rewrite <- (E2 c Hc). unfold convected, diffused. by rewrite Hw.
Qed.
Print Assumptions C113_pressure_unique.

(** It is not determined otherwise: raising the pressure in a group of cells that is
    cut off gives, from any result, another one.  So, if there is a result at all,
    it is the only one iff no group of cells is cut off. *)
Theorem C113_pressure_exactly : forall dbg cx bcs lin fvSchemes fvSolution rAU flux n st t dt st',
  pressure_case cx lin fvSchemes fvSolution rAU flux n st -> complete_solver lin ->
  diffusive (cx_mesh cx) (cx_surf cx rAU) (cx_dc cx) -> mixed_boundary (cx_mesh cx) (ts_phi st) ->
  let results x := exists st', run_program (pressure_equation rAU flux n) dbg cx n bcs lin fvSchemes fvSolution [(t, dt)] st (Ok st') /\ vf_int (ts_phi st') = x in
  results (vf_int (ts_phi st')) ->
  (forall U k, cut_off (cx_mesh cx) [] (cx_surf cx rAU) (cx_dc cx) (ts_phi st) U -> results (raised U k (vf_int (ts_phi st')))) /\
  ((forall x, results x -> x = vf_int (ts_phi st')) <->
   (forall U, ~ cut_off (cx_mesh cx) [] (cx_surf cx rAU) (cx_dc cx) (ts_phi st) U)).
Proof.
  intros dbg cx bcs lin fvSchemes fvSolution rAU flux n st t dt st' Hc Hlin Hdiff Hmix results Hres.
  pose proof (proj1 (pc_fits _ _ _ _ _ _ _ _ Hc)) as Hm.
  set (x := vf_int (ts_phi st')) in *.
  assert (Hx : length x = nCells (cx_mesh cx) /\ forall c, c < nCells (cx_mesh cx) -> cell_balance (cx_mesh cx) (corrected_flux cx rAU flux (ts_phi st) x) c = 0%Qc).
  { destruct Hres as (s & Hrun & Hs). destruct (C100_divergence_free _ _ _ _ _ _ _ _ _ _ _ _ Hc Hrun) as (f & F0 & Fr & Fi).
    destruct (Fi 0 ltac:(cbn; lia)) as (L & D & _ & _). rewrite F0 in D. injection Fr as ->. change (length [(t, dt)]) with 1 in Hs. rewrite Hs in L, D. done. }
  destruct Hx as [L D].
  assert (Hraise : forall U k, cut_off (cx_mesh cx) [] (cx_surf cx rAU) (cx_dc cx) (ts_phi st) U -> results (raised U k x)).
  { intros U k HU. exists (TState (with_int (ts_phi st) (raised U k x)) (ts_old st)). split; [|done].
    apply C100_every_solution; [done|done|unfold raised; by rewrite imap_length|]. intros c Hcc. rewrite <- (D c Hcc).
    apply (balance_congr (cx_mesh cx) Hm). intros f Hf. unfold corrected_flux. f_equal.
    apply (raised_flux (cx_mesh cx) Hm _ _ Hdiff _ U k x L); [|done|done]. intros b Hb. by apply Hmix. }
  split; [exact Hraise|]. split.
  - intros Hu U HU. pose proof (Hu _ (Hraise U 1%Qc HU)) as E. destruct HU as ((c & Hcc & Huc) & _).
    pose proof (at0_raised U 1%Qc x c ltac:(lia)) as Ec. rewrite E, Huc in Ec. revert Ec. generalize (at0 x c). qc_lra.
  - intros Hcut y (s & Hrun & <-). destruct Hres as (s' & Hrun' & Hs').
    assert (Hsb : same_boundary (ts_phi st) (ts_phi st)) by (repeat split).
    destruct (C113_pressure_unique dbg dbg cx cx bcs bcs lin lin fvSchemes fvSchemes fvSolution fvSolution rAU rAU flux flux n n st st t dt t dt (Ok s) (Ok s')
      Hc Hc eq_refl eq_refl eq_refl eq_refl Hsb Hdiff Hmix Hcut Hrun Hrun') as (a & b & Ea & Eb & E).
    injection Ea as <-. injection Eb as <-. congruence.
Qed.
Print Assumptions C113_pressure_exactly.

(** On a connected domain two results differ by a constant. *)
Theorem C113_pressure_level : forall dbg cx bcs lin fvSchemes fvSolution rAU flux n st t dt st1 st2,
  pressure_case cx lin fvSchemes fvSolution rAU flux n st ->
  diffusive (cx_mesh cx) (cx_surf cx rAU) (cx_dc cx) -> mixed_boundary (cx_mesh cx) (ts_phi st) ->
  (forall c c', c < nCells (cx_mesh cx) -> c' < nCells (cx_mesh cx) -> linked (cx_mesh cx) [] (cx_surf cx rAU) (cx_dc cx) c c') ->
  run_program (pressure_equation rAU flux n) dbg cx n bcs lin fvSchemes fvSolution [(t, dt)] st (Ok st1) ->
  run_program (pressure_equation rAU flux n) dbg cx n bcs lin fvSchemes fvSolution [(t, dt)] st (Ok st2) ->
  exists k, forall c, c < nCells (cx_mesh cx) -> at0 (vf_int (ts_phi st1)) c = (k + at0 (vf_int (ts_phi st2)) c)%Qc.
Proof.
  intros dbg cx bcs lin fvSchemes fvSolution rAU flux n st t dt st1 st2 Hc Hdiff Hmix Hl Hr1 Hr2.
  pose proof (proj1 (pc_fits _ _ _ _ _ _ _ _ Hc)) as Hm.
  destruct (pressure_balanced _ _ _ _ _ _ _ _ _ _ _ _ _ Hc Hr1) as (s1 & E1 & Hb1 & _). injection E1 as <-.
  destruct (pressure_balanced _ _ _ _ _ _ _ _ _ _ _ _ _ Hc Hr2) as (s2 & E2 & Hb2 & _). injection E2 as <-.
  exact (balanced_difference (cx_mesh cx) Hm [] _ _ Hdiff (fun c _ => nonneg_eq _ _ (Qcle_refl 0%Qc) (eq_sym (no_flow_out _ Hm c))) (ts_phi st) _ _ _ (mixed_inflow _ _ Hmix) Hl Hb1 Hb2).
Qed.
Print Assumptions C113_pressure_level.

(** With a linear solver that can return every solution, every field in balance is
    a result. *)
Theorem C113_every_solution : forall dbg cx bcs lin fvSchemes fvSolution flux gamma n st t dt x,
  steady_case cx lin fvSchemes fvSolution flux gamma n st -> complete_solver lin ->
  balanced (cx_mesh cx) (cx_surf cx flux) (cx_surf cx gamma) (cx_dc cx) (ts_phi st) (fun _ => 0%Qc) x ->
  run_program (steady_transport flux gamma n) dbg cx n bcs lin fvSchemes fvSolution [(t, dt)] st (Ok (TState (with_int (ts_phi st) x) (ts_old st))).
Proof.
  intros dbg cx bcs lin fvSchemes fvSolution flux gamma n st t dt x Hc Hlin [L Hx].
  destruct (steady_equation_spec _ _ _ _ _ _ _ _ Hc) as (sel & W & S & B & A & HS).
  destruct Hc as [Hcx Hst _ _ _ _ (name & Hname) Hpat Hex].
  destruct (C99_steady_complete dbg cx n bcs lin fvSchemes fvSolution name sel (declared (steady_bs flux gamma n)) pressure_eqn st (TState (with_int (ts_phi st) x) (ts_old st)) t dt Hcx Hst W S eq_refl ltac:(done) B A Hpat Hlin Hname) as (e & h' & h'' & Ee & Hrun).
  { split; [done|]. split; [|done]. intros c Hcc. cbn [ts_phi vf_int with_int]. rewrite HS by done. by apply Hx. }
  exists e, h'. split; [unfold steady_transport; by rewrite program_spec|].
  left. exists (h'', TState (with_int (ts_phi st) x) (ts_old st)). split; [|done]. cbn [time_loop]. left. eexists. split; [exact Hrun|]. done.
Qed.
Print Assumptions C113_every_solution.

(** ** Cases on the mesh fork3 *)
(** Fluid enters at boundary face 0 with the value 7, leaves at boundary face 1,
    where the gradient 3 is prescribed. *)
Definition stG (x : list Qc) : tstate := TState (VolField x [0; 0]%Qc [Q2Qc 7; 0%Qc] [1; 0]%Qc [0%Qc; Q2Qc 3]) None.
Definition xG : list Qc := [Q2Qc (65 # 8); Q2Qc (59 # 8); Q2Qc (77 # 8)].
Lemma cxD_steady st : state_ok cxD st -> steady_case cxD solve_exactly (schemesD "backwardEuler") solutionP 0 1 0 st.
Proof.
  intros Hst. destruct (cxD_case x0D eq_refl) as [H1 H2 H3 H4 H5 H6 H7 H8 H9 H10]. split; try done. exact (proj1 H1).
Qed.
Lemma fork3_supplied flux phi : at0 (vf_valueFraction phi) 0 = 1%Qc ->
  forall U, ~ cut_off fork3 flux [1; 1; 1; 1]%Qc [1; 1; 1; 1]%Qc phi U.
Proof.
  intros Hv. apply supplied_not_cut_off.
  assert (P : forall f, f < 4 -> (0 < face_conductance fork3 [1; 1; 1; 1]%Qc [1; 1; 1; 1]%Qc f)%Qc).
  { intros [|[|[|[|f]]]] Hf; try lia; vm_compute; reflexivity. }
  assert (S1 : supplied fork3 flux [1; 1; 1; 1]%Qc [1; 1; 1; 1]%Qc phi 1).
  { apply (supplied_here _ _ _ _ _ 1 0); [cbn; lia|]. split; [done|]. split; [rewrite Hv; vm_compute; reflexivity|]. left. apply P. cbn. lia. }
  assert (S0 : supplied fork3 flux [1; 1; 1; 1]%Qc [1; 1; 1; 1]%Qc phi 0).
  { apply (supplied_via _ _ _ _ _ 0 1 0); [cbn; lia| |cbn; lia|done]. left. split; [done|]. split; [done|]. left. apply P. lia. }
  cells3; try done.
  apply (supplied_via _ _ _ _ _ 2 0 1); [cbn; lia| |cbn; lia|done]. right. split; [done|]. split; [done|]. left. apply P. lia.
Qed.
Example C113_instance :
  steady_case cxD solve_exactly (schemesD "backwardEuler") solutionP 0 1 0 (stG [1; 1; 1]%Qc) /\
  run_program (steady_transport 0 1 0) false cxD 0 [] solve_exactly (schemesD "backwardEuler") solutionP [(0, 1)]%Qc (stG [1; 1; 1]%Qc) (Ok (stG xG)) /\
  (forall dbg bcs r, run_program (steady_transport 0 1 0) dbg cxD 0 bcs solve_exactly (schemesD "backwardEuler") solutionP [(0, 1)]%Qc (stG [0; 0; 0]%Qc) r ->
     exists st', r = Ok st' /\ vf_int (ts_phi st') = xG).
Proof.
  assert (Hc : forall x, length x = 3 -> steady_case cxD solve_exactly (schemesD "backwardEuler") solutionP 0 1 0 (stG x)).
  { intros x Hx. apply cxD_steady. split; [|done]. repeat split; done. }
  assert (Hrun : run_program (steady_transport 0 1 0) false cxD 0 [] solve_exactly (schemesD "backwardEuler") solutionP [(0, 1)]%Qc (stG [1; 1; 1]%Qc) (Ok (stG xG))).
  { apply (C113_every_solution false cxD [] solve_exactly (schemesD "backwardEuler") solutionP 0 1 0 (stG [1; 1; 1]%Qc) 0%Qc 1%Qc xG); [by apply Hc|apply solve_exactly_complete|].
    split; [done|]. cells3; apply Qc_is_canon; vm_compute; reflexivity. }
  split; [by apply Hc|]. split; [exact Hrun|]. intros dbg bcs r Hr. destruct cxD_bounds as (B1 & B2 & B3 & _).
  destruct (C113_unique dbg false cxD cxD bcs [] solve_exactly solve_exactly (schemesD "backwardEuler") (schemesD "backwardEuler") solutionP solutionP 0 0 1 1 0 0 (stG [0; 0; 0]%Qc) (stG [1; 1; 1]%Qc) 0%Qc 1%Qc 0%Qc 1%Qc r (Ok (stG xG))
    ltac:(by apply Hc) ltac:(by apply Hc) eq_refl eq_refl eq_refl eq_refl) as (s1 & s2 & -> & E2 & E); try done.
  - intros c Hcc. pose proof (B2 c Hcc) as E. change (0 <= cell_balance fork3 (at0 (cx_surf cxD 0)) c)%Qc. rewrite E. apply Qcle_refl.
  - cells3; (split; [vm_compute; discriminate|split; [vm_compute; discriminate|]]); [right; vm_compute; discriminate|by left].
  - by apply fork3_supplied.
  - exists s1. split; [done|]. injection E2 as <-. by rewrite E.
Qed.
(** The value 7 at the inlet, no gradient: 7 everywhere. *)
Example C113_bounded_instance : forall dbg bcs r,
  run_program (steady_transport 0 1 0) dbg cxD 0 bcs solve_exactly (schemesD "backwardEuler") solutionP [(0, 1)]%Qc (stD x0D) r ->
  exists st', r = Ok st' /\ cells_between fork3 (Q2Qc 7) (Q2Qc 7) (vf_int (ts_phi st')).
Proof.
  intros dbg bcs r Hr. destruct cxD_bounds as (B1 & B2 & B3 & B4).
  apply (C113_bounded dbg cxD bcs solve_exactly (schemesD "backwardEuler") solutionP 0 1 0 (stD x0D) 0%Qc 1%Qc r (Q2Qc 7) (Q2Qc 7)); try done.
  - apply cxD_steady. apply (cxD_case x0D eq_refl).
  - cells3; [right; split; apply Qcle_refl|by left].
  - by apply fork3_supplied.
Qed.
(** Without prescribed pressure the whole domain is cut off, and pressures are
    determined up to a constant. *)
Example C113_pressure_instance :
  cut_off fork3 [] (cx_surf cxP 0) (cx_dc cxP) (ts_phi (stP [1; 1; 1]%Qc)) (fun _ => true) /\
  diffusive fork3 (cx_surf cxP 0) (cx_dc cxP) /\ mixed_boundary fork3 (ts_phi (stP [1; 1; 1]%Qc)) /\
  (forall c c', c < nCells fork3 -> c' < nCells fork3 -> linked fork3 [] (cx_surf cxP 0) (cx_dc cxP) c c') /\
  (forall st1, run_program (pressure_equation 0 0 0) false cxP 0 [] solve_exactly schemesP solutionP [(0, 1)]%Qc (stP [1; 1; 1]%Qc) (Ok st1) ->
     exists k, forall c, c < 3 -> at0 (vf_int (ts_phi st1)) c = (k + at0 [0%Qc; Q2Qc 2; Q2Qc (-2)] c)%Qc).
Proof.
  assert (P : forall f, f < 4 -> (0 < face_conductance fork3 (cx_surf cxP 0) (cx_dc cxP) f)%Qc).
  { intros [|[|[|[|f]]]] Hf; try lia; vm_compute; reflexivity. }
  assert (H1 : diffusive fork3 (cx_surf cxP 0) (cx_dc cxP)) by (cells3; repeat split; vm_compute; discriminate).
  assert (H2 : mixed_boundary fork3 (ts_phi (stP [1; 1; 1]%Qc))) by (cells3; split; vm_compute; discriminate).
  assert (H3 : forall c c', c < nCells fork3 -> c' < nCells fork3 -> linked fork3 [] (cx_surf cxP 0) (cx_dc cxP) c c').
  { assert (T0 : forall c, c < 3 -> linked fork3 [] (cx_surf cxP 0) (cx_dc cxP) c 0).
    { intros [|[|[|c]]] Hcc; try lia; [constructor| |].
      - apply (linked_via _ _ _ _ 1 1 0 0); [constructor|cbn; lia| |cbn; lia]. right. split; [done|]. split; [done|]. left. apply P. lia.
      - apply (linked_via _ _ _ _ 2 2 0 1); [constructor|cbn; lia| |cbn; lia]. right. split; [done|]. split; [done|]. left. apply P. lia. }
    intros c c' Hcc Hc'. cbn in Hcc, Hc'. destruct c' as [|[|[|c']]]; try lia; [by apply T0| |].
    - apply (linked_via _ _ _ _ c 0 1 0); [by apply T0|cbn; lia| |cbn; lia]. left. split; [done|]. split; [done|]. left. apply P. lia.
    - apply (linked_via _ _ _ _ c 0 2 1); [by apply T0|cbn; lia| |cbn; lia]. left. split; [done|]. split; [done|]. left. apply P. lia. }
  split; [|split; [done|split; [done|split; [done|]]]].
  - split; [exists 0; split; [cbn; lia|done]|]. split; [done|]. intros c b _ Hb _ (_ & Hpos & _). cbn in Hb. destruct b as [|[|b]]; try lia; vm_compute in Hpos; done.
  - intros st1 Hr. destruct C100_instance as (A1 & A2 & A3 & _).
    exact (C113_pressure_level false cxP [] solve_exactly schemesP solutionP 0 0 0 (stP [1; 1; 1]%Qc) 0%Qc 1%Qc st1 _ A1 H1 H2 H3 Hr A3).
Qed.
