(** C100: the pressure equation imp::laplacian(rAU, p) - exp::div(phi). *)
From Coq Require Import Lqa.
From Verif Require Import Base Dict Registry Par Exec Fields FieldsProofs Value Kernel Mesh MeshSpec Coeff FV FVSpec FVProofs FVProps Sparsity SparsitySpec SparsityDet Assembly AssemblySpec AssemblyProps
  Boundary Properties_Boundary Properties_CoNum ExampleMesh Properties_Sparsity Properties_Assembly Dsl DslSpec DslHeapProofs DslProofs DslAssembly Properties_Dsl Properties_DslAssembly
  TimeInt TimeSpec TimeIntProofs TimeIntSteps Properties_TimeInt FrontEnd SteadySolve Transport TransportProofs Properties_Transport Properties_Steady QcLra.
Local Open Scope nat_scope.

(** Expression eqn = imp::laplacian(rAU, p) - exp::div(phi); p is field [n]. *)
Definition pressure_equation (rAU flux n : nat) : outcome (expression * heap Qc) :=
  program [ImpLaplacian rAU n; ExpIntegrate flux] (EOpMinus (TermS (SVar 0)) (TermS (SVar 1))).

(** Mesh, fields and dictionaries fit; the linear solver, when it returns,
    returns a solution; the pattern solve() builds is the cached one (C84). *)
Record pressure_case cx lin (fvSchemes fvSolution : dict) (rAU flux n : nat) (st : tstate) : Prop := {
  pc_fits : cx_fits cx;
  pc_state : state_ok cx st;
  pc_rAU : length (cx_surf cx rAU) = nFaces (cx_mesh cx);
  pc_flux : length (cx_surfV cx flux) = nFaces (cx_mesh cx);
  pc_laplacian : exists s, (laplacian_build (cx_surfName cx rAU) (cx_volName cx n) (IDict fvSchemes)).1 = Ok s;
  pc_solver : exists name, solver_create fvSolution = Ok name;
  pc_pattern : surely (sp_create (cx_exec cx) (cx_mesh cx)) (cx_pattern cx);
  pc_exact : exact_solver lin;
}.

(** The corrected flux phi - rAU |Sf| snGrad(p) for cell pressures [x]. *)
Definition corrected_flux cx (rAU flux : nat) (p : volField Qc) (x : list Qc) (f : nat) : Qc :=
  (at0 (cx_surfV cx flux) f - diffused (cx_mesh cx) (cx_surf cx rAU) (cx_dc cx) p x f)%Qc.

Definition pressure_bs (rAU flux n : nat) := [ImpLaplacian rAU n; ExpIntegrate flux].
Definition pressure_eqn : equation := EOpMinus (TermS (SVar 0)) (TermS (SVar 1)).
Lemma pressure_equation_spec cx lin fvSchemes fvSolution rAU flux n st : pressure_case cx lin fvSchemes fvSolution rAU flux n st ->
  let h := declared (pressure_bs rAU flux n) in exists sel,
  equation_wf h (nCells (cx_mesh cx)) pressure_eqn /\ single_fields h pressure_eqn /\
  schemes_selected cx fvSchemes sel h pressure_eqn /\ all_supported cx n sel h pressure_eqn st /\
  forall s x c, c < nCells (cx_mesh cx) -> steady_at cx n sel h pressure_eqn s x c =
    (- cell_balance (cx_mesh cx) (corrected_flux cx rAU flux (ts_phi s) x) c)%Qc.
Proof.
  intros [Hcx Hst Hga Hfl (ls & Hla) (name & Hname) Hpat Hex] h.
  set (sel := fun k : spatialKind Qc => match k with LaplacianOperator g p _ => LaplacianOperator g p true | k => k end).
  pose proof Hst as [(Hi & Hv & Hrv & Hvf & Hrg) Ho].
  assert (Hobj : forall p o, p ∈ spatial_objects pressure_eqn -> h_spatial h !! p = Some o ->
    o = SpatialOp (LaplacianOperator rAU n false) Implicit (coeff_scalar 1%Qc) \/ o = SpatialOp (SurfaceIntegrate flux) Explicit (coeff_scalar 1%Qc)).
  { intros p o Hp. cbn in Hp. apply elem_of_list_In in Hp. destruct Hp as [<-|[<-|[]]]; cbn; intros E; injection E as <-; auto. }
  exists sel. split; [|split; [|split; [|split]]].
  - cbn. split; eexists; (split; [reflexivity|done]).
  - cbn. split; lia.
  - intros p o Hp E. destruct (Hobj p o Hp E) as [-> | ->]; cbn [op_build so_kind so_type so_coeff]; [by rewrite Hla|done].
  - split.
    + intros p o Hp E. destruct (Hobj p o Hp E) as [-> | ->]; cbn; (split; [|done]); rewrite ?(decide_True (P := n = n)) by done; [|done].
      split; [done|]. split; [done|]. split; [done|]. repeat split; done.
    + intros p o Hp E. cbn in Hp. by apply elem_of_nil in Hp.
  - intros s x c Hc. unfold steady_at, pressure_eqn. cbn [equation_value term_value tterm_value sterm_value]. unfold object_value, object_value_T.
    unfold h, pressure_bs. cbn [declared omap list_omap builder_spatial builder_temporal h_spatial h_temporal lookup list_lookup so_coeff so_type so_kind to_coeff to_type to_phi sel].
    unfold implicit_kind, explicit_kind, surface_integral_spec, per_volume. cbn [at_state cx_mesh cx_surf cx_surfV cx_vol cx_dc cx_old]. rewrite !decide_True by done.
    pose proof (vol_nz (cx_mesh cx) (proj1 Hcx) c Hc) as Hnz.
    unfold coeff_val, coeff_scalar, coeff_default. cbn [coeff_ view_].
    assert (Hb : cell_balance (cx_mesh cx) (corrected_flux cx rAU flux (ts_phi s) x) c =
      (cell_balance (cx_mesh cx) (at0 (cx_surfV cx flux)) c + - (1) * cell_balance (cx_mesh cx) (diffused (cx_mesh cx) (cx_surf cx rAU) (cx_dc cx) (ts_phi s) x) c)%Qc).
    { rewrite <- (balance_scaled (cx_mesh cx)), <- (balance_add (cx_mesh cx)). apply (balance_congr (cx_mesh cx) (proj1 Hcx)). intros f _. unfold corrected_flux. ring. }
    rewrite Hb. unfold diffused, vsub. cbn [vadd vneg vscale Qc_value]. change (@atV Qc Qc_value) with at0.
    generalize (cell_balance (cx_mesh cx) (at0 (cx_surfV cx flux)) c). intros B. field. done.
Qed.

(** Every call of solve() that ends, ends normally with a pressure for which the
    corrected flux has no divergence: nothing accumulates in any cell.  Later
    calls repeat this with the boundary data unchanged. *)
Theorem C100_divergence_free : forall dbg cx bcs lin fvSchemes fvSolution rAU flux n st l r,
  pressure_case cx lin fvSchemes fvSolution rAU flux n st ->
  run_program (pressure_equation rAU flux n) dbg cx n bcs lin fvSchemes fvSolution l st r ->
  exists f, f 0 = st /\ r = Ok (f (length l)) /\
    forall i, i < length l -> length (vf_int (ts_phi (f (S i)))) = nCells (cx_mesh cx) /\
      (forall c, c < nCells (cx_mesh cx) ->
        cell_balance (cx_mesh cx) (corrected_flux cx rAU flux (ts_phi (f i)) (vf_int (ts_phi (f (S i))))) c = 0%Qc) /\
      ts_old (f (S i)) = ts_old (f i) /\ same_boundary (ts_phi (f (S i))) (ts_phi (f i)).
Proof.
  intros dbg cx bcs lin fvSchemes fvSolution rAU flux n st l r Hc (e & h & Ep & Hrun).
  destruct (pressure_equation_spec _ _ _ _ _ _ _ _ Hc) as (sel & W & S & B & A & HS).
  destruct Hc as [Hcx Hst _ _ _ (name & Hname) Hpat Hex].
  unfold pressure_equation in Ep. rewrite program_spec in Ep.
  destruct (C99_steady_solve dbg cx n bcs lin fvSchemes fvSolution name sel _ _ st Hcx Hst W S eq_refl ltac:(done) B A Hpat Hex Hname) as (e' & h' & Ee & HL).
  unfold pressure_bs, pressure_eqn in Ee. rewrite Ep in Ee. injection Ee as <- <-.
  assert (Hr : exists f, f 0 = st /\ r = Ok (f (length l)) /\
      forall i, i < length l -> solves_steady cx n sel (declared (pressure_bs rAU flux n)) pressure_eqn (f i) (f (Datatypes.S i))).
  { destruct Hrun as [([h2 s2] & H1 & ->)|[(x & H1 & ->)|[(H1 & ->)|(H1 & ->)]]]; destruct (HL _ _ H1) as (f & h'' & F0 & Fr & Fi); try done.
    injection Fr as -> ->. exists f. done. }
  destruct Hr as (f & F0 & -> & Fi). exists f. split; [done|]. split; [done|].
  intros i Hi. destruct (Fi i Hi) as (L & E & O & P). split; [done|]. split.
  - intros c Hcc. pose proof (E c Hcc) as Ec. rewrite HS in Ec by done. revert Ec. generalize (cell_balance (cx_mesh cx) (corrected_flux cx rAU flux (ts_phi (f i)) (vf_int (ts_phi (f (Datatypes.S i))))) c). intros q Hq. qc_lra.
  - split; [done|]. rewrite P. repeat split.
Qed.
Print Assumptions C100_divergence_free.

(** Every pressure with that property is a possible result of a solver that can
    return every solution. *)
Theorem C100_every_solution : forall dbg cx bcs lin fvSchemes fvSolution rAU flux n st t dt x,
  pressure_case cx lin fvSchemes fvSolution rAU flux n st -> complete_solver lin ->
  length x = nCells (cx_mesh cx) ->
  (forall c, c < nCells (cx_mesh cx) -> cell_balance (cx_mesh cx) (corrected_flux cx rAU flux (ts_phi st) x) c = 0%Qc) ->
  run_program (pressure_equation rAU flux n) dbg cx n bcs lin fvSchemes fvSolution [(t, dt)] st (Ok (TState (with_int (ts_phi st) x) (ts_old st))).
Proof.
  intros dbg cx bcs lin fvSchemes fvSolution rAU flux n st t dt x Hc Hlin L Hx.
  destruct (pressure_equation_spec _ _ _ _ _ _ _ _ Hc) as (sel & W & S & B & A & HS).
  destruct Hc as [Hcx Hst _ _ _ (name & Hname) Hpat Hex].
  destruct (C99_steady_complete dbg cx n bcs lin fvSchemes fvSolution name sel (declared (pressure_bs rAU flux n)) pressure_eqn st (TState (with_int (ts_phi st) x) (ts_old st)) t dt Hcx Hst W S eq_refl ltac:(done) B A Hpat Hlin Hname) as (e & h' & h'' & Ee & Hrun).
  { split; [done|]. split; [|done]. intros c Hcc. cbn [ts_phi vf_int with_int]. rewrite HS, Hx by done. ring. }
  exists e, h'. split; [unfold pressure_equation; by rewrite program_spec|].
  left. exists (h'', TState (with_int (ts_phi st) x) (ts_old st)). split; [|done]. cbn [time_loop]. left. eexists. split; [exact Hrun|]. done.
Qed.
Print Assumptions C100_every_solution.

(** Compatibility: what enters through the boundary leaves through it, after
    correction; so with zero gradients prescribed everywhere, there is a result
    only if the fluxes through the boundary add up to zero. *)
Theorem C100_compatible : forall dbg cx bcs lin fvSchemes fvSolution rAU flux n st t dt r,
  pressure_case cx lin fvSchemes fvSolution rAU flux n st ->
  run_program (pressure_equation rAU flux n) dbg cx n bcs lin fvSchemes fvSolution [(t, dt)] st r ->
  (forall b, b < nBoundaryFaces (cx_mesh cx) -> at0 (vf_valueFraction (ts_phi st)) b = 0%Qc /\ at0 (vf_refGrad (ts_phi st)) b = 0%Qc) ->
  vsum_over (nBoundaryFaces (cx_mesh cx)) (fun b => at0 (cx_surfV cx flux) (nInternalFaces (cx_mesh cx) + b)) = 0%Qc.
Proof.
  intros dbg cx bcs lin fvSchemes fvSolution rAU flux n st t dt r Hc Hrun Hz.
  destruct (C100_divergence_free _ _ _ _ _ _ _ _ _ _ _ _ Hc Hrun) as (f & F0 & Fr & Fi).
  destruct (Fi 0 ltac:(cbn; lia)) as (L & D & _ & _). rewrite F0 in D. set (x := vf_int (ts_phi (f 1))) in *.
  pose proof (balance_total (cx_mesh cx) (proj1 (pc_fits _ _ _ _ _ _ _ _ Hc)) (V := Qc) (corrected_flux cx rAU flux (ts_phi st) x)) as Ht.
  rewrite (vsum_over_zero (nCells (cx_mesh cx))) in Ht by (intros c Hcc; by apply D).
  etransitivity; [|symmetry; exact Ht]. apply vsum_over_ext. intros b Hb. destruct (Hz b Hb) as [Z1 Z2].
  unfold corrected_flux, diffused, implicit_normal_gradient. rewrite decide_False by lia.
  replace (nInternalFaces (cx_mesh cx) + b - nInternalFaces (cx_mesh cx)) with b by lia. cbn [with_int vf_valueFraction vf_refGrad].
  rewrite Z1. change (@atV Qc Qc_value) with at0. rewrite Z2. cbn [vadd vscale Qc_value]. ring.
Qed.
Print Assumptions C100_compatible.

(** Only pressure differences matter then: adding a constant to a result gives
    another. *)
Theorem C100_level : forall dbg cx bcs lin fvSchemes fvSolution rAU flux n st t dt st' k,
  pressure_case cx lin fvSchemes fvSolution rAU flux n st -> complete_solver lin ->
  run_program (pressure_equation rAU flux n) dbg cx n bcs lin fvSchemes fvSolution [(t, dt)] st (Ok st') ->
  (forall b, b < nBoundaryFaces (cx_mesh cx) -> at0 (vf_valueFraction (ts_phi st)) b = 0%Qc) ->
  run_program (pressure_equation rAU flux n) dbg cx n bcs lin fvSchemes fvSolution [(t, dt)] st
    (Ok (TState (with_int (ts_phi st) (map (Qcplus k) (vf_int (ts_phi st')))) (ts_old st))).
Proof.
  intros dbg cx bcs lin fvSchemes fvSolution rAU flux n st t dt st' k Hc Hlin Hrun Hz.
  destruct (C100_divergence_free _ _ _ _ _ _ _ _ _ _ _ _ Hc Hrun) as (f & F0 & Fr & Fi).
  destruct (Fi 0 ltac:(cbn; lia)) as (L & D & _ & _). rewrite F0 in D. injection Fr as ->. change (length [(t, dt)]) with 1. set (x := vf_int (ts_phi (f 1))) in *.
  pose proof (proj1 (pc_fits _ _ _ _ _ _ _ _ Hc)) as Hm.
  apply C100_every_solution; [done|done|by rewrite map_length|]. intros c Hcc. rewrite <- (D c Hcc). apply (balance_congr (cx_mesh cx) Hm).
  intros i Hi. unfold corrected_flux, diffused. do 2 f_equal. unfold implicit_normal_gradient.
  assert (E : forall j, j < nCells (cx_mesh cx) -> at0 (map (Qcplus k) x) j = (k + at0 x j)%Qc).
  { intros j Hj. unfold at0. change (map (Qcplus k) x) with (Qcplus k <$> x). rewrite list_lookup_fmap. destruct (lookup_lt_is_Some_2 x j) as [y ->]; [by rewrite L|]. done. }
  destruct (decide (i < nInternalFaces (cx_mesh cx))) as [Hin|Hin].
  - unfold at_neighbour, at_owner. change (@atV Qc Qc_value) with at0. cbn [with_int vf_int].
    rewrite !E by (by apply (vt_nei _ Hm) || by apply owner_lt). vring.
  - rewrite (vt_faces _ Hm) in Hi. cbn [with_int vf_valueFraction]. rewrite (Hz (i - nInternalFaces (cx_mesh cx))) by lia. cbn [vf_refValue vf_refGrad vf_int]. cbn [vadd vscale Qc_value]. by rewrite !Qcmult_0_l.
Qed.
Print Assumptions C100_level.

(** ** Cases on the mesh fork3 *)
(** Flux 2 in at boundary face 0, 2 out at boundary face 1, nothing inside;
    no pressure prescribed anywhere. *)
Definition cxP : ctx Qc :=
  Ctx SerialExecutor fork3 [1; 1; 1; 1]%Qc [1; 1; 1; 1]%Qc patA
      (fun _ => [1; 1; 1; 1]%Qc) (fun _ => [0%Qc; 0%Qc; Q2Qc (-2); Q2Qc 2]) (fun _ => phi3)
      (fun _ => [1; 1; 1]%Qc) (fun _ => [1; 1; 1]%Qc) (fun _ => "rAU"%string) (fun _ => "p"%string).
Definition schemesP : dict :=
  [("laplacianSchemes", ADict [("laplacian(rAU,p)", ATokens [AString "Gauss"; AString "linear"; AString "uncorrected"] 0)])]%string.
Definition solutionP : dict := [("solver", AString "Ginkgo")]%string.
Definition stP (x : list Qc) : tstate := TState (VolField x [0; 0]%Qc [0; 0]%Qc [0; 0]%Qc [0; 0]%Qc) None.
Lemma cxP_case x : length x = 3 -> pressure_case cxP solve_exactly schemesP solutionP 0 0 0 (stP x).
Proof.
  intros Hx. split; [|split; [repeat split; done|done]|done|done| | | |apply solve_exactly_exact].
  - destruct cxD_setup as ((H1 & H2 & H3 & H4 & H5 & H6 & _) & _). repeat (split; [done|]). by left.
  - eexists. vm_compute. reflexivity.
  - eexists. vm_compute. reflexivity.
  - apply C48_serial_pattern; [apply fork3_topology|apply fork3_fit|apply patA_serial].
Qed.
Example C100_instance :
  pressure_case cxP solve_exactly schemesP solutionP 0 0 0 (stP [1; 1; 1]%Qc) /\ complete_solver solve_exactly /\
  run_program (pressure_equation 0 0 0) false cxP 0 [] solve_exactly schemesP solutionP [(0, 1)]%Qc (stP [1; 1; 1]%Qc) (Ok (stP [0%Qc; Q2Qc 2; Q2Qc (-2)])) /\
  run_program (pressure_equation 0 0 0) false cxP 0 [] solve_exactly schemesP solutionP [(0, 1)]%Qc (stP [1; 1; 1]%Qc) (Ok (stP [Q2Qc 7; Q2Qc 9; Q2Qc 5])).
Proof.
  split; [by apply cxP_case|]. split; [apply solve_exactly_complete|].
  assert (H : run_program (pressure_equation 0 0 0) false cxP 0 [] solve_exactly schemesP solutionP [(0, 1)]%Qc (stP [1; 1; 1]%Qc) (Ok (stP [0%Qc; Q2Qc 2; Q2Qc (-2)]))).
  { apply (C100_every_solution false cxP [] solve_exactly schemesP solutionP 0 0 0 (stP [1; 1; 1]%Qc) 0%Qc 1%Qc [0%Qc; Q2Qc 2; Q2Qc (-2)]); [by apply cxP_case|apply solve_exactly_complete|done|].
    cells3; apply Qc_is_canon; vm_compute; reflexivity. }
  split; [done|].
  pose proof (C100_level false cxP [] solve_exactly schemesP solutionP 0 0 0 (stP [1; 1; 1]%Qc) 0%Qc 1%Qc _ (Q2Qc 7) ltac:(by apply cxP_case) solve_exactly_complete H) as H2.
  assert (E : map (Qcplus (Q2Qc 7)) [0%Qc; Q2Qc 2; Q2Qc (-2)] = [Q2Qc 7; Q2Qc 9; Q2Qc 5]) by reflexivity.
  cbn [stP ts_phi vf_int] in H2. rewrite E in H2. apply H2. intros [|[|b]] Hb; try done; cbn in Hb; lia.
Qed.
