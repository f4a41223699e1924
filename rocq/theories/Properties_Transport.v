(** C91-C95: programs that solve transport equations. *)
From Coq Require Import Lqa.
From Verif Require Import Base Dict Registry Par Exec Reduce ReduceProofs Fields FieldsProofs Value Kernel Mesh MeshSpec Coeff FV FVSpec Sparsity SparsitySpec SparsityDet Assembly AssemblySpec AssemblyProps
  Boundary Properties_Boundary CoNum Properties_CoNum ExampleMesh Properties_Sparsity Properties_Assembly Dsl DslSpec DslHeapProofs DslProofs DslAssembly Properties_Dsl Properties_DslAssembly
  TimeInt TimeSpec TimeIntProofs TimeIntSteps Properties_TimeInt FrontEnd Transport TransportProofs QcLra.
Local Open Scope nat_scope.

(** * The programs *)

(** Expression eqn = imp::ddt(T) + imp::div(flux, T) - imp::laplacian(gamma, T);
    T is field number [n]. *)
Definition implicit_transport (flux gamma n : nat) : outcome (expression * heap Qc) :=
  program [ImpDdt n; ImpDiv flux n; ImpLaplacian gamma n]
    (EMinusOp (EOpPlus (TermT (TVar 0)) (TermS (SVar 0))) (SVar 1)).
(** Expression eqn = imp::ddt(T) + exp::div(flux, T) *)
Definition explicit_transport (flux n : nat) : outcome (expression * heap Qc) :=
  program [ImpDdt n; ExpDiv flux n] (EOpPlus (TermT (TVar 0)) (TermS (SVar 0))).
(** ... followed by a time loop that calls solve at the times and with the step
    sizes [l]. *)
Definition run_program (eqn : outcome (expression * heap Qc)) dbg cx n bcs lin fvSchemes fvSolution (l : list (Qc * Qc)) (st : tstate) (r : outcome tstate) : Prop :=
  exists e h, eqn = Ok (e, h) /\
    rseq (time_loop dbg cx n bcs lin fvSchemes fvSolution e l h st) (fun a r' => r' = Ok a.2) r.

(** A case for which backward Euler is set up properly: mesh, fields and
    dictionaries fit; the linear solver, when it returns, returns a solution; the
    pattern the step builds is the cached one (C84). *)
Record implicit_case cx bcs lin (fvSchemes : dict) (flux gamma n : nat) (st : tstate) : Prop := {
  ic_setup : setup_ok cx bcs;
  ic_state : state_ok cx st;
  ic_flux : length (cx_surf cx flux) = nFaces (cx_mesh cx);
  ic_gamma : length (cx_surf cx gamma) = nFaces (cx_mesh cx);
  ic_div : exists s, (div_build (cx_surfName cx flux) (cx_volName cx n) (IDict fvSchemes)).1 = Ok s;
  ic_laplacian : exists s, (laplacian_build (cx_surfName cx gamma) (cx_volName cx n) (IDict fvSchemes)).1 = Ok s;
  ic_ddt : exists schemes, dict_subDict fvSchemes "ddtSchemes" = Ok schemes /\ get_string schemes "type" = Ok "backwardEuler"%string;
  ic_solver : exists name, solver_create fvSchemes = Ok name;
  ic_pattern : surely (sp_create (cx_exec cx) (cx_mesh cx)) (cx_pattern cx);
  ic_exact : exact_solver lin;
}.
Record explicit_case cx bcs (fvSchemes : dict) (flux n : nat) (st : tstate) : Prop := {
  ec_setup : setup_ok cx bcs;
  ec_state : state_ok cx st;
  ec_flux : length (cx_surf cx flux) = nFaces (cx_mesh cx);
  ec_div : exists s, (div_build (cx_surfName cx flux) (cx_volName cx n) (IDict fvSchemes)).1 = Ok (s, "upwind"%string);
  ec_ddt : exists schemes, dict_subDict fvSchemes "ddtSchemes" = Ok schemes /\ get_string schemes "type" = Ok "forwardEuler"%string;
}.

(** Boundary data of two fields is the same. *)
Definition same_boundary (phi psi : volField Qc) : Prop :=
  vf_value phi = vf_value psi /\ vf_refValue phi = vf_refValue psi /\ vf_valueFraction phi = vf_valueFraction psi /\ vf_refGrad phi = vf_refGrad psi.

(** * C91 *)
Definition implicit_bs (flux gamma n : nat) := [ImpDdt n; ImpDiv flux n; ImpLaplacian gamma n].
Definition implicit_eqn : equation := EMinusOp (EOpPlus (TermT (TVar 0)) (TermS (SVar 0))) (SVar 1).
(** The requirements of C48 for this program, and what its steps mean. *)
Lemma implicit_law cx bcs lin fvSchemes flux gamma n st : implicit_case cx bcs lin fvSchemes flux gamma n st ->
  let h := declared (implicit_bs flux gamma n) in exists sel,
  equation_wf h (nCells (cx_mesh cx)) implicit_eqn /\ single_fields h implicit_eqn /\ temporal_objects implicit_eqn <> [] /\
  schemes_selected cx fvSchemes sel h implicit_eqn /\ all_supported cx n sel h implicit_eqn st /\
  (forall p o, p ∈ spatial_objects implicit_eqn -> h_spatial h !! p = Some o -> so_type o = Implicit) /\
  forall dt s x c, equation_at cx n sel h implicit_eqn dt s x c =
    (at0 (cellVolumes (cx_mesh cx)) c / dt * (at0 x c - at0 (old_of s) c) +
     cell_balance (cx_mesh cx) (convected (cx_mesh cx) (cx_surf cx flux) (ts_phi s) x) c -
     cell_balance (cx_mesh cx) (diffused (cx_mesh cx) (cx_surf cx gamma) (cx_dc cx) (ts_phi s) x) c)%Qc.
Proof.
  intros [Hset Hst Hfl Hga (ds & Hd) (ls & Hla) (schemes & Hs1 & Hs2) (name & Hname) Hpat Hex] h.
  set (sel := fun k : spatialKind Qc => match k with DivOperator f p _ => DivOperator f p (Some (if decide (ds.2 = "upwind"%string) then Upwind else Linear)) | LaplacianOperator g p _ => LaplacianOperator g p true | k => k end).
  pose proof (Hst) as [(Hi & Hv & Hrv & Hvf & Hrg) Ho].
  assert (Hobj : forall p o, p ∈ spatial_objects implicit_eqn -> h_spatial h !! p = Some o ->
    o = SpatialOp (DivOperator flux n None) Implicit (coeff_scalar 1%Qc) \/ o = SpatialOp (LaplacianOperator gamma n false) Implicit (coeff_scalar 1%Qc)).
  { intros p o Hp. cbn in Hp. apply elem_of_list_In in Hp. destruct Hp as [<-|[<-|[]]]; cbn; intros E; injection E as <-; auto. }
  exists sel. split; [|split; [|split; [|split; [|split; [|split]]]]].
  - cbn. split; [split|]; eexists; (split; [reflexivity|done]).
  - cbn. split; lia.
  - done.
  - intros p o Hp E. destruct (Hobj p o Hp E) as [-> | ->]; cbn [op_build so_kind so_type so_coeff].
    + rewrite Hd. destruct ds as [s1 s2]. done.
    + rewrite Hla. done.
  - split.
    + intros p o Hp E. destruct (Hobj p o Hp E) as [-> | ->]; cbn; (split; [|done]); rewrite ?(decide_True (P := n = n)) by done; (split; [done|]; split; [done|]; split; [done|]; repeat split; done).
    + intros p o Hp E. cbn in Hp. apply elem_of_list_singleton in Hp as ->. cbn in E. injection E as <-. cbn. by rewrite decide_True.
  - intros p o Hp E. by destruct (Hobj p o Hp E) as [-> | ->].
  - intros dt s x c. unfold equation_at, implicit_eqn. cbn [equation_value term_value tterm_value sterm_value]. unfold object_value, object_value_T.
      unfold h, implicit_bs. cbn [declared omap list_omap builder_spatial builder_temporal h_spatial h_temporal lookup list_lookup so_coeff so_type so_kind to_coeff to_type to_phi sel].
      unfold implicit_ddt, implicit_kind. cbn [at_state cx_mesh cx_surf cx_vol cx_dc cx_old]. rewrite !decide_True by done.
      unfold vsub, coeff_val, coeff_scalar. cbn [vadd vneg vscale Qc_value coeff_ view_].
      change (@atV Qc Qc_value) with at0. unfold convected, diffused. ring.
Qed.
Lemma implicit_equation cx bcs lin fvSchemes flux gamma n st : implicit_case cx bcs lin fvSchemes flux gamma n st ->
  let h := declared (implicit_bs flux gamma n) in exists sel,
  equation_wf h (nCells (cx_mesh cx)) implicit_eqn /\ single_fields h implicit_eqn /\ temporal_objects implicit_eqn <> [] /\
  schemes_selected cx fvSchemes sel h implicit_eqn /\ all_supported cx n sel h implicit_eqn st /\
  (forall p o, p ∈ spatial_objects implicit_eqn -> h_spatial h !! p = Some o -> so_type o = Implicit) /\
  forall dt s s', solves_step cx n sel h implicit_eqn dt s s' <->
    transported (cx_mesh cx) (cx_surf cx flux) (cx_surf cx gamma) (cx_dc cx) dt (ts_phi s) (old_of s) (vf_int (ts_phi s')) /\
    ts_old s' = Some (vf_int (ts_phi s')) /\ ts_phi s' = with_int (ts_phi s) (vf_int (ts_phi s')).
Proof.
  intros Hc h. destruct (implicit_law _ _ _ _ _ _ _ _ Hc) as (sel & A1 & A2 & A3 & A4 & A5 & A6 & Hlaw).
  exists sel. do 6 (split; [done|]). intros dt s s'. unfold solves_step, transported, cell_law. split.
  - intros (Hlen & Heq & Hold & Hphi). split; [|done]. split; [done|]. intros c Hcc. rewrite <- Hlaw. by apply Heq.
  - intros ((Hlen & Heq) & Hold & Hphi). split; [done|]. split; [|done]. intros c Hcc. rewrite Hlaw. by apply Heq.
Qed.

(** Every run of the implicit program that ends, ends normally; every step
    satisfies the discrete transport equation exactly, in every cell, and leaves
    the boundary data alone. *)
Theorem C91_implicit_transport : forall dbg cx bcs lin fvSchemes fvSolution flux gamma n st l r,
  implicit_case cx bcs lin fvSchemes flux gamma n st ->
  run_program (implicit_transport flux gamma n) dbg cx n bcs lin fvSchemes fvSolution l st r ->
  exists f, f 0 = st /\ r = Ok (f (length l)) /\
    forall i t dt, l !! i = Some (t, dt) ->
      transported (cx_mesh cx) (cx_surf cx flux) (cx_surf cx gamma) (cx_dc cx) dt (ts_phi (f i)) (old_of (f i)) (vf_int (ts_phi (f (S i)))) /\
      old_of (f (S i)) = vf_int (ts_phi (f (S i))) /\ same_boundary (ts_phi (f (S i))) (ts_phi (f i)).
Proof.
  intros dbg cx bcs lin fvSchemes fvSolution flux gamma n st l r Hc (e & h & Ep & Hrun).
  destruct (implicit_equation _ _ _ _ _ _ _ _ Hc) as (sel & W & S & T & B & A & I & HS).
  destruct Hc as [Hset Hst _ _ _ _ (schemes & Hs1 & Hs2) (name & Hname) Hpat Hex].
  unfold implicit_transport in Ep. rewrite program_spec in Ep.
  destruct (C48_time_loop dbg cx n bcs lin fvSchemes fvSolution schemes name sel _ _ st Hset Hst W S T B A I Hpat Hex Hs1 Hs2 Hname) as (e' & h' & Ee & HL).
  unfold implicit_bs, implicit_eqn in Ee. rewrite Ep in Ee. injection Ee as <- <-.
  assert (Hr : exists f, f 0 = st /\ r = Ok (f (length l)) /\
      forall i t dt, l !! i = Some (t, dt) -> solves_step cx n sel (declared (implicit_bs flux gamma n)) implicit_eqn dt (f i) (f (Datatypes.S i))).
  { destruct Hrun as [([h2 s2] & H1 & ->)|[(x & H1 & ->)|[(H1 & ->)|(H1 & ->)]]]; destruct (HL _ _ H1) as (f & h'' & F0 & Fr & Fi); try done.
    injection Fr as -> ->. exists f. done. }
  destruct Hr as (f & F0 & -> & Fi). exists f. split; [done|]. split; [done|].
  intros i t dt E. destruct (proj1 (HS dt _ _) (Fi i t dt E)) as (HT & Hold & Hphi). split; [done|]. split.
  - unfold old_of. by rewrite Hold.
  - rewrite Hphi. repeat split.
Qed.
Print Assumptions C91_implicit_transport.

(** A linear solver that can return every solution there is. *)
Definition complete_solver (lin : string -> dict -> sparsity -> list Qc -> list Qc -> list Qc -> outcome (list Qc) -> Prop) : Prop :=
  forall name d p values rhs x0 x, length x = length rhs -> (forall c, c < length rhs -> residual p values rhs x c = 0%Qc) ->
    lin name d p values rhs x0 (Ok x).

Lemma loop_some dbg cx n bcs lin fvSchemes fvSolution e (Inv : heap Qc -> tstate -> Prop) (R : Qc -> tstate -> tstate -> Prop) l : forall h f,
  (forall h st t dt st', Inv h st -> R dt st st' -> exists h', dsl_solve dbg cx n bcs lin fvSchemes fvSolution h e t dt st (Ok (h', st')) /\ Inv h' st') ->
  Inv h (f 0) -> (forall i t dt, l !! i = Some (t, dt) -> R dt (f i) (f (S i))) ->
  exists h', time_loop dbg cx n bcs lin fvSchemes fvSolution e l h (f 0) (Ok (h', f (length l))).
Proof.
  induction l as [|[t dt] l IH]; intros h f Hstep Hinv Hf.
  - exists h. done.
  - destruct (Hstep h (f 0) t dt (f 1) Hinv (Hf 0 t dt eq_refl)) as (h1 & H1 & HI1).
    destruct (IH h1 (fun i => f (S i)) Hstep HI1) as (h' & H2).
    { intros i t' dt' Hi. by apply (Hf (S i) t'). }
    exists h'. simpl. left. exists (h1, f 1). done.
Qed.

Lemma time_loop_complete : forall dbg cx n bcs lin fvSchemes fvSolution schemes name sel h eqn f l,
  setup_ok cx bcs -> state_ok cx (f 0) ->
  equation_wf h (nCells (cx_mesh cx)) eqn -> single_fields h eqn -> temporal_objects eqn <> [] ->
  schemes_selected cx fvSchemes sel h eqn -> all_supported cx n sel h eqn (f 0) ->
  (forall p o, p ∈ spatial_objects eqn -> h_spatial h !! p = Some o -> so_type o = Implicit) ->
  surely (sp_create (cx_exec cx) (cx_mesh cx)) (cx_pattern cx) -> complete_solver lin ->
  dict_subDict fvSchemes "ddtSchemes" = Ok schemes -> get_string schemes "type" = Ok "backwardEuler"%string ->
  solver_create fvSchemes = Ok name ->
  (forall i t dt, l !! i = Some (t, dt) -> solves_step cx n sel h eqn dt (f i) (f (S i))) ->
  exists e h' h'', eval_equation eqn h = Ok (e, h') /\ time_loop dbg cx n bcs lin fvSchemes fvSolution e l h' (f 0) (Ok (h'', f (length l))).
Proof.
  intros dbg cx n bcs lin fvSchemes fvSolution schemes name sel h eqn f l Hset Hst Hwf Hsf Htne Hsel Hsup Himp Hpat Hlin Hsub Hty Hsol Hf.
  destruct (eval_equation_spec (nCells (cx_mesh cx)) h eqn h (ext_refl h) Hwf) as [[_ Hok]|[Hn _]]; [|done].
  destruct Hok as (e & h1 & E & Hx & [ts ss] & [HET HES] & HM). exists e, h1. simpl in HET, HES.
  pose proof HM as [[HdT HdS] _]. simpl in HdT, HdS.
  assert (Hbuild : forall o, o ∈ ss -> op_build cx fvSchemes o = Ok (selected sel o)).
  { intros o Ho. destruct (derivedS_leaves _ _ _ _ HdS o Ho) as (p & o0 & Hp & E0 & Ek & _).
    apply (op_build_kind cx fvSchemes sel o o0 Ek). by apply (Hsel p). }
  assert (Hte : ex_temporal e <> []).
  { intros Ee. rewrite Ee in HET. apply Forall2_nil_inv_l in HET as ->. by apply Forall2_nil_inv_r in HdT. }
  destruct (loop_some dbg cx n bcs lin fvSchemes fvSolution e
    (fun h2 st2 => Forall2 (isT h2) (ex_temporal e) ts /\ state_ok cx st2 /\
       (Forall2 (isS h2) (ex_spatial e) ss \/ Forall2 (isS h2) (ex_spatial e) (map (selected sel) ss)))
    (fun dt st1 st2 => solves_step cx n sel h eqn dt st1 st2) l h1 f) as (h' & HH); [|split; [done|]; split; [done|by left]|done|by exists h'].
  intros h2 st2 t dt st' (HT2 & Hst2 & HS2) Hs.
  destruct (build_again cx n fvSchemes sel e ss ts h2 st2 Hbuild HT2 HS2) as (h3 & Eb & HT3 & HS3).
  destruct (backwardEuler_system cx n bcs Hset lin fvSchemes name sel h eqn st2 h3 e ts ss dt Hst2) as (v & b & [Hv Hb] & Hrun & Hres);
    [by apply (all_state cx n sel h eqn (f 0))|by split|done..|].
  destruct Hs as (Hlen & Heq & Hold & Hphi).
  assert (Hback : backwardEuler_solve cx n lin fvSchemes h3 e dt st2 (Ok st')).
  { apply Hrun. left. exists (vf_int (ts_phi st')). split.
    - apply Hlin; [by rewrite Hb|]. rewrite Hb. intros c Hc. rewrite Hres by done. rewrite implicit_at_all by done. by apply Heq.
    - destruct st' as [p o]. cbn in *. rewrite <- Hphi, Hold. done. }
  exists h3. split.
  - unfold dsl_solve. destruct (ex_temporal e) as [|tp tl] eqn:Ete; [done|].
    rewrite (rseq_surely _ _ (tt, h3)) by (intros r'; rewrite Eb; reflexivity). cbv beta iota.
    rewrite (rseq_surely _ _ schemes) by (intros r'; rewrite Hsub; reflexivity).
    unfold timeIntegration_solve. rewrite Hty.
    assert (checked known_integrator (Ok "backwardEuler"%string) = Ok "backwardEuler"%string) as Ek by reflexivity. rewrite Ek.
    rewrite decide_False by discriminate. rewrite decide_True by done. left. exists st'. done.
  - split; [done|]. split; [|by right]. destruct Hst2 as [(_ & Q1 & Q2 & Q3 & Q4) _]. split.
    + rewrite Hphi. repeat split; done.
    + unfold old_of. by rewrite Hold.
Qed.

(** Conversely, with such a solver, every sequence of fields that satisfies the
    equation step by step is a run. *)
Theorem C91_implicit_complete : forall dbg cx bcs lin fvSchemes fvSolution flux gamma n l f,
  implicit_case cx bcs lin fvSchemes flux gamma n (f 0) -> complete_solver lin ->
  (forall i t dt, l !! i = Some (t, dt) ->
     transported (cx_mesh cx) (cx_surf cx flux) (cx_surf cx gamma) (cx_dc cx) dt (ts_phi (f i)) (old_of (f i)) (vf_int (ts_phi (f (S i)))) /\
     ts_old (f (S i)) = Some (vf_int (ts_phi (f (S i)))) /\ same_boundary (ts_phi (f (S i))) (ts_phi (f i))) ->
  run_program (implicit_transport flux gamma n) dbg cx n bcs lin fvSchemes fvSolution l (f 0) (Ok (f (length l))).
Proof.
  intros dbg cx bcs lin fvSchemes fvSolution flux gamma n l f Hc Hlin Hf.
  destruct (implicit_equation _ _ _ _ _ _ _ _ Hc) as (sel & W & S & T & B & A & I & HS).
  destruct Hc as [Hset Hst _ _ _ _ (schemes & Hs1 & Hs2) (name & Hname) Hpat Hex].
  destruct (time_loop_complete dbg cx n bcs lin fvSchemes fvSolution schemes name sel _ _ f l Hset Hst W S T B A I Hpat Hlin Hs1 Hs2 Hname) as (e & h' & h'' & Ee & HL).
  - intros i t dt E. apply HS. destruct (Hf i t dt E) as (H1 & H2 & H3). split; [done|]. split; [done|].
    destruct H3 as (E1 & E2 & E3 & E4). unfold with_int. destruct (ts_phi (f (Datatypes.S i))). cbn in *. by rewrite E1, E2, E3, E4.
  - exists e, h'. unfold implicit_transport. rewrite program_spec. split; [exact Ee|]. left. exists (h'', f (length l)). done.
Qed.
Print Assumptions C91_implicit_complete.

(** Every step that starts from a field whose old-time value is its value. *)
Lemma implicit_steps dbg cx bcs lin fvSchemes fvSolution flux gamma n st l r :
  implicit_case cx bcs lin fvSchemes flux gamma n st -> old_of st = vf_int (ts_phi st) ->
  run_program (implicit_transport flux gamma n) dbg cx n bcs lin fvSchemes fvSolution l st r ->
  exists f, f 0 = st /\ r = Ok (f (length l)) /\ (forall i, i <= length l -> old_of (f i) = vf_int (ts_phi (f i)) /\ same_boundary (ts_phi (f i)) (ts_phi st)) /\
    forall i t dt, l !! i = Some (t, dt) ->
      transported (cx_mesh cx) (cx_surf cx flux) (cx_surf cx gamma) (cx_dc cx) dt (ts_phi st) (vf_int (ts_phi (f i))) (vf_int (ts_phi (f (S i)))).
Proof.
  intros Hc Hold Hrun. destruct (C91_implicit_transport _ _ _ _ _ _ _ _ _ _ _ _ Hc Hrun) as (f & F0 & Fr & Fi).
  assert (HI : forall i, i <= length l -> old_of (f i) = vf_int (ts_phi (f i)) /\ same_boundary (ts_phi (f i)) (ts_phi st)).
  { induction i as [|i IH]; intros Hi; [rewrite F0; split; [done|repeat split]|].
    destruct (lookup_lt_is_Some_2 l i ltac:(lia)) as ([t dt] & E). destruct (Fi i t dt E) as (_ & A & B1 & B2 & B3 & B4).
    destruct (IH ltac:(lia)) as (_ & C1 & C2 & C3 & C4). split; [done|]. split; [|split; [|split]]; etransitivity; eassumption. }
  exists f. split; [done|]. split; [done|]. split; [done|]. intros i t dt E. destruct (Fi i t dt E) as (A & _).
  apply lookup_lt_Some in E. destruct (HI i ltac:(lia)) as (Ho & B1 & B2 & B3 & B4). rewrite Ho in A.
  destruct A as [A1 A2]. split; [done|]. intros c Hcc. specialize (A2 c Hcc). unfold cell_law in *. rewrite <- A2 at 1.
  unfold convected, diffused, implicit_face_value, implicit_normal_gradient, at_owner, at_neighbour, at_face_cell, with_int. cbn [vf_int vf_valueFraction vf_refValue vf_refGrad].
  rewrite B2, B3, B4. done.
Qed.

(** * C92: conservation *)
(** What is in the domain at the end is what was in it at the start minus what
    left through the boundary in the steps. *)
Theorem C92_implicit_conservation : forall dbg cx bcs lin fvSchemes fvSolution flux gamma n st l r,
  implicit_case cx bcs lin fvSchemes flux gamma n st -> old_of st = vf_int (ts_phi st) ->
  (forall t dt, (t, dt) ∈ l -> dt <> 0%Qc) ->
  run_program (implicit_transport flux gamma n) dbg cx n bcs lin fvSchemes fvSolution l st r ->
  exists f, f 0 = st /\ r = Ok (f (length l)) /\
    content (cx_mesh cx) (vf_int (ts_phi (f (length l)))) =
    (content (cx_mesh cx) (vf_int (ts_phi st)) -
     vsum_over (length l) (fun i => at0 l.*2 i * outflow (cx_mesh cx) (cx_surf cx flux) (cx_surf cx gamma) (cx_dc cx) (ts_phi st) (vf_int (ts_phi (f (S i))))))%Qc.
Proof.
  intros dbg cx bcs lin fvSchemes fvSolution flux gamma n st l r Hc Hold Hdt Hrun.
  destruct (implicit_steps _ _ _ _ _ _ _ _ _ _ _ _ Hc Hold Hrun) as (f & F0 & Fr & _ & Fi). exists f. split; [done|]. split; [done|].
  assert (H : forall k, k <= length l -> content (cx_mesh cx) (vf_int (ts_phi (f k))) = (content (cx_mesh cx) (vf_int (ts_phi st)) -
     vsum_over k (fun i => at0 l.*2 i * outflow (cx_mesh cx) (cx_surf cx flux) (cx_surf cx gamma) (cx_dc cx) (ts_phi st) (vf_int (ts_phi (f (S i))))))%Qc).
  { induction k as [|k IH]; intros Hk.
    - rewrite F0, vsum_over_0. cbn [vzero Qc_value]. ring.
    - destruct (lookup_lt_is_Some_2 l k ltac:(lia)) as ([t dt] & E). rewrite vsum_over_S. cbn [vadd Qc_value].
      assert (Edt : at0 l.*2 k = dt) by (unfold at0; by rewrite list_lookup_fmap, E).
      rewrite (transported_content (cx_mesh cx) (proj1 (proj1 (ic_setup _ _ _ _ _ _ _ _ Hc))) _ _ _ dt _ _ _ (Hdt t dt (elem_of_list_lookup_2 _ _ _ E)) (Fi k t dt E)).
      rewrite IH, Edt by lia. ring. }
  by apply H.
Qed.
Print Assumptions C92_implicit_conservation.

(** Nothing is lost or gained in a closed domain: no fluid passes the boundary
    and the gradient there is zero. *)
Theorem C92_implicit_closed : forall dbg cx bcs lin fvSchemes fvSolution flux gamma n st l r,
  implicit_case cx bcs lin fvSchemes flux gamma n st -> old_of st = vf_int (ts_phi st) ->
  (forall t dt, (t, dt) ∈ l -> dt <> 0%Qc) ->
  (forall b, b < nBoundaryFaces (cx_mesh cx) -> at0 (cx_surf cx flux) (nInternalFaces (cx_mesh cx) + b) = 0%Qc /\
     at0 (vf_valueFraction (ts_phi st)) b = 0%Qc /\ at0 (vf_refGrad (ts_phi st)) b = 0%Qc) ->
  run_program (implicit_transport flux gamma n) dbg cx n bcs lin fvSchemes fvSolution l st r ->
  exists st', r = Ok st' /\ content (cx_mesh cx) (vf_int (ts_phi st')) = content (cx_mesh cx) (vf_int (ts_phi st)).
Proof.
  intros dbg cx bcs lin fvSchemes fvSolution flux gamma n st l r Hc Hold Hdt Hcl Hrun.
  destruct (C92_implicit_conservation _ _ _ _ _ _ _ _ _ _ _ _ Hc Hold Hdt Hrun) as (f & F0 & -> & E). eexists. split; [done|]. rewrite E.
  rewrite vsum_over_zero; [cbn [vzero Qc_value]; ring|]. intros i Hi.
  unfold outflow. rewrite vsum_over_zero; [apply Qcmult_0_r|]. intros b Hb. destruct (Hcl b Hb) as (H1 & H2 & H3).
  unfold convected, diffused, implicit_normal_gradient. rewrite H1, decide_False by lia.
  replace (nInternalFaces (cx_mesh cx) + b - nInternalFaces (cx_mesh cx)) with b by lia. cbn [with_int vf_int vf_valueFraction vf_refValue vf_refGrad].
  change (@atV Qc Qc_value) with at0. rewrite H2, H3. unfold vsub. cbn [vadd vneg vscale vzero Qc_value]. ring.
Qed.
Print Assumptions C92_implicit_closed.

(** * C93: bounds *)
(** Two runs with the same mesh, fluxes and steps: larger data, larger result. *)
Theorem C93_comparison : forall dbg1 dbg2 cx1 cx2 bcs1 bcs2 lin1 lin2 schemes1 schemes2 solution1 solution2 flux1 flux2 gamma1 gamma2 n1 n2 st1 st2 l r1 r2,
  implicit_case cx1 bcs1 lin1 schemes1 flux1 gamma1 n1 st1 -> implicit_case cx2 bcs2 lin2 schemes2 flux2 gamma2 n2 st2 ->
  old_of st1 = vf_int (ts_phi st1) -> old_of st2 = vf_int (ts_phi st2) ->
  cx_mesh cx1 = cx_mesh cx2 -> cx_dc cx1 = cx_dc cx2 -> cx_surf cx1 flux1 = cx_surf cx2 flux2 -> cx_surf cx1 gamma1 = cx_surf cx2 gamma2 ->
  (forall t dt, (t, dt) ∈ l -> (0 < dt)%Qc) ->
  diffusive (cx_mesh cx1) (cx_surf cx1 gamma1) (cx_dc cx1) ->
  (forall c, c < nCells (cx_mesh cx1) -> (0 <= cell_balance (cx_mesh cx1) (at0 (cx_surf cx1 flux1)) c)%Qc) ->
  inflow_boundary (cx_mesh cx1) (cx_surf cx1 flux1) (ts_phi st1) ->
  boundary_below (cx_mesh cx1) (ts_phi st1) (ts_phi st2) ->
  (forall c, c < nCells (cx_mesh cx1) -> (at0 (vf_int (ts_phi st1)) c <= at0 (vf_int (ts_phi st2)) c)%Qc) ->
  run_program (implicit_transport flux1 gamma1 n1) dbg1 cx1 n1 bcs1 lin1 schemes1 solution1 l st1 r1 ->
  run_program (implicit_transport flux2 gamma2 n2) dbg2 cx2 n2 bcs2 lin2 schemes2 solution2 l st2 r2 ->
  exists st1' st2', r1 = Ok st1' /\ r2 = Ok st2' /\
    forall c, c < nCells (cx_mesh cx1) -> (at0 (vf_int (ts_phi st1')) c <= at0 (vf_int (ts_phi st2')) c)%Qc.
Proof.
  intros dbg1 dbg2 cx1 cx2 bcs1 bcs2 lin1 lin2 schemes1 schemes2 solution1 solution2 flux1 flux2 gamma1 gamma2 n1 n2 st1 st2 l r1 r2
    Hc1 Hc2 Ho1 Ho2 Em Ed Ef Eg Hdt Hdiff Hout Hin Hbb H0 Hr1 Hr2.
  destruct (implicit_steps _ _ _ _ _ _ _ _ _ _ _ _ Hc1 Ho1 Hr1) as (f & F0 & -> & _ & Fi).
  destruct (implicit_steps _ _ _ _ _ _ _ _ _ _ _ _ Hc2 Ho2 Hr2) as (g & G0 & -> & _ & Gi).
  eexists _, _. split; [done|]. split; [done|].
  assert (H : forall k, k <= length l -> forall c, c < nCells (cx_mesh cx1) -> (at0 (vf_int (ts_phi (f k))) c <= at0 (vf_int (ts_phi (g k))) c)%Qc).
  { induction k as [|k IH]; intros Hk; [by rewrite F0, G0|].
    destruct (lookup_lt_is_Some_2 l k ltac:(lia)) as ([t dt] & E). specialize (Fi k t dt E). specialize (Gi k t dt E). rewrite <- Em, <- Ed, <- Ef, <- Eg in Gi.
    eapply (transported_comparison (cx_mesh cx1) (proj1 (proj1 (ic_setup _ _ _ _ _ _ _ _ Hc1))) _ _ _ Hdiff Hout dt); [|exact Hin|exact Hbb| |exact Fi|exact Gi].
    - by apply (Hdt t dt), (elem_of_list_lookup_2 _ k).
    - apply IH. lia. }
  by apply H.
Qed.
Print Assumptions C93_comparison.

(** With a divergence-free flux all values stay, for any number and size of
    steps, between bounds of the initial values and of the boundary values. *)
Theorem C93_bounded : forall dbg cx bcs lin fvSchemes fvSolution flux gamma n st l r lo hi,
  implicit_case cx bcs lin fvSchemes flux gamma n st -> old_of st = vf_int (ts_phi st) ->
  (forall t dt, (t, dt) ∈ l -> (0 < dt)%Qc) ->
  diffusive (cx_mesh cx) (cx_surf cx gamma) (cx_dc cx) -> divergence_free (cx_mesh cx) (cx_surf cx flux) ->
  inflow_boundary (cx_mesh cx) (cx_surf cx flux) (ts_phi st) -> no_gradient (cx_mesh cx) (ts_phi st) ->
  boundary_between (cx_mesh cx) lo hi (ts_phi st) -> cells_between (cx_mesh cx) lo hi (vf_int (ts_phi st)) ->
  run_program (implicit_transport flux gamma n) dbg cx n bcs lin fvSchemes fvSolution l st r ->
  exists st', r = Ok st' /\ cells_between (cx_mesh cx) lo hi (vf_int (ts_phi st')).
Proof.
  intros dbg cx bcs lin fvSchemes fvSolution flux gamma n st l r lo hi Hc Ho Hdt Hdiff Hdiv Hin Hng Hbb H0 Hrun.
  destruct (implicit_steps _ _ _ _ _ _ _ _ _ _ _ _ Hc Ho Hrun) as (f & F0 & -> & _ & Fi). eexists. split; [done|].
  assert (H : forall k, k <= length l -> cells_between (cx_mesh cx) lo hi (vf_int (ts_phi (f k)))).
  { induction k as [|k IH]; intros Hk; [by rewrite F0|].
    destruct (lookup_lt_is_Some_2 l k ltac:(lia)) as ([t dt] & E).
    apply (transported_between (cx_mesh cx) (proj1 (proj1 (ic_setup _ _ _ _ _ _ _ _ Hc))) (cx_surf cx flux) (cx_surf cx gamma) (cx_dc cx) Hdiff dt (ts_phi st) (vf_int (ts_phi (f k)))); try done.
    - by apply (Hdt t dt), (elem_of_list_lookup_2 _ k).
    - apply IH. lia.
    - by apply (Fi k t). }
  by apply H.
Qed.
Print Assumptions C93_bounded.

(** A constant field, with the same constant on the boundary, stays constant. *)
Theorem C93_constant : forall dbg cx bcs lin fvSchemes fvSolution flux gamma n st l r k,
  implicit_case cx bcs lin fvSchemes flux gamma n st -> old_of st = vf_int (ts_phi st) ->
  (forall t dt, (t, dt) ∈ l -> (0 < dt)%Qc) ->
  diffusive (cx_mesh cx) (cx_surf cx gamma) (cx_dc cx) -> divergence_free (cx_mesh cx) (cx_surf cx flux) ->
  inflow_boundary (cx_mesh cx) (cx_surf cx flux) (ts_phi st) -> no_gradient (cx_mesh cx) (ts_phi st) ->
  (forall b, b < nBoundaryFaces (cx_mesh cx) -> at0 (vf_valueFraction (ts_phi st)) b = 0%Qc \/ at0 (vf_refValue (ts_phi st)) b = k) ->
  (forall c, c < nCells (cx_mesh cx) -> at0 (vf_int (ts_phi st)) c = k) ->
  run_program (implicit_transport flux gamma n) dbg cx n bcs lin fvSchemes fvSolution l st r ->
  exists st', r = Ok st' /\ forall c, c < nCells (cx_mesh cx) -> at0 (vf_int (ts_phi st')) c = k.
Proof.
  intros dbg cx bcs lin fvSchemes fvSolution flux gamma n st l r k Hc Ho Hdt Hdiff Hdiv Hin Hng Hb Hk Hrun.
  assert (H1 : boundary_between (cx_mesh cx) k k (ts_phi st)).
  { intros b Hbb. destruct (Hb b Hbb) as [E|E]; [by left|right]. rewrite E. split; apply Qcle_refl. }
  assert (H2 : cells_between (cx_mesh cx) k k (vf_int (ts_phi st))) by (intros c Hcc; rewrite Hk by done; split; apply Qcle_refl).
  destruct (C93_bounded dbg cx bcs lin fvSchemes fvSolution flux gamma n st l r k k Hc Ho Hdt Hdiff Hdiv Hin Hng H1 H2 Hrun) as (st' & -> & H).
  exists st'. split; [done|]. intros c Hcc. destruct (H c Hcc). by apply Qcle_antisym.
Qed.
Print Assumptions C93_constant.

(** * C94: the result does not depend on executor, sparsity pattern, linear
    solver or names. *)
Theorem C94_unique_result : forall dbg1 dbg2 cx1 cx2 bcs1 bcs2 lin1 lin2 schemes1 schemes2 solution1 solution2 flux1 flux2 gamma1 gamma2 n1 n2 st l r1 r2,
  implicit_case cx1 bcs1 lin1 schemes1 flux1 gamma1 n1 st -> implicit_case cx2 bcs2 lin2 schemes2 flux2 gamma2 n2 st ->
  old_of st = vf_int (ts_phi st) ->
  cx_mesh cx1 = cx_mesh cx2 -> cx_dc cx1 = cx_dc cx2 -> cx_surf cx1 flux1 = cx_surf cx2 flux2 -> cx_surf cx1 gamma1 = cx_surf cx2 gamma2 ->
  (forall t dt, (t, dt) ∈ l -> (0 < dt)%Qc) ->
  diffusive (cx_mesh cx1) (cx_surf cx1 gamma1) (cx_dc cx1) ->
  (forall c, c < nCells (cx_mesh cx1) -> (0 <= cell_balance (cx_mesh cx1) (at0 (cx_surf cx1 flux1)) c)%Qc) ->
  inflow_boundary (cx_mesh cx1) (cx_surf cx1 flux1) (ts_phi st) ->
  run_program (implicit_transport flux1 gamma1 n1) dbg1 cx1 n1 bcs1 lin1 schemes1 solution1 l st r1 ->
  run_program (implicit_transport flux2 gamma2 n2) dbg2 cx2 n2 bcs2 lin2 schemes2 solution2 l st r2 ->
  exists st1 st2, r1 = Ok st1 /\ r2 = Ok st2 /\ ts_phi st1 = ts_phi st2.
Proof.
  intros dbg1 dbg2 cx1 cx2 bcs1 bcs2 lin1 lin2 schemes1 schemes2 solution1 solution2 flux1 flux2 gamma1 gamma2 n1 n2 st l r1 r2
    Hc1 Hc2 Ho Em Ed Ef Eg Hdt Hdiff Hout Hin Hr1 Hr2.
  destruct (implicit_steps _ _ _ _ _ _ _ _ _ _ _ _ Hc1 Ho Hr1) as (f & F0 & -> & FB & Fi).
  destruct (implicit_steps _ _ _ _ _ _ _ _ _ _ _ _ Hc2 Ho Hr2) as (g & G0 & -> & GB & Gi).
  eexists _, _. split; [done|]. split; [done|].
  assert (H : forall k, k <= length l -> vf_int (ts_phi (f k)) = vf_int (ts_phi (g k))).
  { induction k as [|k IH]; intros Hk; [by rewrite F0, G0|].
    destruct (lookup_lt_is_Some_2 l k ltac:(lia)) as ([t dt] & E). specialize (Fi k t dt E). specialize (Gi k t dt E). rewrite <- Em, <- Ed, <- Ef, <- Eg in Gi.
    rewrite <- IH in Gi by lia.
    eapply (transported_unique (cx_mesh cx1) (proj1 (proj1 (ic_setup _ _ _ _ _ _ _ _ Hc1))) _ _ _ Hdiff dt); [|exact Hout|exact Hin|exact Fi|exact Gi].
    by apply (Hdt t dt), (elem_of_list_lookup_2 _ k). }
  destruct (FB (length l) ltac:(lia)) as (_ & A1 & A2 & A3 & A4). destruct (GB (length l) ltac:(lia)) as (_ & B1 & B2 & B3 & B4).
  specialize (H (length l) ltac:(lia)). destruct (ts_phi (f (length l))), (ts_phi (g (length l))). cbn in *. congruence.
Qed.
Print Assumptions C94_unique_result.

(** * C95: the explicit program *)
(** It always runs to the end, on every executor, and every step is the explicit
    upwind one, followed by the correction of the boundary values. *)
Theorem C95_explicit_transport : forall dbg cx bcs lin fvSchemes fvSolution flux n st l,
  explicit_case cx bcs fvSchemes flux n st -> old_of st = vf_int (ts_phi st) ->
  exists f, f 0 = st /\ surely (run_program (explicit_transport flux n) dbg cx n bcs lin fvSchemes fvSolution l st) (f (length l)) /\
    forall i t dt, l !! i = Some (t, dt) ->
      advanced (cx_mesh cx) (cx_surf cx flux) (cx_weights cx) dt (ts_phi (f i)) (vf_int (ts_phi (f (S i)))) /\
      boundary_corrected cx bcs (ts_phi (f i)) (ts_phi (f (S i))).
Proof.
  intros dbg cx bcs lin fvSchemes fvSolution flux n st l [Hset Hst Hfl (ds & Hd) (schemes & Hs1 & Hs2)] Hold.
  set (bs := [ImpDdt n; ExpDiv flux n]). set (eqn := EOpPlus (TermT (TVar 0)) (TermS (SVar 0))).
  set (sel := fun k : spatialKind Qc => match k with DivOperator f p _ => DivOperator f p (Some Upwind) | k => k end).
  pose proof (Hst) as [(Hi & Hv & Hrv & Hvf & Hrg) Ho].
  assert (Hobj : forall p o, p ∈ spatial_objects eqn -> h_spatial (declared (V := Qc) bs) !! p = Some o ->
    o = SpatialOp (DivOperator flux n None) Explicit (coeff_scalar 1%Qc)).
  { intros p o Hp. cbn in Hp. apply elem_of_list_In in Hp. destruct Hp as [<-|[]]; cbn; intros E; injection E as <-; auto. }
  destruct (C47_time_loop dbg cx n bcs lin fvSchemes fvSolution schemes sel (declared bs) eqn st Hset Hst) as (e' & h' & Ee & HL); try done.
  - cbn. split; eexists; (split; [reflexivity|done]).
  - cbn. lia.
  - intros p o Hp E. rewrite (Hobj p o Hp E). cbn [op_build so_kind so_type so_coeff]. rewrite Hd. cbv beta iota. rewrite decide_True by done. done.
  - intros p o Hp E _. rewrite (Hobj p o Hp E); cbn; (split; [|done]); rewrite ?(decide_True (P := n = n)) by done; (split; [done|]; split; [done|]; split; [done|]; repeat split; done).
  - destruct (HL l) as (f & h'' & F0 & Fr & Fi). exists f. split; [done|].
    assert (HO : forall i, i <= length l -> old_of (f i) = vf_int (ts_phi (f i))).
    { intros [|i] Hil; [by rewrite F0|]. destruct (lookup_lt_is_Some_2 l i ltac:(lia)) as ([t dt] & E). destruct (Fi i t dt E) as [[_ _ Hos] _].
      unfold old_of. by rewrite Hos. }
    split.
    + intros r. unfold run_program, explicit_transport. rewrite program_spec. fold bs eqn. rewrite Ee. split.
      * intros (e & h & E & Hr). injection E as <- <-. revert Hr. rewrite (rseq_surely _ _ _ _ Fr). done.
      * intros ->. exists e', h'. split; [done|]. rewrite (rseq_surely _ _ _ _ Fr). done.
    + intros i t dt E. destruct (Fi i t dt E) as [[Hlen Hval _] Hbc]. split; [|done]. split; [done|].
      intros c Hc. rewrite Hval by done. rewrite HO by (apply lookup_lt_Some in E; lia).
      unfold explicit_part, eqn. cbn [equation_value term_value tterm_value sterm_value]. unfold object_value, object_value_T.
      cbn [declared omap list_omap builder_spatial builder_temporal bs h_spatial h_temporal lookup list_lookup so_coeff so_type so_kind to_coeff to_type to_phi sel].
      unfold explicit_kind, div_spec, per_volume. cbn [at_state cx_mesh cx_surf cx_vol cx_weights]. rewrite !decide_True by done.
      unfold coeff_val, coeff_scalar, coeff_default. cbn [vadd vneg vscale vzero Qc_value coeff_ view_].
      pose proof (vt_vol _ (proj1 (proj1 Hset)) c Hc) as HV. apply Qclt_not_eq in HV.
      field. intros E0. by rewrite E0 in HV.
Qed.
Print Assumptions C95_explicit_transport.

(** Conservation: what leaves is what the boundary values carry. *)
Theorem C95_explicit_conservation : forall dbg cx bcs lin fvSchemes fvSolution flux n st l,
  explicit_case cx bcs fvSchemes flux n st -> old_of st = vf_int (ts_phi st) ->
  exists f, f 0 = st /\ surely (run_program (explicit_transport flux n) dbg cx n bcs lin fvSchemes fvSolution l st) (f (length l)) /\
    content (cx_mesh cx) (vf_int (ts_phi (f (length l)))) = (content (cx_mesh cx) (vf_int (ts_phi st)) -
      vsum_over (length l) (fun i => at0 l.*2 i * vsum_over (nBoundaryFaces (cx_mesh cx)) (fun b =>
        at0 (cx_surf cx flux) (nInternalFaces (cx_mesh cx) + b) * (at0 (cx_weights cx) (nInternalFaces (cx_mesh cx) + b) * at0 (vf_value (ts_phi (f i))) b))))%Qc.
Proof.
  intros dbg cx bcs lin fvSchemes fvSolution flux n st l Hc Ho.
  destruct (C95_explicit_transport dbg cx bcs lin fvSchemes fvSolution flux n st l Hc Ho) as (f & F0 & Fr & Fi). exists f. split; [done|]. split; [done|].
  pose proof (proj1 (proj1 (ec_setup _ _ _ _ _ _ Hc))) as Hm.
  assert (H : forall k, k <= length l -> content (cx_mesh cx) (vf_int (ts_phi (f k))) = (content (cx_mesh cx) (vf_int (ts_phi st)) -
      vsum_over k (fun i => at0 l.*2 i * vsum_over (nBoundaryFaces (cx_mesh cx)) (fun b =>
        at0 (cx_surf cx flux) (nInternalFaces (cx_mesh cx) + b) * (at0 (cx_weights cx) (nInternalFaces (cx_mesh cx) + b) * at0 (vf_value (ts_phi (f i))) b))))%Qc).
  { induction k as [|k IH]; intros Hk.
    - rewrite F0, vsum_over_0. cbn [vzero Qc_value]. ring.
    - destruct (lookup_lt_is_Some_2 l k ltac:(lia)) as ([t dt] & E). rewrite vsum_over_S. cbn [vadd Qc_value].
      assert (Edt : at0 l.*2 k = dt) by (unfold at0; by rewrite list_lookup_fmap, E).
      destruct (Fi k t dt E) as [[_ HA] _]. rewrite Edt. specialize (IH ltac:(lia)).
      transitivity (content (cx_mesh cx) (vf_int (ts_phi (f k))) - dt * vsum_over (nBoundaryFaces (cx_mesh cx)) (fun b =>
        at0 (cx_surf cx flux) (nInternalFaces (cx_mesh cx) + b)%nat * (at0 (cx_weights cx) (nInternalFaces (cx_mesh cx) + b)%nat * at0 (vf_value (ts_phi (f k))) b)))%Qc; [|rewrite IH; ring].
      pose proof (FVProofs.balance_total (cx_mesh cx) Hm (V := Qc) (fun f0 => at0 (cx_surf cx flux) f0 * face_value (cx_mesh cx) Upwind (ts_phi (f k)) (cx_surf cx flux) (cx_weights cx) f0)%Qc) as Ht.
      unfold content.
      transitivity (vadd (vsum_over (nCells (cx_mesh cx)) (fun c => at0 (cellVolumes (cx_mesh cx)) c * at0 (vf_int (ts_phi (f k))) c)%Qc)
        (vscale (- dt)%Qc (vsum_over (nCells (cx_mesh cx)) (cell_balance (cx_mesh cx) (fun f0 => at0 (cx_surf cx flux) f0 * face_value (cx_mesh cx) Upwind (ts_phi (f k)) (cx_surf cx flux) (cx_weights cx) f0)%Qc)))).
      + rewrite <- vsum_over_scale, <- vsum_over_add. apply vsum_over_ext. intros c Hcc. specialize (HA c Hcc). cbn [vadd vscale Qc_value].
        rewrite <- HA. ring.
      + rewrite Ht. rewrite (vsum_over_ext (nBoundaryFaces (cx_mesh cx)) _ (fun b => at0 (cx_surf cx flux) (nInternalFaces (cx_mesh cx) + b)%nat * (at0 (cx_weights cx) (nInternalFaces (cx_mesh cx) + b)%nat * at0 (vf_value (ts_phi (f k))) b))%Qc).
        * match goal with |- vadd ?a (vscale _ ?b) = _ => change (a + - dt * b = a - dt * b)%Qc end. ring.
        * intros b Hb. unfold face_value. rewrite decide_False by lia. replace (nInternalFaces (cx_mesh cx) + b - nInternalFaces (cx_mesh cx)) with b by lia. done. }
  by apply H.
Qed.
Print Assumptions C95_explicit_conservation.

(** Bounds, if computeCoNum reports at most 1 for every step size. *)
Theorem C95_explicit_bounded : forall dbg cx bcs lin fvSchemes fvSolution flux n st l lo hi,
  explicit_case cx bcs fvSchemes flux n st -> old_of st = vf_int (ts_phi st) ->
  0 < nCells (cx_mesh cx) -> offsets_ok (cx_mesh cx) ->
  (forall t dt, (t, dt) ∈ l -> (0 < dt)%Qc /\ exists lowest junk bv br bf bg co mean, (lowest < 0)%Qc /\ length junk = nCells (cx_mesh cx) /\
     computeCoNum lowest (cx_exec cx) (cx_mesh cx) (cx_surf cx flux) dt junk bv br bf bg (Ok (co, mean)) /\ (co <= 1)%Qc) ->
  divergence_free (cx_mesh cx) (cx_surf cx flux) ->
  (forall b, b < nBoundaryFaces (cx_mesh cx) -> at0 (cx_weights cx) (nInternalFaces (cx_mesh cx) + b) = 1%Qc) ->
  transport_conditions (cx_mesh cx) (cx_surf cx flux) lo hi bcs ->
  cells_between (cx_mesh cx) lo hi (vf_int (ts_phi st)) -> boundary_values (cx_mesh cx) (cx_surf cx flux) lo hi (ts_phi st) ->
  exists st', surely (run_program (explicit_transport flux n) dbg cx n bcs lin fvSchemes fvSolution l st) st' /\
    cells_between (cx_mesh cx) lo hi (vf_int (ts_phi st')) /\ boundary_values (cx_mesh cx) (cx_surf cx flux) lo hi (ts_phi st').
Proof.
  intros dbg cx bcs lin fvSchemes fvSolution flux n st l lo hi Hc Ho Hn Hoff Hdt Hdiv Hw Hbc H0 Hb0.
  destruct (C95_explicit_transport dbg cx bcs lin fvSchemes fvSolution flux n st l Hc Ho) as (f & F0 & Fr & Fi). eexists. split; [exact Fr|].
  pose proof (proj1 (proj1 (ec_setup _ _ _ _ _ _ Hc))) as Hm.
  assert (H : forall k, k <= length l -> cells_between (cx_mesh cx) lo hi (vf_int (ts_phi (f k))) /\ boundary_values (cx_mesh cx) (cx_surf cx flux) lo hi (ts_phi (f k))).
  { induction k as [|k IH]; intros Hk; [by rewrite F0|]. destruct (IH ltac:(lia)) as [I1 I2].
    destruct (lookup_lt_is_Some_2 l k ltac:(lia)) as ([t dt] & E). destruct (Fi k t dt E) as [HA [HB _]].
    destruct (Hdt t dt (elem_of_list_lookup_2 _ _ _ E)) as (Hp & lowest & junk & bv & br & bf & bg & co & mean & Hlo & Hj & Hco & Hle).
    assert (HCo : forall c, c < nCells (cx_mesh cx) -> (cell_courant (cx_mesh cx) (cx_surf cx flux) dt c <= 1)%Qc).
    { destruct (C50_courant (cx_mesh cx) lowest (cx_surf cx flux) dt Hm Hoff (ec_flux _ _ _ _ _ _ Hc) Hn ltac:(by apply Qclt_le_weak) Hlo) as (co' & [Hmax _] & _ & HU).
      apply (HU _ _ bv br bf bg Hj) in Hco. injection Hco as -> _. intros c Hcc. eapply Qcle_trans; [by apply Hmax|done]. }
    assert (I1' : cells_between (cx_mesh cx) lo hi (vf_int (ts_phi (f (S k))))).
    { intros c Hcc. split.
      - by apply (advanced_lower (cx_mesh cx) Hm (cx_surf cx flux) (cx_weights cx) dt (ts_phi (f k)) _ lo hi).
      - by apply (advanced_upper (cx_mesh cx) Hm (cx_surf cx flux) (cx_weights cx) dt (ts_phi (f k)) _ lo hi). }
    split; [done|]. intros b Hb. destruct (Hbc b Hb) as (p & bc & Hin & Hpb & Hk2).
    pose proof (vt_fc _ Hm b Hb) as Hfc.
    assert (HV : forall v, vol_prescribes (cx_mesh cx) p bc (ts_phi (f (S k))) (Value b) = Some (inl v) -> at0 (vf_value (ts_phi (f (S k)))) b = v).
    { intros v Hv. specialize (HB p bc (Value b) _ Hin Hv). cbn in HB. unfold at0. destruct (vf_value (ts_phi (f (S k))) !! b); [|done]. cbn in HB. by injection HB as ->. }
    destruct bc as [v|g| | |]; try done; cbn [vol_prescribes] in HV; rewrite decide_True in HV by done.
    - destruct Hk2 as (Q1 & Q2 & Q3). rewrite (HV v eq_refl). split; [done|]. intros Hpos. exfalso. by apply (Qclt_not_le _ _ Hpos).
    - subst g. rewrite (HV _ eq_refl). unfold at_face_cell. change (@atV Qc Qc_value) with at0. cbn [vadd vscale Qc_value]. rewrite Qcmult_0_r, Qcplus_0_r. split; [intros _; by apply I1'|done].
    - rewrite (HV _ eq_refl). unfold at_face_cell. change (@atV Qc Qc_value) with at0. split; [intros _; by apply I1'|done]. }
  by apply H.
Qed.
Print Assumptions C95_explicit_bounded.

(** * A case *)
(** The mesh fork3: fluid enters at boundary face 0 (cell 1), goes through cell 0
    and leaves at boundary face 1 (cell 2).  The value 7 is prescribed where it
    enters, a zero gradient where it leaves. *)
Definition cxD : ctx Qc :=
  Ctx SerialExecutor fork3 [1; 1; 1; 1]%Qc [1; 1; 1; 1]%Qc patA
      (fun i => if decide (i = 0) then [-(1); 1; -(1); 1]%Qc else [1; 1; 1; 1]%Qc) (fun _ => [0; 0; 0; 0]%Qc) (fun _ => phi3)
      (fun _ => [1; 1; 1]%Qc) (fun _ => [1; 1; 1]%Qc) (fun i => if decide (i = 0) then "flux"%string else "gamma"%string) (fun _ => "phi"%string).
Definition schemesD (integrator : string) : dict :=
  [("ddtSchemes", ADict [("type", AString integrator)]);
   ("divSchemes", ADict [("div(flux,phi)", ATokens [AString "Gauss"; AString "upwind"] 0)]);
   ("laplacianSchemes", ADict [("laplacian(gamma,phi)", ATokens [AString "Gauss"; AString "linear"; AString "uncorrected"] 0)]);
   ("solver", AString "Ginkgo")]%string.
Definition stD (x : list Qc) : tstate := TState (VolField x [Q2Qc 7; Q2Qc 3] [Q2Qc 7; 0%Qc] [1%Qc; 0%Qc] [0%Qc; 0%Qc]) (Some x).
Definition x0D : list Qc := [1%Qc; Q2Qc 5; Q2Qc 3].
Definition x1D : list Qc := [Q2Qc (69 # 17); Q2Qc (98 # 17); Q2Qc (63 # 17)].
Lemma cxD_setup : setup_ok cxD bcsT.
Proof. destruct cxS_setup as ((H1 & H2 & H3 & H4 & H5 & H6 & _) & Hr). split; [|exact Hr]. repeat (split; [done|]). by left. Qed.
Ltac cells3 := let c := fresh "c" in let H := fresh "H" in intros c H; cbn in H; destruct c as [|[|[|[|c]]]]; try lia.
Lemma cxD_case x : length x = 3 -> implicit_case cxD bcsT solve_exactly (schemesD "backwardEuler") 0 1 0 (stD x).
Proof.
  intros Hx. split.
  - apply cxD_setup.
  - split; [|done]. repeat split; done.
  - done.
  - done.
  - eexists. vm_compute. reflexivity.
  - eexists. vm_compute. reflexivity.
  - eexists. split; vm_compute; reflexivity.
  - eexists. vm_compute. reflexivity.
  - apply C48_serial_pattern; [apply fork3_topology|apply fork3_fit|apply patA_serial].
  - apply solve_exactly_exact.
Qed.
Lemma solve_exactly_complete : complete_solver solve_exactly.
Proof. intros name d p v b x0 x H1 H2. exists x. done. Qed.
Example C91_instance : implicit_case cxD bcsT solve_exactly (schemesD "backwardEuler") 0 1 0 (stD x0D) /\
  run_program (implicit_transport 0 1 0) false cxD 0 bcsT solve_exactly (schemesD "backwardEuler") [] [(0, 1)]%Qc (stD x0D) (Ok (stD x1D)).
Proof.
  split; [by apply cxD_case|].
  apply (C91_implicit_complete false cxD bcsT solve_exactly (schemesD "backwardEuler") [] 0 1 0 [(0, 1)]%Qc (fun i => match i with 0 => stD x0D | _ => stD x1D end)).
  - by apply cxD_case.
  - apply solve_exactly_complete.
  - intros [|i] t dt E; [|done]. injection E as <- <-. split; [|split; [done|repeat split]]. split; [done|].
    cells3; unfold cell_law; apply Qc_is_canon; vm_compute; reflexivity.
Qed.
Example C92_instance : content fork3 x0D = Q2Qc 9 /\ content fork3 x1D = Q2Qc (230 # 17) /\
  outflow fork3 (cx_surf cxD 0) (cx_surf cxD 1) (cx_dc cxD) (ts_phi (stD x0D)) x1D = Q2Qc (- 77 # 17).
Proof. split; [|split]; apply Qc_is_canon; vm_compute; reflexivity. Qed.
Lemma cxD_bounds : diffusive fork3 (cx_surf cxD 1) (cx_dc cxD) /\ divergence_free fork3 (cx_surf cxD 0) /\
  (forall x, inflow_boundary fork3 (cx_surf cxD 0) (ts_phi (stD x))) /\ (forall x, no_gradient fork3 (ts_phi (stD x))).
Proof.
  split; [|split; [|split]].
  - cells3; repeat split; vm_compute; discriminate.
  - cells3; apply Qc_is_canon; vm_compute; reflexivity.
  - intros x. cells3; (split; [vm_compute; discriminate|split; [vm_compute; discriminate|]]).
    + right. vm_compute. discriminate.
    + left. done.
  - intros x. cells3; apply Qc_is_canon; vm_compute; reflexivity.
Qed.
Example C93_instance : cells_between fork3 1%Qc (Q2Qc 7) x0D /\ boundary_between fork3 1%Qc (Q2Qc 7) (ts_phi (stD x0D)) /\
  cells_between fork3 1%Qc (Q2Qc 7) x1D.
Proof.
  assert (H : cells_between fork3 1%Qc (Q2Qc 7) x0D /\ boundary_between fork3 1%Qc (Q2Qc 7) (ts_phi (stD x0D))).
  { split.
    - cells3; split; vm_compute; discriminate.
    - cells3; [right; split; vm_compute; discriminate|by left]. }
  destruct H as [H1 H2]. split; [done|]. split; [done|].
  destruct cxD_bounds as (B1 & B2 & B3 & B4). destruct C91_instance as [A1 A2].
  destruct (C93_bounded false cxD bcsT solve_exactly (schemesD "backwardEuler") [] 0 1 0 (stD x0D) [(0, 1)]%Qc (Ok (stD x1D)) 1%Qc (Q2Qc 7) A1 eq_refl) as (st' & E & H); try done.
  - intros t dt Ht. apply elem_of_list_singleton in Ht. injection Ht as -> ->. vm_compute. reflexivity.
  - by injection E as <-.
Qed.
(** Another numbering of the fields, other names and another linear solver. *)
Definition cxD2 : ctx Qc :=
  Ctx SerialExecutor fork3 [0; 0; 0; 0]%Qc [1; 1; 1; 1]%Qc patA
      (fun i => if decide (i = 4) then [-(1); 1; -(1); 1]%Qc else [1; 1; 1; 1]%Qc) (fun _ => [0; 0; 0; 0]%Qc) (fun _ => phi3)
      (fun _ => [1; 1; 1]%Qc) (fun _ => [1; 1; 1]%Qc) (fun i => if decide (i = 4) then "u"%string else "k"%string) (fun _ => "T"%string).
Definition schemesD2 : dict :=
  [("ddtSchemes", ADict [("type", AString "backwardEuler")]);
   ("divSchemes", ADict [("div(u,T)", ATokens [AString "Gauss"; AString "linear"] 0)]);
   ("laplacianSchemes", ADict [("laplacian(k,T)", ATokens [AString "Gauss"; AString "upwind"; AString "uncorrected"] 0)]);
   ("solver", AString "Petsc")]%string.
Example C94_instance :
  (exists r, run_program (implicit_transport 4 2 3) true cxD2 3 bcsT solve_exactly schemesD2 [] [(0, 1)]%Qc (stD x0D) r) /\
  forall r, run_program (implicit_transport 4 2 3) true cxD2 3 bcsT solve_exactly schemesD2 [] [(0, 1)]%Qc (stD x0D) r ->
    exists st2, r = Ok st2 /\ ts_phi st2 = ts_phi (stD x1D).
Proof.
  assert (Hc : implicit_case cxD2 bcsT solve_exactly schemesD2 4 2 3 (stD x0D)).
  { destruct (cxD_case x0D eq_refl) as [H1 H2 H3 H4 H5 H6 H7 H8 H9 H10]. split; try done.
    all: eexists; vm_compute; reflexivity. }
  assert (Hr : run_program (implicit_transport 4 2 3) true cxD2 3 bcsT solve_exactly schemesD2 [] [(0, 1)]%Qc (stD x0D) (Ok (stD x1D))).
  { apply (C91_implicit_complete true cxD2 bcsT solve_exactly schemesD2 [] 4 2 3 [(0, 1)]%Qc (fun i => match i with 0 => stD x0D | _ => stD x1D end)).
    - done.
    - apply solve_exactly_complete.
    - intros [|i] t dt E; [|done]. injection E as <- <-. split; [|split; [done|repeat split]]. split; [done|].
      cells3; unfold cell_law; apply Qc_is_canon; vm_compute; reflexivity. }
  split; [by exists (Ok (stD x1D))|]. intros r Hr2. destruct C91_instance as [A1 A2]. destruct cxD_bounds as (B1 & B2 & B3 & B4).
  destruct (C94_unique_result true false cxD2 cxD bcsT bcsT solve_exactly solve_exactly schemesD2 (schemesD "backwardEuler") [] [] 4 0 2 1 3 0 (stD x0D) [(0, 1)]%Qc r (Ok (stD x1D))
    Hc A1 eq_refl eq_refl eq_refl eq_refl eq_refl) as (s1 & s2 & E1 & E2 & E3); try done.
  - intros t dt Ht. apply elem_of_list_singleton in Ht. injection Ht as -> ->. vm_compute. reflexivity.
  - intros c Hcc. pose proof (B2 c Hcc) as E. change (0 <= cell_balance fork3 (at0 (cx_surf cxD 0)) c)%Qc. rewrite E. apply Qcle_refl.
  - exists s1. split; [done|]. injection E2 as <-. exact E3.
Qed.
Lemma list3 (l : list Qc) a b c : length l = 3 -> at0 l 0 = a -> at0 l 1 = b -> at0 l 2 = c -> l = [a; b; c].
Proof. destruct l as [|x [|y [|z [|w l]]]]; try discriminate. intros _ <- <- <-. done. Qed.
Lemma one_volume (x b r k : Qc) : (1 * (x - b) = r -> b + r = k -> x = k)%Qc.
Proof. intros <- <-. ring. Qed.
(** Two explicit steps of size 1/2, Courant number 1/2. *)
Example C95_instance : explicit_case cxD bcsT (schemesD "forwardEuler") 0 0 (stD x0D) /\
  exists st', surely (run_program (explicit_transport 0 0) true cxD 0 bcsT solve_exactly (schemesD "forwardEuler") [] [(0, Q2Qc (1 # 2)); (Q2Qc (1 # 2), Q2Qc (1 # 2))]%Qc (stD x0D)) st' /\
    vf_int (ts_phi st') = [Q2Qc (9 # 2); Q2Qc (13 # 2); Q2Qc (5 # 2)] /\ cells_between fork3 1%Qc (Q2Qc 7) (vf_int (ts_phi st')).
Proof.
  assert (Hc : explicit_case cxD bcsT (schemesD "forwardEuler") 0 0 (stD x0D)).
  { split; [apply cxD_setup|split; [repeat split|]; done|done|eexists; vm_compute; reflexivity|eexists; split; vm_compute; reflexivity]. }
  assert (Hoff : offsets_ok fork3). { split; try done. intros [|[|i]] Hi; simpl in Hi; try lia; vm_compute; lia. }
  split; [done|].
  set (l := [(0, Q2Qc (1 # 2)); (Q2Qc (1 # 2), Q2Qc (1 # 2))]%Qc).
  destruct (C95_explicit_transport true cxD bcsT solve_exactly (schemesD "forwardEuler") [] 0 0 (stD x0D) l Hc eq_refl) as (f & F0 & Fr & Fi).
  destruct (C95_explicit_bounded true cxD bcsT solve_exactly (schemesD "forwardEuler") [] 0 0 (stD x0D) l 1%Qc (Q2Qc 7) Hc eq_refl) as (st' & Hs & Hb & _).
  - cbn. lia.
  - done.
  - intros t dt Ht. assert (dt = Q2Qc (1 # 2)) as ->.
    { unfold l in Ht. apply elem_of_cons in Ht as [Ht|Ht]; [by injection Ht|]. apply elem_of_list_singleton in Ht. by injection Ht. }
    split; [vm_compute; reflexivity|]. destruct (C50_courant fork3 (-(1))%Qc (cx_surf cxD 0) (Q2Qc (1 # 2)) fork3_topology Hoff eq_refl) as (co & [Hall (c & Hcc & ->)] & _ & HU).
    + cbn. lia.
    + vm_compute. discriminate.
    + vm_compute. reflexivity.
    + exists (-(1))%Qc, [0; 0; 0]%Qc, [], [], [], [], (cell_courant fork3 (cx_surf cxD 0) (Q2Qc (1 # 2)) c), (mean_courant fork3 (cx_surf cxD 0) (Q2Qc (1 # 2))).
      split; [vm_compute; reflexivity|]. split; [done|]. split; [by apply HU|]. clear HU Hall. revert c Hcc. cells3; vm_compute; discriminate.
  - apply cxD_bounds.
  - cells3; done.
  - cells3.
    + exists (Patch 0 0 1), (FixedValue (Q2Qc 7)). split; [left|]. split; [cbv; lia|]. split; [vm_compute; discriminate|split; vm_compute; discriminate].
    + exists (Patch 1 1 2), (FixedGradient 0%Qc). split; [right; left|]. split; [cbv; lia|]. done.
  - cells3; split; vm_compute; discriminate.
  - cells3; split; intros H0; try (vm_compute in H0; discriminate).
    + split; vm_compute; discriminate.
    + done.
  - exists st'. split; [done|]. split; [|done]. assert (st' = f 2) as ->.
    { pose proof (proj1 (Fr (Ok st'))) as HH. assert (Ok st' = Ok (f 2)) as E; [apply HH; by apply Hs|]. by injection E. }
    destruct (Fi 0 _ _ eq_refl) as [[L1 V1] [B1 _]]. destruct (Fi 1 _ _ eq_refl) as [[L2 V2] _]. rewrite F0 in V1.
    assert (E1 : vf_int (ts_phi (f 1)) = [Q2Qc 3; Q2Qc 6; Q2Qc 2]).
    { apply (list3 (vf_int (ts_phi (f 1)))); [done|..]; eapply one_volume.
      1: exact (V1 0 ltac:(cbn; lia)). 2: exact (V1 1 ltac:(cbn; lia)). 3: exact (V1 2 ltac:(cbn; lia)).
      all: apply Qc_is_canon; vm_compute; reflexivity. }
    assert (EV : exists vs, vf_value (ts_phi (f 1)) = Q2Qc 7 :: Q2Qc 2 :: vs).
    { pose proof (B1 (Patch 0 0 1) (FixedValue (Q2Qc 7)) (Value 0) (inl (Q2Qc 7)) ltac:(left) eq_refl) as B0.
      specialize (B1 (Patch 1 1 2) (FixedGradient 0%Qc) (Value 1) (inl (Q2Qc 2)) ltac:(right; left)).
      cbn in B1. unfold at_face_cell in B1. rewrite E1 in B1. specialize (B1 ltac:(f_equal; f_equal; apply Qc_is_canon; vm_compute; reflexivity)).
      cbn in B0. destruct (vf_value (ts_phi (f 1))) as [|v [|v2 vs]]; [done..|]. cbn in *. injection B1 as ->. injection B0 as ->. by exists vs. }
    destruct EV as (vs & EV). destruct (ts_phi (f 1)) as [i1 v1 rv1 vf1 rg1]. cbn in E1, EV. subst i1 v1.
    apply (list3 (vf_int (ts_phi (f 2)))); [done|..]; eapply one_volume.
    1: exact (V2 0 ltac:(cbn; lia)). 2: exact (V2 1 ltac:(cbn; lia)). 3: exact (V2 2 ltac:(cbn; lia)).
    all: apply Qc_is_canon; vm_compute; reflexivity.
Qed.
