(** C99: solve() for equations without time derivative. *)
From Coq Require Import Lqa.
From Verif Require Import Base Dict Registry Par Exec Fields FieldsProofs Value Kernel Mesh MeshSpec Coeff FV FVSpec Sparsity SparsitySpec SparsityDet Assembly AssemblySpec AssemblyProps
  Boundary Properties_Boundary ExampleMesh Properties_Sparsity Properties_Assembly Dsl DslSpec DslHeapProofs DslProofs DslAssembly Properties_Dsl Properties_DslAssembly
  TimeInt TimeSpec TimeIntProofs TimeIntSteps Properties_TimeInt FrontEnd SteadySolve Transport TransportProofs Properties_Transport.
Local Open Scope nat_scope.

Lemma steady_call dbg cx n bcs lin fvSchemes fvSolution name sel h eqn :
  cx_fits cx -> equation_wf h (nCells (cx_mesh cx)) eqn -> single_fields h eqn -> temporal_objects eqn = [] -> spatial_objects eqn <> [] ->
  schemes_selected cx fvSchemes sel h eqn ->
  surely (sp_create (cx_exec cx) (cx_mesh cx)) (cx_pattern cx) -> solver_create fvSolution = Ok name ->
  exists e h' (Inv : heap Qc -> Prop), eval_equation eqn h = Ok (e, h') /\ Inv h' /\
    forall h2 st, Inv h2 -> state_ok cx st -> all_supported cx n sel h eqn st ->
    exists h3 values rhs, Inv h3 /\ sys_ok (cx_mesh cx) (cx_pattern cx) values rhs /\
      (forall t dt r, dsl_solve dbg cx n bcs lin fvSchemes fvSolution h2 e t dt st r <->
        rseq (lin name fvSolution (cx_pattern cx) values rhs (vf_int (ts_phi st)))
          (fun x r' => r' = Ok (h3, TState (with_int (ts_phi st) x) (ts_old st))) r) /\
      forall x c, c < nCells (cx_mesh cx) -> residual (cx_pattern cx) values rhs x c = steady_at cx n sel h eqn st x c.
Proof.
  intros Hset Hwf Hsf Htn Hsn Hsel Hpat Hsol.
  destruct (eval_equation_spec (nCells (cx_mesh cx)) h eqn h (ext_refl h) Hwf) as [[_ Hok]|[Hn _]]; [|done].
  destruct Hok as (e & h1 & E & Hx & [ts ss] & [HET HES] & HM).
  exists e, h1, (fun h2 => Forall2 (isT h2) (ex_temporal e) ts /\
       (Forall2 (isS h2) (ex_spatial e) ss \/ Forall2 (isS h2) (ex_spatial e) (map (selected sel) ss))).
  split; [done|]. simpl in HET, HES. split; [by split; [|left]|].
  pose proof HM as [[HdT HdS] _]. simpl in HdT, HdS.
  assert (Hbuild : forall o, o ∈ ss -> op_build cx fvSchemes o = Ok (selected sel o)).
  { intros o Ho. destruct (derivedS_leaves _ _ _ _ HdS o Ho) as (p & o0 & Hp & E0 & Ek & _).
    apply (op_build_kind cx fvSchemes sel o o0 Ek). by apply (Hsel p). }
  assert (Hte : ex_temporal e = []).
  { rewrite Htn in HdT. apply Forall2_nil_inv_l in HdT as ->. by apply Forall2_nil_inv_r in HET. }
  assert (Hse : ex_spatial e <> []).
  { intros Ee. rewrite Ee in HES. apply Forall2_nil_inv_l in HES as ->. by apply Forall2_nil_inv_r in HdS. }
  intros h2 st (HT2 & HS2) Hst Hsup.
  destruct (build_again cx n fvSchemes sel e ss ts h2 st Hbuild HT2 HS2) as (h3 & Eb & HT3 & HS3).
  destruct (steady_system cx n Hset sel h eqn st h3 e ts ss Hst Hsup) as (v & b & Hs & Hrun & Hres); [by split|done|].
  exists h3, v, b. split; [by split; [|right]|]. split; [done|]. split; [|done].
  intros t dt r. unfold dsl_solve. rewrite Hte. destruct (ex_spatial e) as [|sp sl] eqn:Ese; [done|].
  rewrite (rseq_surely _ _ (tt, h3)) by (intros r'; rewrite Eb; reflexivity). cbv beta iota.
  rewrite (rseq_surely _ _ _ _ Hpat). rewrite (rseq_surely _ _ _ _ Hrun). unfold solver_solve. rewrite Hsol. done.
Qed.

(** Every call of solve() for an equation without time derivative, any mixture of
    implicit and explicit operators: if it ends, it ends normally, with the
    implicit operators applied to the new field and the explicit ones to the old
    one adding up to zero in every cell.  Repeated calls (outer iterations)
    continue from the result of the one before.  Times and step sizes do not
    matter; boundary data and old-time field stay as they were. *)
Theorem C99_steady_solve : forall dbg cx n bcs lin fvSchemes fvSolution name sel h eqn st,
  cx_fits cx -> state_ok cx st ->
  equation_wf h (nCells (cx_mesh cx)) eqn -> single_fields h eqn -> temporal_objects eqn = [] -> spatial_objects eqn <> [] ->
  schemes_selected cx fvSchemes sel h eqn -> all_supported cx n sel h eqn st ->
  surely (sp_create (cx_exec cx) (cx_mesh cx)) (cx_pattern cx) -> exact_solver lin ->
  solver_create fvSolution = Ok name ->
  exists e h', eval_equation eqn h = Ok (e, h') /\
    forall l r, time_loop dbg cx n bcs lin fvSchemes fvSolution e l h' st r -> exists f h'',
      f 0 = st /\ r = Ok (h'', f (length l)) /\
      forall i, i < length l -> solves_steady cx n sel h eqn (f i) (f (S i)).
Proof.
  intros dbg cx n bcs lin fvSchemes fvSolution name sel h eqn st Hset Hst Hwf Hsf Htn Hsn Hsel Hsup Hpat Hlin Hsol.
  destruct (steady_call dbg cx n bcs lin fvSchemes fvSolution name sel h eqn Hset Hwf Hsf Htn Hsn Hsel Hpat Hsol) as (e & h' & Inv & E & HI & Hcall).
  exists e, h'. split; [done|]. intros l r Hr.
  destruct (loop_every dbg cx n bcs lin fvSchemes fvSolution e (fun h2 st2 => Inv h2 /\ state_ok cx st2)
    (fun _ st1 st2 => solves_steady cx n sel h eqn st1 st2) l h' st) with (r := r) as (f & h'' & F0 & Fr & Fi); [|done|done|].
  - intros h2 st2 t dt r2 (HI2 & Hst2) Hr2.
    destruct (Hcall h2 st2 HI2 Hst2) as (h3 & v & b & HI3 & [Hv Hb] & Hrun & Hres); [by apply (all_state cx n sel h eqn st)|].
    apply Hrun in Hr2.
    destruct Hr2 as [(x & H1 & ->)|[(x & H1 & _)|[[H1 _]|[H1 _]]]]; destruct (Hlin _ _ _ _ _ _ _ H1) as (y & Ey & Hly & Hy); try discriminate.
    injection Ey as <-. eexists h3, _. split; [reflexivity|]. rewrite Hb in *.
    destruct Hst2 as [(Q0 & Q1 & Q2 & Q3 & Q4) Q5]. split.
    + split; [done|]. split; [repeat split; done|]. unfold old_of in *. cbn. destruct (ts_old st2); done.
    + split; [done|]. split; [|done]. intros c Hc. rewrite <- Hres by done. by apply Hy.
  - exists f, h''. split; [done|]. split; [done|]. intros i Hi.
    destruct (lookup_lt_is_Some_2 l i Hi) as ([t dt] & Et). by apply (Fi i t dt).
Qed.
Print Assumptions C99_steady_solve.

(** With a solver that can return every solution, every field that satisfies the
    equation is a possible result. *)
Theorem C99_steady_complete : forall dbg cx n bcs lin fvSchemes fvSolution name sel h eqn st st' t dt,
  cx_fits cx -> state_ok cx st ->
  equation_wf h (nCells (cx_mesh cx)) eqn -> single_fields h eqn -> temporal_objects eqn = [] -> spatial_objects eqn <> [] ->
  schemes_selected cx fvSchemes sel h eqn -> all_supported cx n sel h eqn st ->
  surely (sp_create (cx_exec cx) (cx_mesh cx)) (cx_pattern cx) -> complete_solver lin ->
  solver_create fvSolution = Ok name -> solves_steady cx n sel h eqn st st' ->
  exists e h' h'', eval_equation eqn h = Ok (e, h') /\
    dsl_solve dbg cx n bcs lin fvSchemes fvSolution h' e t dt st (Ok (h'', st')).
Proof.
  intros dbg cx n bcs lin fvSchemes fvSolution name sel h eqn st st' t dt Hset Hst Hwf Hsf Htn Hsn Hsel Hsup Hpat Hlin Hsol (L & S & O & P).
  destruct (steady_call dbg cx n bcs lin fvSchemes fvSolution name sel h eqn Hset Hwf Hsf Htn Hsn Hsel Hpat Hsol) as (e & h' & Inv & E & HI & Hcall).
  destruct (Hcall h' st HI Hst Hsup) as (h3 & v & b & HI3 & [Hv Hb] & Hrun & Hres).
  exists e, h', h3. split; [done|]. apply Hrun. left. exists (vf_int (ts_phi st')). split.
  - apply Hlin; [by rewrite Hb|]. rewrite Hb. intros c Hc. rewrite Hres by done. by apply S.
  - destruct st' as [p o]. cbn in *. by rewrite <- P, O.
Qed.
Print Assumptions C99_steady_complete.

(** ** A case: imp::div(flux, T) - imp::laplacian(gamma, T) + exp::div(flux, T)
    on the mesh fork3, from the field of C91.  Two outer iterations are taken. *)
Definition eqnE : equation := EPlusOp (EOpMinus (TermS (SVar 0)) (TermS (SVar 1))) (SVar 2).
Definition heapE : heap Qc := declared [ImpDiv 0 0; ImpLaplacian 1 0; ExpDiv 0 0].
Definition selE (k : spatialKind Qc) : spatialKind Qc :=
  match k with DivOperator f p _ => DivOperator f p (Some Upwind) | LaplacianOperator g p _ => LaplacianOperator g p true | k => k end.
Lemma eqnE_ok x : length x = 3 ->
  cx_fits cxD /\ state_ok cxD (stD x) /\ equation_wf heapE 3 eqnE /\ single_fields heapE eqnE /\ temporal_objects eqnE = [] /\ spatial_objects eqnE <> [] /\
  schemes_selected cxD (schemesD "none") selE heapE eqnE /\ all_supported cxD 0 selE heapE eqnE (stD x) /\
  surely (sp_create (cx_exec cxD) (cx_mesh cxD)) (cx_pattern cxD) /\ exact_solver solve_exactly /\ solver_create (schemesD "none") = Ok "Ginkgo"%string.
Proof.
  intros Hx. split; [apply cxD_setup|]. split; [split; [|done]; repeat split; done|].
  split; [cbn; split; [split|]; eexists; (split; [reflexivity|done])|]. split; [cbn; repeat split; lia|]. split; [done|]. split; [done|].
  assert (Hobj : forall p o, p ∈ spatial_objects eqnE -> h_spatial heapE !! p = Some o ->
    o = SpatialOp (DivOperator 0 0 None) Implicit (coeff_scalar 1%Qc) \/ o = SpatialOp (LaplacianOperator 1 0 false) Implicit (coeff_scalar 1%Qc) \/ o = SpatialOp (DivOperator 0 0 None) Explicit (coeff_scalar 1%Qc)).
  { intros p o Hp. cbn in Hp. apply elem_of_list_In in Hp. destruct Hp as [<-|[<-|[<-|[]]]]; cbn; intros E; injection E as <-; auto. }
  split. { intros p o Hp E. destruct (Hobj p o Hp E) as [->|[-> | ->]]; vm_compute; reflexivity. }
  split.
  { split; intros p o Hp E; [|cbn in Hp; by apply elem_of_nil in Hp].
    destruct (Hobj p o Hp E) as [->|[-> | ->]]; (split; [|done]); cbn; (split; [done|]); repeat split; done. }
  split; [apply C48_serial_pattern; [apply fork3_topology|apply fork3_fit|apply patA_serial]|]. split; [apply solve_exactly_exact|]. vm_compute. reflexivity.
Qed.
Definition stE : tstate := TState (with_int (ts_phi (stD x0D)) [Q2Qc (41 # 4); Q2Qc (35 # 4); Q2Qc (37 # 4)]) (Some x0D).
Example C99_instance : solves_steady cxD 0 selE heapE eqnE (stD x0D) stE /\
  exists e h' h'', eval_equation eqnE heapE = Ok (e, h') /\
    dsl_solve false cxD 0 [] solve_exactly (schemesD "none") (schemesD "none") h' e 0%Qc 1%Qc (stD x0D) (Ok (h'', stE)).
Proof.
  assert (H : solves_steady cxD 0 selE heapE eqnE (stD x0D) stE).
  { split; [done|]. split; [|done]. cells3; apply Qc_is_canon; vm_compute; reflexivity. }
  split; [done|]. destruct (eqnE_ok x0D eq_refl) as (A1 & A2 & A3 & A4 & A5 & A6 & A7 & A8 & A9 & A10 & A11).
  by eapply (C99_steady_complete false cxD 0 [] solve_exactly _ _ "Ginkgo"); try done; apply solve_exactly_complete.
Qed.
