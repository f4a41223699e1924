(** C118: solving with PETSc. *)
From Coq Require Import Lqa.
From Verif Require Import SparsityProps.
From Verif Require Import Base Dict Registry Par Exec Fields FieldsProofs Value Kernel Mesh MeshSpec Coeff FV FVSpec CSR CSRSpec CSRProofs Sparsity SparsitySpec SparsityDet Assembly AssemblySpec AssemblyProps
  Boundary Properties_Boundary ExampleMesh Properties_LinAlg Properties_Sparsity Properties_Assembly Dsl DslSpec DslHeapProofs DslProofs DslAssembly Properties_Dsl Properties_DslAssembly
  TimeInt TimeSpec TimeIntProofs TimeIntSteps Properties_TimeInt FrontEnd SteadySolve Transport TransportProofs Properties_Transport DiffusionProofs Properties_CoNum FVProofs FVProps Properties_Steady Properties_Pressure Properties_ExactPattern QcLra Petsc.
Local Open Scope nat_scope.

Local Lemma sum_over_ext n (f g : nat -> Qc) : (forall i, i < n -> f i = g i) -> sum_over n f = sum_over n g.
Proof. intros H. unfold sum_over. apply sumQ_ext. intros x Hx. apply elem_of_seq in Hx. apply H. lia. Qed.
Local Lemma sum_over_pick n (x : nat -> Qc) j : j < n -> sum_over n (fun i => (if decide (i = j) then 1 else 0) * x i)%Qc = x j.
Proof.
  induction n as [|n IH]; intros Hj; [lia|]. unfold sum_over in *. rewrite seq_S, map_app, sumQ_app. cbn [map sumQ Nat.add].
  destruct (decide (n = j)) as [->|Hn].
  - rewrite sumQ_zero; [ring|]. intros i Hi. apply elem_of_seq in Hi. rewrite decide_False by lia. ring.
  - rewrite IH by lia. ring.
Qed.

Section systems.
  Context (m : mesh) (p : sparsity) (Hm : valid_topology m) (Hp : pattern_rows m p).
  Context (e : executor) (values rhs : list Qc) (Hsys : sys_ok m p values rhs).
  Notation N := (nCells m).
  Notation A := (l_matrix (system_of e p values rhs)).

  Lemma system_csr : csr_ok A /\ no_empty_row A /\ nRows A = N.
  Proof.
    destruct Hsys as [Hv Hb]. pose proof (pr_rp_len _ _ Hp) as Hl.
    assert (Hmono : forall i lo hi, sp_rowPtrs p !! i = Some lo -> sp_rowPtrs p !! S i = Some hi -> lo < hi).
    { intros i lo hi H1 H2. pose proof (lookup_lt_Some _ _ _ H2) as Hlt.
      pose proof (pr_rp_mono _ _ Hp i ltac:(lia)) as H. unfold atn in H. rewrite Nat.add_1_r in H. by rewrite H1, H2 in H. }
    split; [|split].
    - constructor; cbn.
      + done.
      + apply (pr_rp_0 _ _ Hp).
      + intros i lo hi H1 H2. pose proof (Hmono i lo hi H1 H2). lia.
      + rewrite last_lookup, Hl, Nat.add_1_r, Hv. apply (pr_rp_end _ _ Hp).
      + by rewrite Hv.
    - exact Hmono.
    - unfold nRows, Fields.fsize. cbn. rewrite Hl, Nat.add_1_r. simpl. lia.
  Qed.
  Lemma system_coef i j : i < N -> coef A i j = Properties_ExactPattern.coefficient p values i j.
  Proof.
    intros Hi. unfold coef, Properties_ExactPattern.coefficient, row_range. cbn. rewrite sumQ_vsum. rewrite <- Nat.add_1_r.
    f_equal. apply map_ext_in. intros k Hk. apply in_seq in Hk.
    pose proof (pr_rp_end _ _ Hp) as He. destruct Hsys as [Hv _].
    assert (Hkn : k < sp_nnz p).
    { destruct system_csr as (Hok & _ & Hn). destruct (row_bounds A Hok i ltac:(lia)) as (lo & hi & H1 & H2 & H3 & H4).
      cbn in H1, H2, H4. unfold atn in Hk. rewrite Nat.add_1_r, H1, H2 in Hk. cbn in Hk. rewrite Hv in H4. lia. }
    unfold atn. destruct (lookup_lt_is_Some_2 (sp_colIdxs p) k ltac:(exact Hkn)) as (c & Ec). rewrite Ec. cbn.
    unfold atV. destruct (decide (c = j)) as [->|Hne].
    - by rewrite decide_True.
    - rewrite decide_False; [done|]. congruence.
  Qed.
  (** What PETSc returns, in terms of the stored matrix. *)
  Lemma petsc_transposed d x0 r : 0 < N ->
    petsc_solver e d p values rhs x0 r <->
    exists x, r = Ok x /\ length x = N /\
      forall i, i < N -> sum_over N (fun j => Properties_ExactPattern.coefficient p values j i * default 0 (x !! j))%Qc = atV rhs i.
  Proof.
    intros HN. destruct system_csr as (Hok & Hne & Hn). pose proof (proj2 Hsys) as Hb.
    destruct (C26_transpose (system_of e p values rhs) Hok Hne ltac:(lia) (eq_trans Hb (eq_sym Hn))) as (c & Ec & Hc1 & Hc2).
    unfold petsc_solver. rewrite Ec, Hb. rewrite Hn in Hc1, Hc2.
    assert (Hsame : forall (x : list Qc) i, i < N ->
      (sum_over N (fun j => (coo_entry c i j * default 0 (x !! j))%Qc) = coo_rhs c i <->
       sum_over N (fun j => Properties_ExactPattern.coefficient p values j i * default 0 (x !! j))%Qc = atV rhs i)).
    { intros x i Hi. rewrite Hc2 by done. unfold atV. cbn [system_of l_rhs Fields.fdata].
      rewrite (sum_over_ext N _ (fun j => Properties_ExactPattern.coefficient p values j i * default 0 (x !! j))%Qc); [done|].
      intros j Hj. rewrite Hc1 by done. by rewrite system_coef. }
    split; intros (x & -> & Hl & Hx); exists x; (split; [done|]); (split; [done|]); intros i Hi; apply Hsame; auto.
  Qed.

  (** [E x i] is the residual of the assembled system. *)
  Context (E : list Qc -> nat -> Qc) (HE : forall x c, c < N -> residual p values rhs x c = E x c).
  Lemma residual_sum x c : c < N ->
    E x c = (sum_over N (fun j => Properties_ExactPattern.coefficient p values c j * default 0 (x !! j)) - atV rhs c)%Qc.
  Proof.
    intros Hc. rewrite <- HE by done. unfold residual. rewrite (mat_row_coefficient m) by (try done; by apply valid_connectivity).
    unfold sum_over. rewrite sumQ_vsum. done.
  Qed.
  Lemma E_zero c : c < N -> E (zero_field N) c = (- atV rhs c)%Qc.
  Proof.
    intros Hc. rewrite residual_sum by done. unfold sum_over. rewrite sumQ_zero; [ring|].
    intros j Hj. apply elem_of_seq in Hj. unfold zero_field. rewrite lookup_replicate_2 by lia. cbn. ring.
  Qed.
  Lemma E_coefficient i j : i < N -> j < N -> coefficient E N i j = Properties_ExactPattern.coefficient p values i j.
  Proof.
    intros Hi Hj. unfold coefficient. rewrite E_zero, residual_sum by done.
    rewrite (sum_over_ext N _ (fun k => (if decide (k = j) then 1 else 0) * Properties_ExactPattern.coefficient p values i k)%Qc).
    - rewrite sum_over_pick by done. ring.
    - intros k Hk. unfold unit_field. change (map ?f ?l) with (f <$> l). rewrite list_lookup_fmap, lookup_seq_lt by done. cbn. ring.
  Qed.
  Lemma petsc_solves d x0 r : 0 < N ->
    petsc_solver e d p values rhs x0 r <-> exists x, r = Ok x /\ length x = N /\ solves_transposed E N x.
  Proof.
    intros HN. rewrite petsc_transposed by done.
    assert (Hsame : forall (x : list Qc) i, i < N ->
      (sum_over N (fun j => Properties_ExactPattern.coefficient p values j i * default 0 (x !! j))%Qc = atV rhs i <->
       (sum_over N (fun j => coefficient E N j i * default 0 (x !! j)) + E (zero_field N) i = 0)%Qc)).
    { intros x i Hi. rewrite E_zero by done.
      rewrite (sum_over_ext N (fun j => (coefficient E N j i * _)%Qc) (fun j => Properties_ExactPattern.coefficient p values j i * default 0 (x !! j))%Qc).
      - generalize (sum_over N (fun j => Properties_ExactPattern.coefficient p values j i * default 0 (x !! j))%Qc) (atV rhs i). clear.
        intros a b. split; intros H; qc_lra.
      - intros j Hj. by rewrite E_coefficient. }
    split; intros (x & -> & Hl & Hx); exists x; (split; [done|]); (split; [done|]); intros i Hi; apply Hsame; auto.
  Qed.
  Lemma transposed_symmetric x : symmetric_equations E N -> solves_transposed E N x <-> forall i, i < N -> E x i = 0%Qc.
  Proof.
    intros Hs. unfold solves_transposed.
    assert (Hsame : forall i, i < N -> (sum_over N (fun j => coefficient E N j i * default 0 (x !! j)) + E (zero_field N) i = E x i)%Qc).
    { intros i Hi. rewrite E_zero, residual_sum by done.
      rewrite (sum_over_ext N _ (fun j => Properties_ExactPattern.coefficient p values i j * default 0 (x !! j))%Qc); [done|].
      intros j Hj. by rewrite (Hs j i), E_coefficient. }
    split; intros H i Hi; specialize (H i Hi); by rewrite Hsame in *.
  Qed.
End systems.
(** * C118 *)
(** Equations without time derivative (C99), PETSc instead of a solver for the
    given system: every call of solve() that ends, ends normally with values that
    solve the equations with the transposed coefficients; these are the
    equations' solutions if the coefficients are symmetric. *)
Theorem C118_steady : forall dbg cx n bcs lin fvSchemes fvSolution sel h eqn st,
  cx_fits cx -> state_ok cx st -> 0 < nCells (cx_mesh cx) ->
  equation_wf h (nCells (cx_mesh cx)) eqn -> single_fields h eqn -> temporal_objects eqn = [] -> spatial_objects eqn <> [] ->
  schemes_selected cx fvSchemes sel h eqn -> all_supported cx n sel h eqn st ->
  surely (sp_create (cx_exec cx) (cx_mesh cx)) (cx_pattern cx) ->
  solver_create fvSolution = Ok "Petsc"%string -> petsc_backend (cx_exec cx) lin ->
  exists e h', eval_equation eqn h = Ok (e, h') /\
    forall l r, time_loop dbg cx n bcs lin fvSchemes fvSolution e l h' st r -> exists f h'',
      f 0 = st /\ r = Ok (h'', f (length l)) /\
      forall i, i < length l -> let x := vf_int (ts_phi (f (S i))) in
        length x = nCells (cx_mesh cx) /\
        solves_transposed (steady_at cx n sel h eqn (f i)) (nCells (cx_mesh cx)) x /\
        (symmetric_equations (steady_at cx n sel h eqn (f i)) (nCells (cx_mesh cx)) -> solves_steady cx n sel h eqn (f i) (f (S i))) /\
        ts_old (f (S i)) = ts_old (f i) /\ ts_phi (f (S i)) = with_int (ts_phi (f i)) x.
Proof.
  intros dbg cx n bcs lin fvSchemes fvSolution sel h eqn st Hset Hst HN Hwf Hsf Htn Hsn Hsel Hsup Hpat Hsol Hlin.
  destruct (steady_call dbg cx n bcs lin fvSchemes fvSolution _ sel h eqn Hset Hwf Hsf Htn Hsn Hsel Hpat Hsol) as (e & h' & Inv & E & HI & Hcall).
  exists e, h'. split; [done|]. intros l r Hr.
  pose proof Hset as (Hm & Hp & _).
  destruct (loop_every dbg cx n bcs lin fvSchemes fvSolution e (fun h2 st2 => Inv h2 /\ state_ok cx st2)
    (fun _ s1 s2 => let x := vf_int (ts_phi s2) in
        length x = nCells (cx_mesh cx) /\
        solves_transposed (steady_at cx n sel h eqn s1) (nCells (cx_mesh cx)) x /\
        (symmetric_equations (steady_at cx n sel h eqn s1) (nCells (cx_mesh cx)) -> solves_steady cx n sel h eqn s1 s2) /\
        ts_old s2 = ts_old s1 /\ ts_phi s2 = with_int (ts_phi s1) x) l h' st) with (r := r) as (f & h'' & F0 & Fr & Fi); [|done|done|].
  - intros h2 st2 t dt r2 (HI2 & Hst2) Hr2.
    destruct (Hcall h2 st2 HI2 Hst2) as (h3 & v & b & HI3 & Hsys & Hrun & Hres); [by apply (all_state cx n sel h eqn st)|].
    pose proof Hsys as [Hv Hb].
    apply Hrun in Hr2.
    pose proof (fun r1 Hr1 => proj1 (petsc_solves (cx_mesh cx) (cx_pattern cx) Hm Hp (cx_exec cx) v b Hsys _ Hres fvSolution (vf_int (ts_phi st2)) r1 HN) (proj1 (Hlin _ _ _ _ _ r1) Hr1)) as Hl.
    destruct Hr2 as [(x & H1 & ->)|[(x & H1 & _)|[[H1 _]|[H1 _]]]]; destruct (Hl _ H1) as (y & Ey & Hly & Hy); try discriminate.
    injection Ey as <-. eexists h3, _. split; [reflexivity|].
    destruct Hst2 as [(Q0 & Q1 & Q2 & Q3 & Q4) Q5]. split.
    + split; [done|]. split; [repeat split; done|]. unfold old_of in *. cbn. destruct (ts_old st2); done.
    + cbv zeta. cbn [ts_phi ts_old vf_int with_int]. split; [done|]. split; [done|]. split; [|done].
      intros Hs. split; [done|]. split; [|done]. cbn [ts_phi ts_old vf_int with_int].
      exact (proj1 (transposed_symmetric (cx_mesh cx) (cx_pattern cx) Hm Hp v b _ Hres x Hs) Hy).
  - exists f, h''. split; [done|]. split; [done|]. intros i Hi.
    destruct (lookup_lt_is_Some_2 l i Hi) as ([t dt] & Et). by apply (Fi i t dt).
Qed.
Print Assumptions C118_steady.

(** Every field of that kind is a possible result. *)
Theorem C118_complete : forall dbg cx n bcs lin fvSchemes fvSolution sel h eqn st t dt x,
  cx_fits cx -> state_ok cx st -> 0 < nCells (cx_mesh cx) ->
  equation_wf h (nCells (cx_mesh cx)) eqn -> single_fields h eqn -> temporal_objects eqn = [] -> spatial_objects eqn <> [] ->
  schemes_selected cx fvSchemes sel h eqn -> all_supported cx n sel h eqn st ->
  surely (sp_create (cx_exec cx) (cx_mesh cx)) (cx_pattern cx) ->
  solver_create fvSolution = Ok "Petsc"%string -> petsc_backend (cx_exec cx) lin ->
  length x = nCells (cx_mesh cx) -> solves_transposed (steady_at cx n sel h eqn st) (nCells (cx_mesh cx)) x ->
  exists e h' h'', eval_equation eqn h = Ok (e, h') /\
    dsl_solve dbg cx n bcs lin fvSchemes fvSolution h' e t dt st (Ok (h'', TState (with_int (ts_phi st) x) (ts_old st))).
Proof.
  intros dbg cx n bcs lin fvSchemes fvSolution sel h eqn st t dt x Hset Hst HN Hwf Hsf Htn Hsn Hsel Hsup Hpat Hsol Hlin Lx Hx.
  destruct (steady_call dbg cx n bcs lin fvSchemes fvSolution _ sel h eqn Hset Hwf Hsf Htn Hsn Hsel Hpat Hsol) as (e & h' & Inv & E & HI & Hcall).
  destruct (Hcall h' st HI Hst Hsup) as (h3 & v & b & HI3 & Hsys & Hrun & Hres). pose proof Hset as (Hm & Hp & _).
  exists e, h', h3. split; [done|]. apply Hrun. left. exists x. split; [|done].
  apply (proj2 (Hlin _ _ _ _ _ _)). apply (proj2 (petsc_solves (cx_mesh cx) (cx_pattern cx) Hm Hp (cx_exec cx) v b Hsys _ Hres fvSolution (vf_int (ts_phi st)) (Ok x) HN)).
  by exists x.
Qed.
Print Assumptions C118_complete.

(** Backward Euler steps (C48) with PETSc. *)
Theorem C118_time_loop : forall dbg cx n bcs lin fvSchemes fvSolution schemes sel h eqn st,
  setup_ok cx bcs -> state_ok cx st -> 0 < nCells (cx_mesh cx) ->
  equation_wf h (nCells (cx_mesh cx)) eqn -> single_fields h eqn -> temporal_objects eqn <> [] ->
  schemes_selected cx fvSchemes sel h eqn -> all_supported cx n sel h eqn st ->
  (forall p o, p ∈ spatial_objects eqn -> h_spatial h !! p = Some o -> so_type o = Implicit) ->
  surely (sp_create (cx_exec cx) (cx_mesh cx)) (cx_pattern cx) ->
  dict_subDict fvSchemes "ddtSchemes" = Ok schemes -> get_string schemes "type" = Ok "backwardEuler"%string ->
  solver_create fvSchemes = Ok "Petsc"%string -> petsc_backend (cx_exec cx) lin ->
  exists e h', eval_equation eqn h = Ok (e, h') /\
    forall l r, time_loop dbg cx n bcs lin fvSchemes fvSolution e l h' st r -> exists f h'',
      f 0 = st /\ r = Ok (h'', f (length l)) /\
      forall i t dt, l !! i = Some (t, dt) -> let x := vf_int (ts_phi (f (S i))) in
        length x = nCells (cx_mesh cx) /\
        solves_transposed (equation_at cx n sel h eqn dt (f i)) (nCells (cx_mesh cx)) x /\
        (symmetric_equations (equation_at cx n sel h eqn dt (f i)) (nCells (cx_mesh cx)) -> solves_step cx n sel h eqn dt (f i) (f (S i))) /\
        ts_old (f (S i)) = Some x /\ ts_phi (f (S i)) = with_int (ts_phi (f i)) x.
Proof.
  intros dbg cx n bcs lin fvSchemes fvSolution schemes sel h eqn st Hset Hst HN Hwf Hsf Htne Hsel Hsup Himp Hpat Hsub Hty Hsol Hlin.
  destruct (eval_equation_spec (nCells (cx_mesh cx)) h eqn h (ext_refl h) Hwf) as [[_ Hok]|[Hn _]]; [|done].
  destruct Hok as (e & h1 & E & Hx & [ts ss] & [HET HES] & HM). exists e, h1. split; [done|]. simpl in HET, HES.
  pose proof HM as [[HdT HdS] _]. simpl in HdT, HdS. pose proof (proj1 Hset) as (Hm & Hp & _).
  assert (Hbuild : forall o, o ∈ ss -> op_build cx fvSchemes o = Ok (selected sel o)).
  { intros o Ho. destruct (derivedS_leaves _ _ _ _ HdS o Ho) as (p & o0 & Hp0 & E0 & Ek & _).
    apply (op_build_kind cx fvSchemes sel o o0 Ek). by apply (Hsel p). }
  assert (Hte : ex_temporal e <> []).
  { intros Ee. rewrite Ee in HET. apply Forall2_nil_inv_l in HET as ->. by apply Forall2_nil_inv_r in HdT. }
  intros l.
  apply (loop_every dbg cx n bcs lin fvSchemes fvSolution e
    (fun h2 st2 => Forall2 (isT h2) (ex_temporal e) ts /\ state_ok cx st2 /\
       (Forall2 (isS h2) (ex_spatial e) ss \/ Forall2 (isS h2) (ex_spatial e) (map (selected sel) ss)))
    (fun dt s1 s2 => let x := vf_int (ts_phi s2) in
        length x = nCells (cx_mesh cx) /\
        solves_transposed (equation_at cx n sel h eqn dt s1) (nCells (cx_mesh cx)) x /\
        (symmetric_equations (equation_at cx n sel h eqn dt s1) (nCells (cx_mesh cx)) -> solves_step cx n sel h eqn dt s1 s2) /\
        ts_old s2 = Some x /\ ts_phi s2 = with_int (ts_phi s1) x)); [|split; [done|]; split; [done|by left]].
  intros h2 st2 t dt r (HT2 & Hst2 & HS2) Hr.
  destruct (build_again cx n fvSchemes sel e ss ts h2 st2 Hbuild HT2 HS2) as (h3 & Eb & HT3 & HS3).
  destruct (backwardEuler_system cx n bcs Hset lin fvSchemes "Petsc"%string sel h eqn st2 h3 e ts ss dt Hst2) as (v & b & Hsys & Hrun & Hres0);
    [by apply (all_state cx n sel h eqn st)|by split|done..|].
  assert (Hres : forall x c, c < nCells (cx_mesh cx) -> residual (cx_pattern cx) v b x c = equation_at cx n sel h eqn dt st2 x c).
  { intros x c Hc. rewrite <- implicit_at_all by done. by apply Hres0. }
  assert (Hr2 : rseq (backwardEuler_solve cx n lin fvSchemes h3 e dt st2) (fun st' r' => r' = Ok (h3, st')) r).
  { unfold dsl_solve in Hr. destruct (ex_temporal e) as [|tp tl] eqn:Ete; [done|].
    rewrite (rseq_surely _ _ (tt, h3)) in Hr by (intros r'; rewrite Eb; reflexivity). cbv beta iota in Hr.
    rewrite (rseq_surely _ _ schemes) in Hr by (intros r'; rewrite Hsub; reflexivity).
    unfold timeIntegration_solve in Hr. rewrite Hty in Hr.
    assert (checked known_integrator (Ok "backwardEuler"%string) = Ok "backwardEuler"%string) as Ek by reflexivity. rewrite Ek in Hr.
    rewrite decide_False in Hr by discriminate. rewrite decide_True in Hr by done. exact Hr. }
  pose proof (fun r1 Hr1 => proj1 (petsc_solves (cx_mesh cx) (cx_pattern cx) Hm Hp (cx_exec cx) v b Hsys _ Hres fvSchemes (vf_int (ts_phi st2)) r1 HN) (proj1 (Hlin _ _ _ _ _ r1) Hr1)) as Hl.
  assert (Hback : forall r0, backwardEuler_solve cx n lin fvSchemes h3 e dt st2 r0 -> exists x, r0 = Ok (TState (with_int (ts_phi st2) x) (Some x)) /\
    length x = nCells (cx_mesh cx) /\ solves_transposed (equation_at cx n sel h eqn dt st2) (nCells (cx_mesh cx)) x).
  { intros r0 Hr0. apply Hrun in Hr0.
    destruct Hr0 as [(x & H1 & ->)|[(x & H1 & _)|[[H1 _]|[H1 _]]]]; destruct (Hl _ H1) as (y & Ey & Hly & Hy); try discriminate.
    injection Ey as <-. by exists x. }
  destruct Hr2 as [(st' & H1 & ->)|[(x & H1 & _)|[[H1 _]|[H1 _]]]]; destruct (Hback _ H1) as (y & Ey & Ly & Hy); try discriminate.
  injection Ey as ->. eexists h3, _. split; [reflexivity|].
  destruct Hst2 as [(_ & Q1 & Q2 & Q3 & Q4) _]. split; [|cbv zeta; cbn [ts_phi ts_old vf_int with_int]; split; [done|]; split; [done|]; split; [|done]].
  - split; [done|]. split; [|by right]. split; [repeat split; done|]. done.
  - intros Hs. split; [done|]. split; [|done]. cbn [ts_phi ts_old vf_int with_int].
    exact (proj1 (transposed_symmetric (cx_mesh cx) (cx_pattern cx) Hm Hp v b _ Hres y Hs) Hy).
Qed.
Print Assumptions C118_time_loop.

(** ** Diffusion is symmetric *)
Section laplacian.
  Context (m : mesh) (Hm : valid_topology m) (gamma dc : list Qc) (phi : volField Qc).
  Notation N := (nCells m).
  Notation u i := (fun c => if decide (c = i) then 1%Qc else 0%Qc).
  Local Lemma at0_unit i c : c < N -> at0 (unit_field N i) c = u i c.
  Proof. intros Hc. unfold unit_field. by rewrite (at0_map_seq (fun c => if decide (c = i) then 1%Qc else 0%Qc)). Qed.
  Local Lemma at0_zero c : at0 (zero_field N) c = 0%Qc.
  Proof. unfold at0, zero_field. destruct (replicate N 0%Qc !! c) eqn:E; [|done]. by apply lookup_replicate in E as [-> _]. Qed.
  Local Lemma diffused_unit i f : f < nInternalFaces m ->
    (diffused m gamma dc phi (unit_field N i) f - diffused m gamma dc phi (zero_field N) f =
     at0 gamma f * at0 (magFaceAreas m) f * at0 dc f * (u i (atn (faceNeighbour m) f) - u i (atn (faceOwner m) f)))%Qc.
  Proof.
    intros Hf. unfold diffused, implicit_normal_gradient. rewrite !decide_True by done. unfold at_neighbour, at_owner, vsub.
    cbn [with_int vf_int vadd vneg vscale Qc_value]. change (@atV Qc Qc_value) with at0.
    rewrite !at0_zero, !at0_unit by (first [by apply owner_lt|by apply vt_nei]). ring.
  Qed.
  Local Lemma diffused_unit_boundary i b : b < nBoundaryFaces m ->
    (diffused m gamma dc phi (unit_field N i) (nInternalFaces m + b) - diffused m gamma dc phi (zero_field N) (nInternalFaces m + b) =
     - (at0 gamma (nInternalFaces m + b) * at0 (magFaceAreas m) (nInternalFaces m + b) * at0 dc (nInternalFaces m + b) * at0 (vf_valueFraction phi) b) * u i (atn (bFaceCells (bmesh m)) b))%Qc.
  Proof.
    intros Hf. unfold diffused, implicit_normal_gradient. rewrite !decide_False by lia.
    replace (nInternalFaces m + b - nInternalFaces m) with b by lia. unfold at_face_cell, vsub.
    cbn [with_int vf_int vf_valueFraction vf_refValue vf_refGrad vadd vneg vscale Qc_value]. change (@atV Qc Qc_value) with at0.
    rewrite !at0_zero, !at0_unit by (by apply vt_fc). ring.
  Qed.
  Lemma diffusion_coefficient i j : i < N -> j < N ->
    (cell_balance m (diffused m gamma dc phi (unit_field N j)) i - cell_balance m (diffused m gamma dc phi (zero_field N)) i =
     vsum_over (nInternalFaces m) (fun f => (u i (atn (faceOwner m) f) - u i (atn (faceNeighbour m) f)) *
        (at0 gamma f * at0 (magFaceAreas m) f * at0 dc f * (u j (atn (faceNeighbour m) f) - u j (atn (faceOwner m) f)))) +
     vsum_over (nBoundaryFaces m) (fun b => u i (atn (bFaceCells (bmesh m)) b) *
        (- (at0 gamma (nInternalFaces m + b) * at0 (magFaceAreas m) (nInternalFaces m + b) * at0 dc (nInternalFaces m + b) * at0 (vf_valueFraction phi) b) * u j (atn (bFaceCells (bmesh m)) b))))%Qc.
  Proof.
    intros Hi Hj.
    set (g := fun f => (diffused m gamma dc phi (unit_field N j) f - diffused m gamma dc phi (zero_field N) f)%Qc).
    transitivity (cell_balance m g i).
    { transitivity (cell_balance m (fun f => diffused m gamma dc phi (unit_field N j) f + - (1) * diffused m gamma dc phi (zero_field N) f)%Qc i).
      - rewrite (balance_add m), (balance_scaled m). cbn. ring.
      - apply (balance_congr m Hm). intros f _. unfold g. ring. }
    transitivity (vsum_over N (fun c => u i c * cell_balance m g c)%Qc).
    { symmetry. etransitivity; [|apply (vsum_over_single N i (cell_balance m g i)); done].
      apply vsum_over_ext. intros c Hc. destruct (decide (c = i)) as [->|]; cbn; ring. }
    rewrite (by_parts m Hm). f_equal; apply vsum_over_ext; intros f Hf; unfold g.
    - by rewrite diffused_unit.
    - by rewrite diffused_unit_boundary.
  Qed.
  Lemma diffusion_symmetric i j : i < N -> j < N ->
    (cell_balance m (diffused m gamma dc phi (unit_field N j)) i - cell_balance m (diffused m gamma dc phi (zero_field N)) i =
     cell_balance m (diffused m gamma dc phi (unit_field N i)) j - cell_balance m (diffused m gamma dc phi (zero_field N)) j)%Qc.
  Proof.
    intros Hi Hj. rewrite !diffusion_coefficient by done. f_equal; apply vsum_over_ext; intros f Hf; ring.
  Qed.
End laplacian.

(** The pressure equation is symmetric, so PETSc solves it (C100). *)
Theorem C118_pressure : forall dbg cx bcs lin fvSchemes fvSolution rAU flux n st l r,
  cx_fits cx -> state_ok cx st -> 0 < nCells (cx_mesh cx) ->
  length (cx_surf cx rAU) = nFaces (cx_mesh cx) -> length (cx_surfV cx flux) = nFaces (cx_mesh cx) ->
  (exists s, (laplacian_build (cx_surfName cx rAU) (cx_volName cx n) (IDict fvSchemes)).1 = Ok s) ->
  surely (sp_create (cx_exec cx) (cx_mesh cx)) (cx_pattern cx) ->
  solver_create fvSolution = Ok "Petsc"%string -> petsc_backend (cx_exec cx) lin ->
  run_program (pressure_equation rAU flux n) dbg cx n bcs lin fvSchemes fvSolution l st r ->
  exists f, f 0 = st /\ r = Ok (f (length l)) /\
    forall i, i < length l -> length (vf_int (ts_phi (f (S i)))) = nCells (cx_mesh cx) /\
      (forall c, c < nCells (cx_mesh cx) ->
        cell_balance (cx_mesh cx) (corrected_flux cx rAU flux (ts_phi (f i)) (vf_int (ts_phi (f (S i))))) c = 0%Qc) /\
      ts_old (f (S i)) = ts_old (f i) /\ same_boundary (ts_phi (f (S i))) (ts_phi (f i)).
Proof.
  intros dbg cx bcs lin fvSchemes fvSolution rAU flux n st l r Hcx Hst HN Hra Hfl Hla Hpat Hsol Hlin (e & h & Ep & Hrun).
  assert (Hc : pressure_case cx solve_exactly fvSchemes fvSolution rAU flux n st).
  { constructor; try done; [by eexists|apply solve_exactly_exact]. }
  destruct (pressure_equation_spec _ _ _ _ _ _ _ _ Hc) as (sel & W & S & B & A & HS).
  unfold pressure_equation in Ep. rewrite program_spec in Ep.
  destruct (C118_steady dbg cx n bcs lin fvSchemes fvSolution sel _ _ st Hcx Hst HN W S eq_refl ltac:(done) B A Hpat Hsol Hlin) as (e' & h' & Ee & HL).
  unfold pressure_bs, pressure_eqn in Ee. rewrite Ep in Ee. injection Ee as <- <-.
  assert (Hr : exists f, f 0 = st /\ r = Ok (f (length l)) /\
      forall i, i < length l -> solves_steady cx n sel (declared (pressure_bs rAU flux n)) pressure_eqn (f i) (f (Datatypes.S i))).
  { assert (Hsym : forall s, symmetric_equations (steady_at cx n sel (declared (pressure_bs rAU flux n)) pressure_eqn s) (nCells (cx_mesh cx))).
    { intros s i j Hi Hj. unfold coefficient. rewrite !HS by done. set (m := cx_mesh cx) in *.
      assert (Hb : forall x c, cell_balance m (corrected_flux cx rAU flux (ts_phi s) x) c =
        (cell_balance m (at0 (cx_surfV cx flux)) c + - (1) * cell_balance m (diffused m (cx_surf cx rAU) (cx_dc cx) (ts_phi s) x) c)%Qc).
      { intros x c. rewrite <- (balance_scaled m), <- (balance_add m). apply (balance_congr m (proj1 Hcx)). intros f _. unfold corrected_flux, m. ring. }
      rewrite !Hb. pose proof (diffusion_symmetric m (proj1 Hcx) (cx_surf cx rAU) (cx_dc cx) (ts_phi s) i j Hi Hj) as Hd.
      revert Hd. generalize (cell_balance m (at0 (cx_surfV cx flux)) i) (cell_balance m (at0 (cx_surfV cx flux)) j)
        (cell_balance m (diffused m (cx_surf cx rAU) (cx_dc cx) (ts_phi s) (unit_field (nCells m) j)) i)
        (cell_balance m (diffused m (cx_surf cx rAU) (cx_dc cx) (ts_phi s) (unit_field (nCells m) i)) j)
        (cell_balance m (diffused m (cx_surf cx rAU) (cx_dc cx) (ts_phi s) (zero_field (nCells m))) i)
        (cell_balance m (diffused m (cx_surf cx rAU) (cx_dc cx) (ts_phi s) (zero_field (nCells m))) j). clear. intros a1 a2 a3 a4 a5 a6 Hd. qc_lra. }
    destruct Hrun as [([h2 s2] & H1 & ->)|[(x & H1 & ->)|[(H1 & ->)|(H1 & ->)]]]; destruct (HL _ _ H1) as (f & h'' & F0 & Fr & Fi); try done.
    injection Fr as -> ->. exists f. split; [done|]. split; [done|]. intros i Hi. destruct (Fi i Hi) as (_ & _ & Hss & _). apply Hss, Hsym. }
  destruct Hr as (f & F0 & -> & Fi). exists f. split; [done|]. split; [done|].
  intros i Hi. destruct (Fi i Hi) as (L & E & O & P). split; [done|]. split.
  - intros c Hcc. pose proof (E c Hcc) as Ec. rewrite HS in Ec by done. revert Ec. generalize (cell_balance (cx_mesh cx) (corrected_flux cx rAU flux (ts_phi (f i)) (vf_int (ts_phi (f (Datatypes.S i))))) c). intros q Hq. qc_lra.
  - split; [done|]. rewrite P. repeat split.
Qed.
Print Assumptions C118_pressure.

(** The transport equation of C91 in cell [c], to be made zero. *)
Definition transport_equation m flux gamma dc dt phi old (x : list Qc) (c : nat) : Qc :=
  (at0 (cellVolumes m) c / dt * (at0 x c - at0 old c) + cell_balance m (convected m flux phi x) c - cell_balance m (diffused m gamma dc phi x) c)%Qc.
(** The program of C91 with PETSc: the transposed transport equation is solved;
    the transport equation itself if nothing flows. *)
Theorem C118_transport : forall dbg cx bcs lin fvSchemes fvSolution flux gamma n st l r,
  setup_ok cx bcs -> state_ok cx st -> 0 < nCells (cx_mesh cx) ->
  length (cx_surf cx flux) = nFaces (cx_mesh cx) -> length (cx_surf cx gamma) = nFaces (cx_mesh cx) ->
  (exists s, (div_build (cx_surfName cx flux) (cx_volName cx n) (IDict fvSchemes)).1 = Ok s) ->
  (exists s, (laplacian_build (cx_surfName cx gamma) (cx_volName cx n) (IDict fvSchemes)).1 = Ok s) ->
  (exists schemes, dict_subDict fvSchemes "ddtSchemes" = Ok schemes /\ get_string schemes "type" = Ok "backwardEuler"%string) ->
  surely (sp_create (cx_exec cx) (cx_mesh cx)) (cx_pattern cx) ->
  solver_create fvSchemes = Ok "Petsc"%string -> petsc_backend (cx_exec cx) lin ->
  run_program (implicit_transport flux gamma n) dbg cx n bcs lin fvSchemes fvSolution l st r ->
  exists f, f 0 = st /\ r = Ok (f (length l)) /\
    forall i t dt, l !! i = Some (t, dt) -> let x := vf_int (ts_phi (f (S i))) in
      length x = nCells (cx_mesh cx) /\
      solves_transposed (transport_equation (cx_mesh cx) (cx_surf cx flux) (cx_surf cx gamma) (cx_dc cx) dt (ts_phi (f i)) (old_of (f i))) (nCells (cx_mesh cx)) x /\
      ((forall g, g < nFaces (cx_mesh cx) -> at0 (cx_surf cx flux) g = 0%Qc) ->
        transported (cx_mesh cx) (cx_surf cx flux) (cx_surf cx gamma) (cx_dc cx) dt (ts_phi (f i)) (old_of (f i)) x) /\
      ts_old (f (S i)) = Some x /\ same_boundary (ts_phi (f (S i))) (ts_phi (f i)).
Proof.
  intros dbg cx bcs lin fvSchemes fvSolution flux gamma n st l r Hset Hst HN Hfl Hga Hdi Hla (schemes & Hs1 & Hs2) Hpat Hsol Hlin (e & h & Ep & Hrun).
  assert (Hc : implicit_case cx bcs solve_exactly fvSchemes flux gamma n st).
  { constructor; try done; [by exists schemes|by exists "Petsc"%string|apply solve_exactly_exact]. }
  destruct (implicit_law _ _ _ _ _ _ _ _ Hc) as (sel & W & S & T & B & A & I & HS).
  unfold implicit_transport in Ep. rewrite program_spec in Ep.
  destruct (C118_time_loop dbg cx n bcs lin fvSchemes fvSolution schemes sel _ _ st Hset Hst HN W S T B A I Hpat Hs1 Hs2 Hsol Hlin) as (e' & h' & Ee & HL).
  unfold implicit_bs, implicit_eqn in Ee. rewrite Ep in Ee. injection Ee as <- <-.
  set (m := cx_mesh cx) in *.
  assert (Hsame : forall dt s x c, equation_at cx n sel (declared (implicit_bs flux gamma n)) implicit_eqn dt s x c =
    transport_equation m (cx_surf cx flux) (cx_surf cx gamma) (cx_dc cx) dt (ts_phi s) (old_of s) x c) by (intros; apply HS).
  assert (Hcf : forall dt s i j, coefficient (equation_at cx n sel (declared (implicit_bs flux gamma n)) implicit_eqn dt s) (nCells m) i j =
    coefficient (transport_equation m (cx_surf cx flux) (cx_surf cx gamma) (cx_dc cx) dt (ts_phi s) (old_of s)) (nCells m) i j).
  { intros. unfold coefficient. by rewrite !Hsame. }
  assert (Hr : exists f, f 0 = st /\ r = Ok (f (length l)) /\ forall i t dt, l !! i = Some (t, dt) ->
      let x := vf_int (ts_phi (f (Datatypes.S i))) in
        length x = nCells m /\
        solves_transposed (equation_at cx n sel (declared (implicit_bs flux gamma n)) implicit_eqn dt (f i)) (nCells m) x /\
        (symmetric_equations (equation_at cx n sel (declared (implicit_bs flux gamma n)) implicit_eqn dt (f i)) (nCells m) -> solves_step cx n sel (declared (implicit_bs flux gamma n)) implicit_eqn dt (f i) (f (Datatypes.S i))) /\
        ts_old (f (Datatypes.S i)) = Some x /\ ts_phi (f (Datatypes.S i)) = with_int (ts_phi (f i)) x).
  { destruct Hrun as [([h2 s2] & H1 & ->)|[(x & H1 & ->)|[(H1 & ->)|(H1 & ->)]]]; destruct (HL _ _ H1) as (f & h'' & F0 & Fr & Fi); try done.
    injection Fr as -> ->. exists f. done. }
  destruct Hr as (f & F0 & -> & Fi). exists f. split; [done|]. split; [done|].
  intros i t dt Hi. destruct (Fi i t dt Hi) as (L & E & Y & O & P). cbv zeta in *. split; [done|]. split; [|split; [|split; [done|rewrite P; repeat split]]].
  - intros c Hcc. etransitivity; [|exact (E c Hcc)]. rewrite Hsame. f_equal. apply sum_over_ext. intros j Hj. by rewrite Hcf.
  - intros Hz. destruct Y as (_ & Y & _).
    + intros a b Ha Hb. rewrite !Hcf. unfold coefficient, transport_equation.
      assert (Hcv : forall x c, cell_balance m (convected m (cx_surf cx flux) (ts_phi (f i)) x) c = 0%Qc).
      { intros x c. transitivity (cell_balance m (fun _ => 0 * 0)%Qc c).
        - apply (balance_congr m (proj1 (proj1 Hset))). intros g Hg. unfold convected. rewrite Hz by done. ring.
        - rewrite (balance_scaled m). ring. }
      rewrite !Hcv.
      pose proof (diffusion_symmetric m (proj1 (proj1 Hset)) (cx_surf cx gamma) (cx_dc cx) (ts_phi (f i)) a b Ha Hb) as Hd.
      rewrite !at0_unit, !at0_zero by done. destruct (decide (a = b)) as [->|Hne].
      * by rewrite (decide_True (P := b = b)) by done.
      * rewrite (decide_False (P := b = a)) by done.
        revert Hd. generalize (cell_balance m (diffused m (cx_surf cx gamma) (cx_dc cx) (ts_phi (f i)) (unit_field (nCells m) b)) a)
          (cell_balance m (diffused m (cx_surf cx gamma) (cx_dc cx) (ts_phi (f i)) (unit_field (nCells m) a)) b)
          (cell_balance m (diffused m (cx_surf cx gamma) (cx_dc cx) (ts_phi (f i)) (zero_field (nCells m))) a)
          (cell_balance m (diffused m (cx_surf cx gamma) (cx_dc cx) (ts_phi (f i)) (zero_field (nCells m))) b)
          (at0 (cellVolumes m) a / dt)%Qc (at0 (cellVolumes m) b / dt)%Qc (at0 (old_of (f i)) a) (at0 (old_of (f i)) b). clear.
        intros q1 q2 q3 q4 q5 q6 q7 q8 Hd. transitivity (q3 - q1)%Qc; [ring|]. transitivity (q4 - q2)%Qc; [|ring]. qc_lra.
    + split; [done|]. intros c Hcc. specialize (Y c Hcc). rewrite Hsame in Y. exact Y.
Qed.
Print Assumptions C118_transport.

(** ** Convection: imp::div(flux, T) - imp::laplacian(gamma, T) + exp::div(flux, T)
    on fork3 (C99_instance).  PETSc's answer does not satisfy the equation. *)
Definition petscD : dict := [("solver", AString "Petsc")]%string.
Definition petsc_lin (name : string) : dict -> sparsity -> list Qc -> list Qc -> list Qc -> outcome (list Qc) -> Prop := petsc_solver SerialExecutor.
Definition stT : tstate := TState (with_int (ts_phi (stD x0D)) [Q2Qc (11 # 2); Q2Qc 9; Q2Qc (7 # 4)]) (Some x0D).
Theorem C118_convection :
  petsc_backend (cx_exec cxD) petsc_lin /\ solver_create petscD = Ok "Petsc"%string /\
  (exists e h' h'', eval_equation eqnE heapE = Ok (e, h') /\
    dsl_solve false cxD 0 [] petsc_lin (schemesD "none") petscD h' e 0%Qc 1%Qc (stD x0D) (Ok (h'', stT))) /\
  ~ solves_steady cxD 0 selE heapE eqnE (stD x0D) stT /\
  solves_steady cxD 0 selE heapE eqnE (stD x0D) stE.
Proof.
  split; [done|]. split; [vm_compute; reflexivity|]. split; [|split].
  - destruct (eqnE_ok x0D eq_refl) as (A1 & A2 & A3 & A4 & A5 & A6 & A7 & A8 & A9 & _ & _).
    apply (C118_complete false cxD 0 [] petsc_lin (schemesD "none") petscD selE heapE eqnE (stD x0D) 0%Qc 1%Qc [Q2Qc (11 # 2); Q2Qc 9; Q2Qc (7 # 4)]); try done.
    + cbn. lia.
    + cells3; apply Qc_is_canon; vm_compute; reflexivity.
  - intros (_ & H & _). specialize (H 0 ltac:(cbn; lia)). apply (f_equal this) in H. vm_compute in H. discriminate.
  - apply C99_instance.
Qed.
Print Assumptions C118_convection.

(** A case: the pressure equation of C100_instance, solved with PETSc. *)
Lemma pressureP_ok : let h := declared (pressure_bs 0 0 0) in
  equation_wf h 3 pressure_eqn /\ single_fields h pressure_eqn /\
  schemes_selected cxP schemesP selE h pressure_eqn /\ all_supported cxP 0 selE h pressure_eqn (stP [1; 1; 1]%Qc).
Proof.
  intros h.
  assert (Hobj : forall p o, p ∈ spatial_objects pressure_eqn -> h_spatial h !! p = Some o ->
    o = SpatialOp (LaplacianOperator 0 0 false) Implicit (coeff_scalar 1%Qc) \/ o = SpatialOp (SurfaceIntegrate 0) Explicit (coeff_scalar 1%Qc)).
  { intros p o Hp. cbn in Hp. apply elem_of_list_In in Hp. destruct Hp as [<-|[<-|[]]]; cbn; intros E; injection E as <-; auto. }
  split; [cbn; split; eexists; (split; [reflexivity|done])|]. split; [cbn; split; lia|]. split.
  - intros p o Hp E. destruct (Hobj p o Hp E) as [-> | ->]; vm_compute; reflexivity.
  - split; intros p o Hp E; [|cbn in Hp; by apply elem_of_nil in Hp].
    destruct (Hobj p o Hp E) as [-> | ->]; (split; [|done]); cbn; [|done]. split; [done|]. repeat split; done.
Qed.
Example C118_instance :
  cx_fits cxP /\ state_ok cxP (stP [1; 1; 1]%Qc) /\ 0 < nCells (cx_mesh cxP) /\
  length (cx_surf cxP 0) = nFaces (cx_mesh cxP) /\ length (cx_surfV cxP 0) = nFaces (cx_mesh cxP) /\
  (exists s, (laplacian_build (cx_surfName cxP 0) (cx_volName cxP 0) (IDict schemesP)).1 = Ok s) /\
  surely (sp_create (cx_exec cxP) (cx_mesh cxP)) (cx_pattern cxP) /\ solver_create petscD = Ok "Petsc"%string /\ petsc_backend (cx_exec cxP) petsc_lin /\
  run_program (pressure_equation 0 0 0) false cxP 0 [] petsc_lin schemesP petscD [(0, 1)]%Qc (stP [1; 1; 1]%Qc) (Ok (stP [0%Qc; Q2Qc 2; Q2Qc (-2)])).
Proof.
  destruct (cxP_case [1; 1; 1]%Qc eq_refl) as [C1 C2 C3 C4 C5 C6 C7 C8].
  do 7 (split; [try done; cbn; lia|]). split; [vm_compute; reflexivity|]. split; [done|].
  destruct pressureP_ok as (W & S & B & A).
  destruct (C118_complete false cxP 0 [] petsc_lin schemesP petscD selE (declared (pressure_bs 0 0 0)) pressure_eqn (stP [1; 1; 1]%Qc) 0%Qc 1%Qc [0%Qc; Q2Qc 2; Q2Qc (-2)])
    as (e & h' & h'' & Ee & Hrun); try done.
  - cbn. lia.
  - cells3; apply Qc_is_canon; vm_compute; reflexivity.
  - exists e, h'. split; [unfold pressure_equation; by rewrite program_spec|].
    left. exists (h'', stP [0%Qc; Q2Qc 2; Q2Qc (-2)]). split; [|done]. cbn [time_loop]. left. eexists. split; [exact Hrun|]. done.
Qed.
