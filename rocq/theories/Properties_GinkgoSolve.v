(** C119: solving with Ginkgo. *)
From Coq Require Import Lqa.
From Verif Require Import SparsityProps.
From Verif Require Import Base Dict Registry Ginkgo GinkgoProofs Par Exec Fields FieldsProofs Value Kernel Mesh MeshSpec Coeff FV FVSpec CSR CSRSpec CSRProofs Sparsity SparsitySpec SparsityDet Assembly AssemblySpec AssemblyProps
  Boundary Properties_Boundary ExampleMesh Properties_LinAlg Properties_Sparsity Properties_Assembly Dsl DslSpec DslHeapProofs DslProofs DslAssembly Properties_Dsl Properties_DslAssembly
  TimeInt TimeSpec TimeIntProofs TimeIntSteps Properties_TimeInt FrontEnd SteadySolve Transport TransportProofs Properties_Transport DiffusionProofs Properties_CoNum FVProofs FVProps Properties_Steady Properties_Pressure Properties_ExactPattern QcLra Petsc Properties_Petsc GinkgoSolve.
Local Open Scope nat_scope.

Lemma col_bound_all m p k : connectivity m -> pattern_rows m p -> k < sp_nnz p -> atn (sp_colIdxs p) k < nCells m.
Proof.
  intros Hm Hp Hk.
  assert (H : forall c, c <= nCells m -> k < atn (sp_rowPtrs p) c -> exists c', c' < nCells m /\ atn (sp_rowPtrs p) c' <= k < atn (sp_rowPtrs p) (c' + 1)).
  { induction c as [|c IH]; intros Hc Hlt.
    - unfold atn in Hlt. rewrite (pr_rp_0 _ _ Hp) in Hlt. cbn in Hlt. lia.
    - destruct (decide (k < atn (sp_rowPtrs p) c)) as [H|H]; [apply IH; [lia|done]|].
      exists c. rewrite Nat.add_1_r. lia. }
  destruct (H (nCells m) ltac:(lia)) as (c & Hc & H1 & H2).
  { unfold atn. by rewrite (pr_rp_end _ _ Hp). }
  apply (col_bound m p c k Hm Hp Hc). apply elem_of_seq. lia.
Qed.

Section systems.
  Context (m : mesh) (p : sparsity) (Hm : valid_topology m) (Hp : pattern_rows m p).
  Context (e : executor) (values rhs : list Qc) (Hsys : sys_ok m p values rhs).
  Notation N := (nCells m).
  Context (He : e <> GPUExecutor) (Hfit : (Z.of_nat (nCells m + 2 * nInternalFaces m) < 2 ^ 31)%Z).
  Definition gko_of : gko_csr Qc := GkoCsr N values (map Z.of_nat (sp_colIdxs p)) (map Z.of_nat (sp_rowPtrs p)).
  Lemma gko_lookup (l : list nat) k : map Z.of_nat l !! k = Z.of_nat <$> (l !! k).
  Proof. apply list_lookup_fmap. Qed.
  Lemma gko_of_valid : gko_valid gko_of.
  Proof using Hm Hp Hsys.
    clear He Hfit. destruct Hsys as [Hv Hb]. constructor; cbn [g_rows g_size g_cols g_values gko_of].
    - rewrite map_length, (pr_rp_len _ _ Hp). lia.
    - by rewrite gko_lookup, (pr_rp_0 _ _ Hp).
    - intros i lo hi. rewrite !gko_lookup. destruct (sp_rowPtrs p !! i) as [a|] eqn:E1; [|done]. destruct (sp_rowPtrs p !! S i) as [b|] eqn:E2; [|done].
      intros H1 H2. injection H1 as <-. injection H2 as <-.
      assert (i < N) by (apply lookup_lt_Some in E2; rewrite (pr_rp_len _ _ Hp) in E2; lia).
      pose proof (pr_rp_mono _ _ Hp i ltac:(lia)) as H3. unfold atn in H3. rewrite Nat.add_1_r, E1, E2 in H3. cbn in H3. lia.
    - rewrite gko_lookup, (pr_rp_end _ _ Hp), Hv. done.
    - rewrite map_length, Hv. done.
    - intros k c. rewrite gko_lookup. destruct (sp_colIdxs p !! k) as [j|] eqn:Ej; [|done]. intros H. injection H as <-.
      pose proof (lookup_lt_Some _ _ _ Ej) as Hk. pose proof (col_bound_all m p k (valid_connectivity m Hm) Hp Hk) as Hj.
      unfold atn in Hj. rewrite Ej in Hj. cbn in Hj. lia.
  Qed.
  Lemma gko_of_at x i : i < N -> (gko_at gko_of x i - default 0 (rhs !! i))%Qc = residual p values rhs x i.
  Proof using Type.
    clear He Hfit. intros Hi. unfold gko_at, residual, mat_row. cbn [g_rows g_size g_cols g_values gko_of].
    assert (Hrow : forall k, Z.to_nat (default 0%Z (map Z.of_nat (sp_rowPtrs p) !! k)) = atn (sp_rowPtrs p) k).
    { intros k. rewrite gko_lookup. unfold atn. destruct (sp_rowPtrs p !! k); cbn; lia. }
    rewrite !Hrow, Nat.add_1_r, sumQ_vsum. change (@vsub Qc Qc_value) with Qcminus. f_equal. f_equal. apply map_ext. intros k.
    rewrite gko_lookup. unfold atn, atV. destruct (sp_colIdxs p !! k); cbn; [by rewrite Nat2Z.id|done].
  Qed.
  Lemma ginkgo_call gko s x0 r : length x0 = N ->
    ginkgo_solve gko s (system_of e p values rhs) x0 r <-> gko s.1 s.2 gko_of rhs x0 r.
  Proof.
    intros Lx. destruct (system_csr m p Hp e values rhs Hsys) as (Hok & _ & Hn). destruct Hsys as [Hv Hb].
    pose proof (C56_ginkgo_matrix Qc (system_of e p values rhs) Hok (eq_trans Hb (eq_sym Hn))) as HG.
    assert (HG' : forall o, createGkoMtx (system_of e p values rhs) o <-> o = Some gko_of).
    { unfold always in HG. rewrite Hn in HG. intros o. apply HG; [exact He| |].
      - unfold nNonZeros. cbn. unfold Fields.fsize. cbn. rewrite Hv, (pr_nnz _ _ Hp). done.
      - cbn. intros k c Ec. pose proof (lookup_lt_Some _ _ _ Ec) as Hk.
        pose proof (col_bound_all m p k (valid_connectivity m Hm) Hp Hk) as Hj. unfold atn in Hj. rewrite Ec in Hj. cbn in Hj. lia. }
    unfold ginkgo_solve. cbn zeta.
    assert (Hsz : Fields.fsize (l_rhs (system_of e p values rhs)) = N) by exact Hb. rewrite Hsz.
    assert (Hd : drop N x0 = []) by (apply drop_ge; lia). assert (Ht : take N x0 = x0) by (apply take_ge; lia).
    rewrite Hd, Ht. split.
    - intros (g & Hg & Hr). apply HG' in Hg as ->. rewrite decide_True in Hr by lia.
      destruct Hr as [(x & H1 & ->)|[(y & H1 & ->)|[[H1 ->]|[H1 ->]]]]; [rewrite app_nil_r|..]; done.
    - intros Hr. exists (Some gko_of). split; [by apply HG'|]. rewrite decide_True by lia. destruct r as [x|y| |].
      + left. exists x. rewrite app_nil_r. done.
      + right. left. exists y. done.
      + right. right. left. done.
      + right. right. right. done.
  Qed.
End systems.

Lemma create_mirrors cstr flt b e d : e <> GPUExecutor -> keys_unique (ADict d) -> ~ has_bad (ADict d) ->
  exists x c, getGkoExecutor b e = Ok x /\ mirrors cstr flt (ADict d) c /\ ginkgo_create cstr flt b e d = Ok (x, c).
Proof.
  intros He Hu Hb. destruct (C27_parse cstr flt d Hu Hb) as (c & Ec & Hc).
  destruct (getGkoExecutor b e) as [x|y| |] eqn:Ex; [|destruct e; cbn in Ex; done..].
  exists x, c. split; [done|]. split; [done|]. unfold ginkgo_create. by rewrite Ex, Ec.
Qed.
Lemma create_bad cstr flt b e d : keys_unique (ADict d) -> has_bad (ADict d) -> ginkgo_create cstr flt b e d = Throw RuntimeError.
Proof.
  intros Hu Hb. unfold ginkgo_create. rewrite (C27_unsupported cstr flt d Hu Hb).
  destruct e; cbn; [done..|]. destruct (kb_cuda b); [done|]. by destruct (kb_hip b).
Qed.

(** * C119 *)
(** The Ginkgo executor works in the memory of the NeoFOAM executor; there is one
    unless the executor is the GPU and Kokkos has neither CUDA nor HIP. *)
Theorem C119_executor : forall b e,
  match getGkoExecutor b e with
  | Ok x => (x = GkoCuda \/ x = GkoHip) <-> e = GPUExecutor
  | Throw y => y = RuntimeError /\ e = GPUExecutor /\ kb_cuda b = false /\ kb_hip b = false
  | _ => False
  end.
Proof.
  intros b [| |]; cbn; [split; [by intros [|]|done]| |].
  - destruct (kb_omp b); (split; [by intros [|]|done]).
  - destruct (kb_cuda b); [split; auto|]. destruct (kb_hip b); [split; auto|done].
Qed.
Print Assumptions C119_executor.

(** Equations without time derivative, whatever Ginkgo does: one call of solve()
    hands Ginkgo the user's settings (same keys, nesting, values), a valid CSR
    matrix and right-hand side that are the equation, and the field's present
    values as initial guess; the field gets what Ginkgo returns. *)
Theorem C119_system : forall dbg cx n bcs lin fvSchemes fvSolution sel h eqn st cstr flt gko b,
  cx_fits cx -> state_ok cx st ->
  equation_wf h (nCells (cx_mesh cx)) eqn -> single_fields h eqn -> temporal_objects eqn = [] -> spatial_objects eqn <> [] ->
  schemes_selected cx fvSchemes sel h eqn -> all_supported cx n sel h eqn st ->
  surely (sp_create (cx_exec cx) (cx_mesh cx)) (cx_pattern cx) ->
  cx_exec cx <> GPUExecutor -> (Z.of_nat (nCells (cx_mesh cx) + 2 * nInternalFaces (cx_mesh cx)) < 2 ^ 31)%Z ->
  solver_create fvSolution = Ok "Ginkgo"%string -> ginkgo_backend cstr flt gko b (cx_exec cx) lin ->
  keys_unique (ADict fvSolution) -> ~ has_bad (ADict fvSolution) ->
  exists e h' h'' x c A rhs, eval_equation eqn h = Ok (e, h') /\
    getGkoExecutor b (cx_exec cx) = Ok x /\ mirrors cstr flt (ADict fvSolution) c /\
    gko_valid A /\ g_size A = nCells (cx_mesh cx) /\ length rhs = nCells (cx_mesh cx) /\
    (forall y i, i < nCells (cx_mesh cx) -> (gko_at A y i - at0 rhs i)%Qc = steady_at cx n sel h eqn st y i) /\
    forall t dt r, dsl_solve dbg cx n bcs lin fvSchemes fvSolution h' e t dt st r <->
      exists r', gko x c A rhs (vf_int (ts_phi st)) r' /\
        match r' with
        | Ok y => r = Ok (h'', TState (with_int (ts_phi st) y) (ts_old st))
        | Throw z => r = Throw z | Exit => r = Exit | UB => r = UB
        end.
Proof.
  intros dbg cx n bcs lin fvSchemes fvSolution sel h eqn st cstr flt gko b Hset Hst Hwf Hsf Htn Hsn Hsel Hsup Hpat He Hfit Hsol Hlin Hu Hb.
  destruct (steady_call dbg cx n bcs lin fvSchemes fvSolution _ sel h eqn Hset Hwf Hsf Htn Hsn Hsel Hpat Hsol) as (e & h' & Inv & E & HI & Hcall).
  destruct (Hcall h' st HI Hst Hsup) as (h3 & v & rhs & HI3 & Hsys & Hrun & Hres). pose proof Hset as (Hm & Hp & _).
  destruct (create_mirrors cstr flt b (cx_exec cx) fvSolution He Hu Hb) as (x & c & Ex & Hc & Ecr).
  exists e, h', h3, x, c, (gko_of (cx_mesh cx) (cx_pattern cx) v), rhs.
  split; [done|]. split; [done|]. split; [done|]. split; [exact (gko_of_valid _ _ Hm Hp v rhs Hsys)|]. split; [done|]. split; [exact (proj2 Hsys)|]. split.
  { intros y i Hi. rewrite <- Hres by done. exact (gko_of_at (cx_mesh cx) (cx_pattern cx) v rhs y i Hi). }
  intros t dt r. rewrite Hrun.
  assert (Hl : forall r1, lin "Ginkgo"%string fvSolution (cx_pattern cx) v rhs (vf_int (ts_phi st)) r1 <-> gko x c (gko_of (cx_mesh cx) (cx_pattern cx) v) rhs (vf_int (ts_phi st)) r1).
  { intros r1. rewrite (Hlin _ _ _ _ _ r1). unfold ginkgo_solver. rewrite (rseq_surely _ _ (x, c)) by (intros r'; by rewrite Ecr).
    apply (ginkgo_call (cx_mesh cx) (cx_pattern cx) Hm Hp (cx_exec cx) v rhs Hsys He Hfit gko (x, c)). apply Hst. }
  split.
  - intros [(y & H1 & ->)|[(y & H1 & ->)|[[H1 ->]|[H1 ->]]]]; apply Hl in H1; eexists; (split; [exact H1|done]).
  - intros (r' & H1 & H2). apply Hl in H1. destruct r' as [y|y| |]; subst r; [left; by exists y|right; left; by exists y|do 2 right; by left|do 3 right; done].
Qed.
Print Assumptions C119_system.

(** What one call of the linear solver does, for the proofs below. *)
Lemma lin_gko (cx : ctx Qc) cstr flt gko b lin d v rhs x0 r :
  cx_fits cx -> cx_exec cx <> GPUExecutor -> (Z.of_nat (nCells (cx_mesh cx) + 2 * nInternalFaces (cx_mesh cx)) < 2 ^ 31)%Z ->
  ginkgo_backend cstr flt gko b (cx_exec cx) lin -> keys_unique (ADict d) -> ~ has_bad (ADict d) ->
  sys_ok (cx_mesh cx) (cx_pattern cx) v rhs -> length x0 = nCells (cx_mesh cx) ->
  exists x c, getGkoExecutor b (cx_exec cx) = Ok x /\ mirrors cstr flt (ADict d) c /\
    (lin "Ginkgo"%string d (cx_pattern cx) v rhs x0 r <-> gko x c (gko_of (cx_mesh cx) (cx_pattern cx) v) rhs x0 r).
Proof.
  intros (Hm & Hp & _) He Hfit Hlin Hu Hb Hsys Lx.
  destruct (create_mirrors cstr flt b (cx_exec cx) d He Hu Hb) as (x & c & Ex & Hc & Ecr). exists x, c. split; [done|]. split; [done|].
  rewrite (Hlin _ _ _ _ _ r). unfold ginkgo_solver. rewrite (rseq_surely _ _ (x, c)) by (intros r'; by rewrite Ecr).
  by apply (ginkgo_call (cx_mesh cx) (cx_pattern cx) Hm Hp (cx_exec cx) v rhs Hsys He Hfit gko (x, c)).
Qed.
Lemma lin_within (cx : ctx Qc) cstr flt gko b lin d v rhs x0 r tol E :
  cx_fits cx -> cx_exec cx <> GPUExecutor -> (Z.of_nat (nCells (cx_mesh cx) + 2 * nInternalFaces (cx_mesh cx)) < 2 ^ 31)%Z ->
  ginkgo_backend cstr flt gko b (cx_exec cx) lin -> keys_unique (ADict d) -> ~ has_bad (ADict d) ->
  (forall x c, getGkoExecutor b (cx_exec cx) = Ok x -> mirrors cstr flt (ADict d) c -> solves_within gko tol x c) ->
  sys_ok (cx_mesh cx) (cx_pattern cx) v rhs -> length x0 = nCells (cx_mesh cx) ->
  (forall x c, c < nCells (cx_mesh cx) -> residual (cx_pattern cx) v rhs x c = E x c) ->
  lin "Ginkgo"%string d (cx_pattern cx) v rhs x0 r ->
  exists x, r = Ok x /\ length x = nCells (cx_mesh cx) /\ forall c, c < nCells (cx_mesh cx) -> (- tol <= E x c /\ E x c <= tol)%Qc.
Proof.
  intros Hset He Hfit Hlin Hu Hb Hw Hsys Lx HE Hr.
  destruct (lin_gko cx cstr flt gko b lin d v rhs x0 r Hset He Hfit Hlin Hu Hb Hsys Lx) as (x & c & Ex & Hc & Hiff).
  destruct Hset as (Hm & Hp & _).
  destruct (Hw x c Ex Hc _ rhs x0 r (gko_of_valid _ _ Hm Hp v rhs Hsys) (proj2 Hsys) Lx (proj1 Hiff Hr)) as (y & -> & Ly & Hy).
  exists y. split; [done|]. split; [done|]. intros i Hi. rewrite <- HE by done. rewrite <- (gko_of_at (cx_mesh cx) (cx_pattern cx) v rhs y i Hi). by apply Hy.
Qed.

(** If Ginkgo, configured so, leaves a residual of at most [tol] in every row, the
    result of every call of solve() satisfies the equation to within [tol] in every
    cell (exactly, if [tol] = 0). *)
Theorem C119_steady : forall dbg cx n bcs lin fvSchemes fvSolution sel h eqn st cstr flt gko b tol,
  cx_fits cx -> state_ok cx st ->
  equation_wf h (nCells (cx_mesh cx)) eqn -> single_fields h eqn -> temporal_objects eqn = [] -> spatial_objects eqn <> [] ->
  schemes_selected cx fvSchemes sel h eqn -> all_supported cx n sel h eqn st ->
  surely (sp_create (cx_exec cx) (cx_mesh cx)) (cx_pattern cx) ->
  cx_exec cx <> GPUExecutor -> (Z.of_nat (nCells (cx_mesh cx) + 2 * nInternalFaces (cx_mesh cx)) < 2 ^ 31)%Z ->
  solver_create fvSolution = Ok "Ginkgo"%string -> ginkgo_backend cstr flt gko b (cx_exec cx) lin ->
  keys_unique (ADict fvSolution) -> ~ has_bad (ADict fvSolution) ->
  (forall x c, getGkoExecutor b (cx_exec cx) = Ok x -> mirrors cstr flt (ADict fvSolution) c -> solves_within gko tol x c) ->
  exists e h', eval_equation eqn h = Ok (e, h') /\
    forall l r, time_loop dbg cx n bcs lin fvSchemes fvSolution e l h' st r -> exists f h'',
      f 0 = st /\ r = Ok (h'', f (length l)) /\
      forall i, i < length l -> let x := vf_int (ts_phi (f (S i))) in
        length x = nCells (cx_mesh cx) /\
        (forall c, c < nCells (cx_mesh cx) -> (- tol <= steady_at cx n sel h eqn (f i) x c /\ steady_at cx n sel h eqn (f i) x c <= tol)%Qc) /\
        ts_old (f (S i)) = ts_old (f i) /\ ts_phi (f (S i)) = with_int (ts_phi (f i)) x.
Proof.
  intros dbg cx n bcs lin fvSchemes fvSolution sel h eqn st cstr flt gko b tol Hset Hst Hwf Hsf Htn Hsn Hsel Hsup Hpat He Hfit Hsol Hlin Hu Hb Hw.
  destruct (steady_call dbg cx n bcs lin fvSchemes fvSolution _ sel h eqn Hset Hwf Hsf Htn Hsn Hsel Hpat Hsol) as (e & h' & Inv & E & HI & Hcall).
  exists e, h'. split; [done|]. intros l r Hr.
  destruct (loop_every dbg cx n bcs lin fvSchemes fvSolution e (fun h2 st2 => Inv h2 /\ state_ok cx st2)
    (fun _ s1 s2 => let x := vf_int (ts_phi s2) in
        length x = nCells (cx_mesh cx) /\
        (forall c, c < nCells (cx_mesh cx) -> (- tol <= steady_at cx n sel h eqn s1 x c /\ steady_at cx n sel h eqn s1 x c <= tol)%Qc) /\
        ts_old s2 = ts_old s1 /\ ts_phi s2 = with_int (ts_phi s1) x) l h' st) with (r := r) as (f & h'' & F0 & Fr & Fi); [|done|done|].
  - intros h2 st2 t dt r2 (HI2 & Hst2) Hr2.
    destruct (Hcall h2 st2 HI2 Hst2) as (h3 & v & rhs & HI3 & Hsys & Hrun & Hres); [by apply (all_state cx n sel h eqn st)|].
    apply Hrun in Hr2.
    pose proof (fun r1 => lin_within cx cstr flt gko b lin fvSolution v rhs (vf_int (ts_phi st2)) r1 tol _ Hset He Hfit Hlin Hu Hb Hw Hsys (proj1 (proj1 Hst2)) Hres) as Hl.
    destruct Hr2 as [(x & H1 & ->)|[(x & H1 & _)|[[H1 _]|[H1 _]]]]; destruct (Hl _ H1) as (y & Ey & Hly & Hy); try discriminate.
    injection Ey as <-. eexists h3, _. split; [reflexivity|].
    destruct Hst2 as [(Q0 & Q1 & Q2 & Q3 & Q4) Q5]. split.
    + split; [done|]. split; [repeat split; done|]. unfold old_of in *. cbn. destruct (ts_old st2); done.
    + done.
  - exists f, h''. split; [done|]. split; [done|]. intros i Hi.
    destruct (lookup_lt_is_Some_2 l i Hi) as ([t dt] & Et). by apply (Fi i t dt).
Qed.
Print Assumptions C119_steady.

(** A settings dictionary with an entry Ginkgo cannot take (neither text, number
    nor dictionary): every call of solve() throws. *)
Theorem C119_unsupported : forall dbg cx n bcs lin fvSchemes fvSolution sel h eqn st cstr flt gko b t dt,
  cx_fits cx -> state_ok cx st ->
  equation_wf h (nCells (cx_mesh cx)) eqn -> single_fields h eqn -> temporal_objects eqn = [] -> spatial_objects eqn <> [] ->
  schemes_selected cx fvSchemes sel h eqn -> all_supported cx n sel h eqn st ->
  surely (sp_create (cx_exec cx) (cx_mesh cx)) (cx_pattern cx) ->
  solver_create fvSolution = Ok "Ginkgo"%string -> ginkgo_backend cstr flt gko b (cx_exec cx) lin ->
  keys_unique (ADict fvSolution) -> has_bad (ADict fvSolution) ->
  exists e h', eval_equation eqn h = Ok (e, h') /\
    forall r, dsl_solve dbg cx n bcs lin fvSchemes fvSolution h' e t dt st r <-> r = Throw RuntimeError.
Proof.
  intros dbg cx n bcs lin fvSchemes fvSolution sel h eqn st cstr flt gko b t dt Hset Hst Hwf Hsf Htn Hsn Hsel Hsup Hpat Hsol Hlin Hu Hb.
  destruct (steady_call dbg cx n bcs lin fvSchemes fvSolution _ sel h eqn Hset Hwf Hsf Htn Hsn Hsel Hpat Hsol) as (e & h' & Inv & E & HI & Hcall).
  exists e, h'. split; [done|]. intros r.
  destruct (Hcall h' st HI Hst Hsup) as (h3 & v & rhs & HI3 & Hsys & Hrun & Hres). rewrite Hrun.
  assert (Hl : forall r1, lin "Ginkgo"%string fvSolution (cx_pattern cx) v rhs (vf_int (ts_phi st)) r1 <-> r1 = Throw RuntimeError).
  { intros r1. rewrite (Hlin _ _ _ _ _ r1). unfold ginkgo_solver. rewrite (create_bad cstr flt b (cx_exec cx) fvSolution Hu Hb).
    split; [intros [(y & H1 & _)|[(y & H1 & ->)|[[H1 _]|[H1 _]]]]; congruence|]. intros ->. right. left. by exists RuntimeError. }
  split.
  - intros [(y & H1 & _)|[(y & H1 & ->)|[[H1 _]|[H1 _]]]]; apply Hl in H1; congruence.
  - intros ->. right. left. exists RuntimeError. split; [by apply Hl|done].
Qed.
Print Assumptions C119_unsupported.

(** ** Backward Euler.  The integrator gets fvSchemes as its solver settings
    (dsl/solver.hpp:56-58). *)
Lemma backward_call dbg cx n bcs lin fvSchemes fvSolution schemes name sel h eqn st0 :
  setup_ok cx bcs -> equation_wf h (nCells (cx_mesh cx)) eqn -> single_fields h eqn -> temporal_objects eqn <> [] ->
  schemes_selected cx fvSchemes sel h eqn -> all_supported cx n sel h eqn st0 -> state_ok cx st0 ->
  surely (sp_create (cx_exec cx) (cx_mesh cx)) (cx_pattern cx) ->
  dict_subDict fvSchemes "ddtSchemes" = Ok schemes -> get_string schemes "type" = Ok "backwardEuler"%string ->
  solver_create fvSchemes = Ok name ->
  exists e h' (Inv : heap Qc -> Prop), eval_equation eqn h = Ok (e, h') /\ Inv h' /\
    forall h2 st, Inv h2 -> state_ok cx st -> forall t dt,
    exists h3 values rhs, Inv h3 /\ sys_ok (cx_mesh cx) (cx_pattern cx) values rhs /\
      (forall r, dsl_solve dbg cx n bcs lin fvSchemes fvSolution h2 e t dt st r <->
        rseq (lin name fvSchemes (cx_pattern cx) values rhs (vf_int (ts_phi st)))
          (fun x r' => r' = Ok (h3, TState (with_int (ts_phi st) x) (Some x))) r) /\
      forall x c, c < nCells (cx_mesh cx) -> residual (cx_pattern cx) values rhs x c = implicit_at cx n sel h eqn dt st x c.
Proof.
  intros Hset Hwf Hsf Htne Hsel Hsup Hst Hpat Hsub Hty Hsol.
  destruct (eval_equation_spec (nCells (cx_mesh cx)) h eqn h (ext_refl h) Hwf) as [[_ Hok]|[Hn _]]; [|done].
  destruct Hok as (e & h1 & E & Hx & [ts ss] & [HET HES] & HM). simpl in HET, HES.
  pose proof HM as [[HdT HdS] _]. simpl in HdT, HdS.
  assert (Hbuild : forall o, o ∈ ss -> op_build cx fvSchemes o = Ok (selected sel o)).
  { intros o Ho. destruct (derivedS_leaves _ _ _ _ HdS o Ho) as (p & o0 & Hp0 & E0 & Ek & _).
    apply (op_build_kind cx fvSchemes sel o o0 Ek). by apply (Hsel p). }
  assert (Hte : ex_temporal e <> []).
  { intros Ee. rewrite Ee in HET. apply Forall2_nil_inv_l in HET as ->. by apply Forall2_nil_inv_r in HdT. }
  exists e, h1, (fun h2 => Forall2 (isT h2) (ex_temporal e) ts /\ (Forall2 (isS h2) (ex_spatial e) ss \/ Forall2 (isS h2) (ex_spatial e) (map (selected sel) ss))).
  split; [done|]. split; [split; [done|by left]|].
  intros h2 st2 (HT2 & HS2) Hst2 t dt.
  destruct (build_again cx n fvSchemes sel e ss ts h2 st2 Hbuild HT2 HS2) as (h3 & Eb & HT3 & HS3).
  destruct (backwardEuler_system cx n bcs Hset lin fvSchemes name sel h eqn st2 h3 e ts ss dt Hst2) as (v & b & Hsys & Hrun & Hres0);
    [by apply (all_state cx n sel h eqn st0)|by split|done..|].
  exists h3, v, b. split; [split; [done|by right]|]. split; [done|]. split; [|done]. intros r.
  assert (Hr : dsl_solve dbg cx n bcs lin fvSchemes fvSolution h2 e t dt st2 r <-> rseq (backwardEuler_solve cx n lin fvSchemes h3 e dt st2) (fun st' r' => r' = Ok (h3, st')) r).
  { unfold dsl_solve. destruct (ex_temporal e) as [|tp tl] eqn:Ete; [done|].
    rewrite (rseq_surely _ _ (tt, h3)) by (intros r'; rewrite Eb; reflexivity). cbv beta iota.
    rewrite (rseq_surely _ _ schemes) by (intros r'; rewrite Hsub; reflexivity).
    unfold timeIntegration_solve. rewrite Hty.
    assert (checked known_integrator (Ok "backwardEuler"%string) = Ok "backwardEuler"%string) as Ek by reflexivity. rewrite Ek.
    rewrite decide_False by discriminate. rewrite decide_True by done. reflexivity. }
  rewrite Hr. split.
  - intros [(s & H1 & ->)|[(y & H1 & ->)|[[H1 ->]|[H1 ->]]]]; apply Hrun in H1;
      destruct H1 as [(x & H2 & H3)|[(z & H2 & H3)|[[H2 H3]|[H2 H3]]]]; try discriminate.
    + injection H3 as ->. left. by exists x.
    + injection H3 as ->. right. left. by exists z.
    + do 2 right. by left.
    + do 3 right. done.
  - intros [(s & H1 & ->)|[(y & H1 & ->)|[[H1 ->]|[H1 ->]]]].
    + left. eexists. split; [|reflexivity]. apply Hrun. left. by exists s.
    + right. left. exists y. split; [|done]. apply Hrun. right. left. by exists y.
    + do 2 right. left. split; [|done]. apply Hrun. do 2 right. by left.
    + do 3 right. split; [|done]. apply Hrun. do 3 right. done.
Qed.

(** If Ginkgo can take the entries of fvSchemes, and solves to within [tol] when
    configured with them, every step satisfies the equation to within [tol]. *)
Theorem C119_time_loop : forall dbg cx n bcs lin fvSchemes fvSolution schemes sel h eqn st cstr flt gko b tol,
  setup_ok cx bcs -> state_ok cx st ->
  equation_wf h (nCells (cx_mesh cx)) eqn -> single_fields h eqn -> temporal_objects eqn <> [] ->
  schemes_selected cx fvSchemes sel h eqn -> all_supported cx n sel h eqn st ->
  (forall p o, p ∈ spatial_objects eqn -> h_spatial h !! p = Some o -> so_type o = Implicit) ->
  surely (sp_create (cx_exec cx) (cx_mesh cx)) (cx_pattern cx) ->
  cx_exec cx <> GPUExecutor -> (Z.of_nat (nCells (cx_mesh cx) + 2 * nInternalFaces (cx_mesh cx)) < 2 ^ 31)%Z ->
  dict_subDict fvSchemes "ddtSchemes" = Ok schemes -> get_string schemes "type" = Ok "backwardEuler"%string ->
  solver_create fvSchemes = Ok "Ginkgo"%string -> ginkgo_backend cstr flt gko b (cx_exec cx) lin ->
  keys_unique (ADict fvSchemes) -> ~ has_bad (ADict fvSchemes) ->
  (forall x c, getGkoExecutor b (cx_exec cx) = Ok x -> mirrors cstr flt (ADict fvSchemes) c -> solves_within gko tol x c) ->
  exists e h', eval_equation eqn h = Ok (e, h') /\
    forall l r, time_loop dbg cx n bcs lin fvSchemes fvSolution e l h' st r -> exists f h'',
      f 0 = st /\ r = Ok (h'', f (length l)) /\
      forall i t dt, l !! i = Some (t, dt) -> let x := vf_int (ts_phi (f (S i))) in
        length x = nCells (cx_mesh cx) /\
        (forall c, c < nCells (cx_mesh cx) -> (- tol <= equation_at cx n sel h eqn dt (f i) x c /\ equation_at cx n sel h eqn dt (f i) x c <= tol)%Qc) /\
        ts_old (f (S i)) = Some x /\ ts_phi (f (S i)) = with_int (ts_phi (f i)) x.
Proof.
  intros dbg cx n bcs lin fvSchemes fvSolution schemes sel h eqn st cstr flt gko b tol Hset Hst Hwf Hsf Htne Hsel Hsup Himp Hpat He Hfit Hsub Hty Hsol Hlin Hu Hb Hw.
  destruct (backward_call dbg cx n bcs lin fvSchemes fvSolution schemes _ sel h eqn st Hset Hwf Hsf Htne Hsel Hsup Hst Hpat Hsub Hty Hsol) as (e & h' & Inv & E & HI & Hcall).
  exists e, h'. split; [done|]. intros l.
  apply (loop_every dbg cx n bcs lin fvSchemes fvSolution e (fun h2 st2 => Inv h2 /\ state_ok cx st2)
    (fun dt s1 s2 => let x := vf_int (ts_phi s2) in
        length x = nCells (cx_mesh cx) /\
        (forall c, c < nCells (cx_mesh cx) -> (- tol <= equation_at cx n sel h eqn dt s1 x c /\ equation_at cx n sel h eqn dt s1 x c <= tol)%Qc) /\
        ts_old s2 = Some x /\ ts_phi s2 = with_int (ts_phi s1) x)); [|done].
  intros h2 st2 t dt r2 (HI2 & Hst2) Hr2.
  destruct (Hcall h2 st2 HI2 Hst2 t dt) as (h3 & v & rhs & HI3 & Hsys & Hrun & Hres0). apply Hrun in Hr2.
  assert (Hres : forall x c, c < nCells (cx_mesh cx) -> residual (cx_pattern cx) v rhs x c = equation_at cx n sel h eqn dt st2 x c).
  { intros x c Hc. rewrite <- implicit_at_all by done. by apply Hres0. }
  pose proof (fun r1 => lin_within cx cstr flt gko b lin fvSchemes v rhs (vf_int (ts_phi st2)) r1 tol _ (proj1 Hset) He Hfit Hlin Hu Hb Hw Hsys (proj1 (proj1 Hst2)) Hres) as Hl.
  destruct Hr2 as [(x & H1 & ->)|[(x & H1 & _)|[[H1 _]|[H1 _]]]]; destruct (Hl _ H1) as (y & Ey & Hly & Hy); try discriminate.
  injection Ey as <-. eexists h3, _. split; [reflexivity|].
  destruct Hst2 as [(Q0 & Q1 & Q2 & Q3 & Q4) Q5]. split; [|done]. split; [done|]. split; [repeat split; done|]. done.
Qed.
Print Assumptions C119_time_loop.

(** Convection and diffusion find their schemes in fvSchemes as token lists, which
    Ginkgo's settings cannot hold. *)
Lemma tokens_bad d sec name t : scheme_tokens d sec name = Ok t -> has_bad (ADict d).
Proof.
  unfold scheme_tokens, dict_subDict, dict_get, dict_at. intros H.
  destruct (dfind d sec) as [v|] eqn:E1; [|discriminate H]. destruct v as [| | | | |s| | | |]; try discriminate H.
  change ((let! v := (let! v := match dfind s name with Some v => Ok v | None => Throw OutOfRange end in any_cast TTokens v) in
           match v with ATokens l n => Ok (TokenList l n) | _ => UB end) = Ok t) in H.
  destruct (dfind s name) as [w|] eqn:E2; [|discriminate H].
  change ((let! v := any_cast TTokens w in match v with ATokens l n => Ok (TokenList l n) | _ => UB end) = Ok t) in H.
  unfold any_cast in H. destruct w as [| | | | | |l k| | |]; try (rewrite decide_False in H by done; discriminate H).
  apply (bad_in d sec (ADict s)); [done|]. apply (bad_in s name (ATokens l k)); [done|]. apply bad_here; [done|]. cbn. tauto.
Qed.

Definition reads_tokens (k : spatialKind Qc) : Prop :=
  match k with DivOperator _ _ _ | LaplacianOperator _ _ _ => True | _ => False end.
Lemma build_bad cx d o o' : reads_tokens (so_kind o) -> op_build cx d o = Ok o' -> has_bad (ADict d).
Proof.
  unfold op_build. destruct (so_kind o) as [f p k|g p k|f|c p|u]; cbn [reads_tokens]; try done; intros _ H.
  - unfold div_build in H. cbn [fst] in H. destruct (scheme_tokens d _ _) as [t|y| |] eqn:E; [exact (tokens_bad _ _ _ _ E)|cbn in H; congruence..]. 
  - unfold laplacian_build in H. cbn [fst] in H. destruct (scheme_tokens d _ _) as [t|y| |] eqn:E; [exact (tokens_bad _ _ _ _ E)|cbn in H; congruence..]. 
Qed.

(** So backward Euler with Ginkgo throws on every equation that contains a
    convection or diffusion term, whatever fvSchemes and fvSolution contain. *)
Theorem C119_backward_throws : forall dbg cx n bcs lin fvSchemes fvSolution schemes sel h eqn st cstr flt gko b p o,
  setup_ok cx bcs -> state_ok cx st ->
  equation_wf h (nCells (cx_mesh cx)) eqn -> single_fields h eqn -> temporal_objects eqn <> [] ->
  schemes_selected cx fvSchemes sel h eqn -> all_supported cx n sel h eqn st ->
  surely (sp_create (cx_exec cx) (cx_mesh cx)) (cx_pattern cx) ->
  dict_subDict fvSchemes "ddtSchemes" = Ok schemes -> get_string schemes "type" = Ok "backwardEuler"%string ->
  solver_create fvSchemes = Ok "Ginkgo"%string -> ginkgo_backend cstr flt gko b (cx_exec cx) lin ->
  keys_unique (ADict fvSchemes) ->
  p ∈ spatial_objects eqn -> h_spatial h !! p = Some o ->
  match so_kind o with DivOperator _ _ _ | LaplacianOperator _ _ _ => True | _ => False end ->
  exists e h', eval_equation eqn h = Ok (e, h') /\
    forall t dt l r, time_loop dbg cx n bcs lin fvSchemes fvSolution e ((t, dt) :: l) h' st r <-> r = Throw RuntimeError.
Proof.
  intros dbg cx n bcs lin fvSchemes fvSolution schemes sel h eqn st cstr flt gko b p o Hset Hst Hwf Hsf Htne Hsel Hsup Hpat Hsub Hty Hsol Hlin Hu Hp Ho Hk.
  pose proof (build_bad cx fvSchemes o _ Hk (Hsel p o Hp Ho)) as Hbad.
  destruct (backward_call dbg cx n bcs lin fvSchemes fvSolution schemes _ sel h eqn st Hset Hwf Hsf Htne Hsel Hsup Hst Hpat Hsub Hty Hsol) as (e & h' & Inv & E & HI & Hcall).
  exists e, h'. split; [done|]. intros t dt l r.
  destruct (Hcall h' st HI Hst t dt) as (h3 & v & rhs & HI3 & Hsys & Hrun & _).
  assert (Hl : forall r1, lin "Ginkgo"%string fvSchemes (cx_pattern cx) v rhs (vf_int (ts_phi st)) r1 <-> r1 = Throw RuntimeError).
  { intros r1. rewrite (Hlin _ _ _ _ _ r1). unfold ginkgo_solver. rewrite (create_bad cstr flt b (cx_exec cx) fvSchemes Hu Hbad).
    split; [intros [(y & H1 & _)|[(y & H1 & ->)|[[H1 _]|[H1 _]]]]; congruence|]. intros ->. right. left. by exists RuntimeError. }
  assert (Hd : forall r1, dsl_solve dbg cx n bcs lin fvSchemes fvSolution h' e t dt st r1 <-> r1 = Throw RuntimeError).
  { intros r1. rewrite Hrun. split.
    - intros [(y & H1 & _)|[(y & H1 & ->)|[[H1 _]|[H1 _]]]]; apply Hl in H1; congruence.
    - intros ->. right. left. exists RuntimeError. split; [by apply Hl|done]. }
  cbn [time_loop]. split.
  - intros [([h4 s4] & H1 & _)|[(y & H1 & ->)|[[H1 _]|[H1 _]]]]; apply Hd in H1; congruence.
  - intros ->. right. left. exists RuntimeError. split; [by apply Hd|done].
Qed.
Print Assumptions C119_backward_throws.

(** The implicit transport program of C91 with Ginkgo as linear solver: no step
    can be made. *)
Theorem C119_transport_throws : forall dbg cx bcs lin fvSchemes fvSolution flux gamma n st cstr flt gko b t dt l r,
  setup_ok cx bcs -> state_ok cx st ->
  length (cx_surf cx flux) = nFaces (cx_mesh cx) -> length (cx_surf cx gamma) = nFaces (cx_mesh cx) ->
  (exists s, (div_build (cx_surfName cx flux) (cx_volName cx n) (IDict fvSchemes)).1 = Ok s) ->
  (exists s, (laplacian_build (cx_surfName cx gamma) (cx_volName cx n) (IDict fvSchemes)).1 = Ok s) ->
  (exists schemes, dict_subDict fvSchemes "ddtSchemes" = Ok schemes /\ get_string schemes "type" = Ok "backwardEuler"%string) ->
  surely (sp_create (cx_exec cx) (cx_mesh cx)) (cx_pattern cx) ->
  solver_create fvSchemes = Ok "Ginkgo"%string -> ginkgo_backend cstr flt gko b (cx_exec cx) lin ->
  keys_unique (ADict fvSchemes) ->
  run_program (implicit_transport flux gamma n) dbg cx n bcs lin fvSchemes fvSolution ((t, dt) :: l) st r <-> r = Throw RuntimeError.
Proof.
  intros dbg cx bcs lin fvSchemes fvSolution flux gamma n st cstr flt gko b t dt l r Hset Hst Hfl Hga Hdi Hla (schemes & Hs1 & Hs2) Hpat Hsol Hlin Hu.
  assert (Hc : implicit_case cx bcs solve_exactly fvSchemes flux gamma n st).
  { constructor; try done; [by exists schemes|by exists "Ginkgo"%string|apply solve_exactly_exact]. }
  destruct (implicit_law _ _ _ _ _ _ _ _ Hc) as (sel & W & S & T & B & A & _ & _).
  destruct (C119_backward_throws dbg cx n bcs lin fvSchemes fvSolution schemes sel _ _ st cstr flt gko b 0 (SpatialOp (DivOperator flux n None) Implicit (coeff_scalar 1%Qc))
    Hset Hst W S T B A Hpat Hs1 Hs2 Hsol Hlin Hu) as (e' & h' & Ee & HL); [cbn; set_solver|reflexivity|done|].
  assert (Ep : eval_equation implicit_eqn (declared (implicit_bs flux gamma n)) = Ok (e', h')) by done.
  split.
  - intros (e & h & Ep' & Hrun). unfold implicit_transport in Ep'. rewrite program_spec in Ep'.
    unfold implicit_eqn, implicit_bs in Ep. rewrite Ep in Ep'. injection Ep' as <- <-.
    destruct Hrun as [([h2 s2] & H1 & ->)|[(x & H1 & ->)|[(H1 & ->)|(H1 & ->)]]]; apply HL in H1; congruence.
  - intros ->. exists e', h'. split; [unfold implicit_transport; by rewrite program_spec|].
    right. left. exists RuntimeError. split; [|done]. by apply HL.
Qed.
Print Assumptions C119_transport_throws.

(** ** Cases *)
Definition gko_exact (x : gkoExecutor) (c : pnode) (A : gko_csr Qc) (b x0 : list Qc) (r : outcome (list Qc)) : Prop :=
  exists y, r = Ok y /\ length y = g_size A /\ forall i, i < g_size A -> gko_at A y i = default 0%Qc (b !! i).
Definition buildG : kokkosBuild := KokkosBuild false false false.
Definition gko_lin (name : string) : dict -> sparsity -> list Qc -> list Qc -> list Qc -> outcome (list Qc) -> Prop :=
  ginkgo_solver (fun _ => ""%string) (fun _ => 0%Qc) gko_exact buildG SerialExecutor.
Definition solutionG : dict :=
  [("solver", AString "Ginkgo"); ("type", AString "solver::Bicgstab");
   ("criteria", ADict [("iteration", ALabel 1000); ("relative_residual_norm", AScalar (Q2Qc (1 # 10000000)))])]%string.
Lemma gko_exact_within x c : solves_within gko_exact 0%Qc x c.
Proof.
  intros g b x0 r _ _ _ (y & -> & Ly & Hy). exists y. split; [done|]. split; [done|]. intros i Hi. rewrite (Hy i Hi).
  generalize (default 0%Qc (b !! i)). intros q. split; qc_lra.
Qed.
Lemma solutionG_ok : keys_unique (ADict solutionG) /\ ~ has_bad (ADict solutionG).
Proof.
  split.
  - constructor; [cbn; repeat (constructor; [set_solver|]); constructor|].
    constructor; [by constructor|]. constructor; [by constructor|]. constructor; [|constructor].
    constructor; [cbn; repeat (constructor; [set_solver|]); constructor|]. constructor; [by constructor|]. constructor; [by constructor|constructor].
  - intros H. inversion H as [a Hd Hs E|d k v Hk Hv E]; [subst; exact (Hd _ eq_refl)|]; subst.
    cbn in Hk. repeat case_match; try discriminate; injection Hk as <-; inversion Hv as [a Hd Hs E|d k' v' Hk' Hv' E]; subst; try (exact (Hd _ eq_refl)); try (by apply Hs).
    cbn in Hk'. repeat case_match; try discriminate; injection Hk' as <-; inversion Hv' as [a Hd Hs E|]; subst; by apply Hs.
Qed.
(** The equation of C99_instance, solved with Ginkgo. *)
Example C119_instance :
  keys_unique (ADict solutionG) /\ ~ has_bad (ADict solutionG) /\ solver_create solutionG = Ok "Ginkgo"%string /\
  ginkgo_backend (fun _ => ""%string) (fun _ => 0%Qc) gko_exact buildG (cx_exec cxD) gko_lin /\
  (forall x c, solves_within gko_exact 0%Qc x c) /\
  exists e h' h'', eval_equation eqnE heapE = Ok (e, h') /\
    dsl_solve false cxD 0 [] gko_lin (schemesD "none") solutionG h' e 0%Qc 1%Qc (stD x0D) (Ok (h'', stE)).
Proof.
  destruct solutionG_ok as [Hu Hb]. split; [done|]. split; [done|]. split; [vm_compute; reflexivity|]. split; [done|]. split; [exact gko_exact_within|].
  destruct (eqnE_ok x0D eq_refl) as (A1 & A2 & A3 & A4 & A5 & A6 & A7 & A8 & A9 & _ & _). pose proof (proj1 C99_instance) as (L & H & O & P).
  destruct (C119_system false cxD 0 [] gko_lin (schemesD "none") solutionG selE heapE eqnE (stD x0D) (fun _ => ""%string) (fun _ => 0%Qc) gko_exact buildG)
    as (e & h' & h'' & x & c & A & rhs & Ee & _ & _ & _ & Hs & _ & HA & Hrun); try done.
  exists e, h', h''. split; [done|]. apply Hrun. exists (Ok (vf_int (ts_phi stE))). split; [|done].
  exists (vf_int (ts_phi stE)). split; [done|]. split; [by rewrite Hs|]. intros i Hi. rewrite Hs in Hi.
  specialize (HA (vf_int (ts_phi stE)) i Hi). rewrite (H i Hi) in HA. change (default 0%Qc (rhs !! i)) with (at0 rhs i).
  revert HA. generalize (gko_at A (vf_int (ts_phi stE)) i) (at0 rhs i). clear. intros a b HA. qc_lra.
Qed.
(** The implicit transport program of C91_instance, with Ginkgo. *)
Example C119_transport_instance :
  keys_unique (ADict (schemesD "backwardEuler")) /\ has_bad (ADict (schemesD "backwardEuler")) /\
  forall r, run_program (implicit_transport 0 1 0) false cxD 0 bcsT gko_lin (schemesD "backwardEuler") solutionG [(0, 1)]%Qc (stD x0D) r <-> r = Throw RuntimeError.
Proof.
  assert (Hu : keys_unique (ADict (schemesD "backwardEuler"))).
  { constructor; [cbn; repeat (constructor; [set_solver|]); constructor|].
    repeat (constructor; [constructor; [cbn; repeat (constructor; [set_solver|]); constructor|]; constructor; [by constructor|constructor]|]).
    constructor; [by constructor|constructor]. }
  split; [done|]. split.
  { eapply (bad_in _ "divSchemes"); [reflexivity|]. eapply (bad_in _ "div(flux,phi)"); [reflexivity|]. apply bad_here; [done|]. cbn. tauto. }
  intros r. destruct (cxD_case x0D eq_refl) as [C1 C2 C3 C4 C5 C6 C7 C8 C9 C10].
  by apply (C119_transport_throws false cxD bcsT gko_lin (schemesD "backwardEuler") solutionG 0 1 0 (stD x0D) (fun _ => ""%string) (fun _ => 0%Qc) gko_exact buildG).
Qed.
