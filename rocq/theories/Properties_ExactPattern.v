(** C84: exactly what a solve computes when the pattern it builds afresh orders a
    row differently from the pattern the operators use. *)
From Verif Require Import Base Dict Registry Par Exec Reduce ReduceProofs Fields FieldsProofs Value Kernel Mesh MeshSpec Coeff FV FVSpec Sparsity SparsitySpec SparsityProps SparsityDet Assembly AssemblySpec AssemblyProps
  Boundary Properties_Boundary ExampleMesh Properties_Sparsity Properties_Assembly Dsl DslSpec DslHeapProofs DslProofs DslAssembly Properties_Dsl Properties_DslAssembly
  TimeInt TimeSpec TimeIntProofs TimeIntSteps Properties_TimeInt.

(** The coefficient of column [j] in row [c] of the stored matrix. *)
Definition coefficient (p : sparsity) (values : list Qc) (c j : nat) : Qc :=
  vsum (map (fun k => if decide (atn (sp_colIdxs p) k = j) then atV values k else 0%Qc)
            (seq (atn (sp_rowPtrs p) c) (atn (sp_rowPtrs p) (c + 1) - atn (sp_rowPtrs p) c))).

(** The rows of all patterns of a mesh start at the same places. *)
Lemma rows_same m p q : pattern_rows m p -> pattern_rows m q ->
  sp_rowPtrs p = sp_rowPtrs q /\ sp_nnz p = sp_nnz q /\ length (sp_diagOffset p) = length (sp_diagOffset q).
Proof.
  intros Hp Hq.
  assert (Hlen : forall p, pattern_rows m p -> forall c, c < nCells m ->
     atn (sp_rowPtrs p) (c + 1) = atn (sp_rowPtrs p) c + length (row_spec m c)).
  { clear. intros p Hp c Hc. pose proof (Permutation_length (pr_row _ _ Hp c Hc)) as E. unfold row_of in E.
    rewrite take_length, drop_length in E. pose proof (pr_rp_mono _ _ Hp c Hc).
    assert (Hend : forall k, c + 1 <= k <= nCells m -> atn (sp_rowPtrs p) (c + 1) <= atn (sp_rowPtrs p) k).
    { intros k Hk. induction k as [|k IH]; [lia|]. destruct (decide (k = c)) as [->|]; [rewrite Nat.add_1_r; lia|].
      pose proof (pr_rp_mono _ _ Hp k ltac:(lia)). rewrite Nat.add_1_r in *. lia. }
    specialize (Hend (nCells m) ltac:(lia)). unfold atn in Hend at 2. rewrite (pr_rp_end _ _ Hp) in Hend. simpl in Hend.
    unfold sp_nnz in *. lia. }
  assert (Hat : forall c, c <= nCells m -> atn (sp_rowPtrs p) c = atn (sp_rowPtrs q) c).
  { induction c as [|c IH]; intros Hc.
    - unfold atn. by rewrite (pr_rp_0 _ _ Hp), (pr_rp_0 _ _ Hq).
    - rewrite <- Nat.add_1_r, (Hlen p Hp c), (Hlen q Hq c) by lia. rewrite IH by lia. done. }
  split; [|split].
  - apply list_eq_same_length with (n := nCells m + 1); [apply Hq|apply Hp|]. intros i x y Hi Hx Hy.
    specialize (Hat i ltac:(lia)). unfold atn in Hat. rewrite Hx, Hy in Hat. done.
  - by rewrite (pr_nnz _ _ Hp), (pr_nnz _ _ Hq).
  - pose proof (pr_rows _ _ Hp) as E1. pose proof (pr_rows _ _ Hq) as E2. unfold sp_rows in *. congruence.
Qed.

Lemma col_bound m p c k : connectivity m -> pattern_rows m p -> c < nCells m ->
  k ∈ seq (atn (sp_rowPtrs p) c) (atn (sp_rowPtrs p) (c + 1) - atn (sp_rowPtrs p) c) -> atn (sp_colIdxs p) k < nCells m.
Proof.
  intros Hm Hp Hc Hk. apply elem_of_seq in Hk.
  destruct (decide (k < length (sp_colIdxs p))) as [Hlt|Hge].
  2:{ unfold atn. rewrite lookup_ge_None_2 by lia. simpl. lia. }
  destruct (lookup_lt_is_Some_2 _ _ Hlt) as [j Hj].
  assert (Hin : j ∈ row_of p c).
  { apply elem_of_list_lookup. exists (k - atn (sp_rowPtrs p) c). unfold row_of. rewrite lookup_take by lia. rewrite lookup_drop.
    replace (atn (sp_rowPtrs p) c + (k - atn (sp_rowPtrs p) c)) with k by lia. done. }
  rewrite (pr_row _ _ Hp c Hc) in Hin. unfold atn. rewrite Hj. simpl. unfold row_spec in Hin.
  apply elem_of_cons in Hin as [->|Hin]; [done|]. apply elem_of_app in Hin as [Hin|Hin]; apply elem_of_list_fmap in Hin as (f & -> & Hf);
    apply elem_of_list_filter in Hf as [_ Hf]; apply elem_of_seq in Hf.
  - destruct (cn_nei _ Hm f ltac:(lia)) as (d & Hd & ?). unfold atn. by rewrite Hd.
  - destruct (cn_owner _ Hm f ltac:(lia)) as (d & Hd & ?). unfold atn. by rewrite Hd.
Qed.

Lemma vsum_swap (l : list nat) (n : nat) (f : nat -> nat -> Qc) :
  vsum (map (fun k => vsum (map (fun j => f k j) (seq 0 n))) l) = vsum (map (fun j => vsum (map (fun k => f k j) l)) (seq 0 n)).
Proof.
  induction l as [|a l IH]; simpl.
  - induction (seq 0 n) as [|b s IHs]; [done|]. simpl. rewrite <- IHs. reflexivity.
  - rewrite IH. clear IH. induction (seq 0 n) as [|b s IHs]; simpl; [reflexivity|]. rewrite <- IHs.
    change (@vadd Qc Qc_value) with Qcplus. ring.
Qed.
Lemma vsum_pick (x : nat -> Qc) j n : j < n -> vsum (map (fun i => if decide (j = i) then x i else 0%Qc) (seq 0 n)) = x j.
Proof.
  intros Hj. assert (G : forall a n, a <= j < a + n -> vsum (map (fun i => if decide (j = i) then x i else 0%Qc) (seq a n)) = x j).
  { clear. intros a n. revert a. induction n as [|n IH]; intros a H; [lia|]. cbn [seq map vsum foldr].
    assert (Hz : forall a n, j < a -> vsum (map (fun i => if decide (j = i) then x i else 0%Qc) (seq a n)) = 0%Qc).
    { clear. intros a n. revert a. induction n as [|n IH]; intros a H; [reflexivity|]. cbn [seq map vsum foldr].
      rewrite decide_False by lia. rewrite IH by lia. reflexivity. }
    destruct (decide (j = a)) as [->|Hne].
    - rewrite Hz by lia. change (@vadd Qc Qc_value) with Qcplus. ring.
    - rewrite IH by lia. change (@vadd Qc Qc_value) with Qcplus. ring. }
  apply G. lia.
Qed.
Lemma mat_row_coefficient m p values x c : connectivity m -> pattern_rows m p -> c < nCells m ->
  mat_row p values x c = vsum (map (fun j => (coefficient p values c j * atV x j)%Qc) (seq 0 (nCells m))).
Proof.
  intros Hm Hp Hc. unfold mat_row, coefficient.
  pose proof (fun k => col_bound m p c k Hm Hp Hc) as Hcol. revert Hcol. generalize (seq (atn (sp_rowPtrs p) c) (atn (sp_rowPtrs p) (c + 1) - atn (sp_rowPtrs p) c)).
  intros l Hcol.
  assert (E1 : vsum (map (fun k => vmul (atV values k) (atV x (atn (sp_colIdxs p) k))) l) =
               vsum (map (fun k => vsum (map (fun j => if decide (atn (sp_colIdxs p) k = j) then (atV values k * atV x j)%Qc else 0%Qc) (seq 0 (nCells m)))) l)).
  { f_equal. apply map_ext_in. intros k Hk. apply elem_of_list_In in Hk.
    rewrite (vsum_pick (fun j => (atV values k * atV x j)%Qc)) by (by apply Hcol). reflexivity. }
  rewrite E1, vsum_swap. f_equal. apply map_ext. intros j. clear. induction l as [|a l IH]; simpl.
  - ring.
  - rewrite IH. change (@vadd Qc Qc_value) with Qcplus. destruct (decide _); ring.
Qed.
Definition unit_vec (j : nat) : list Qc := replicate j 0%Qc ++ [1%Qc].
Lemma atV_unit j i : atV (unit_vec j) i = if decide (j = i) then 1%Qc else 0%Qc.
Proof.
  unfold atV, unit_vec. destruct (decide (j = i)) as [<-|Hne].
  - rewrite lookup_app_r by (rewrite replicate_length; lia). rewrite replicate_length, Nat.sub_diag. done.
  - destruct (decide (i < j)).
    + rewrite lookup_app_l by (by rewrite replicate_length). rewrite lookup_replicate_2 by done. done.
    + rewrite lookup_ge_None_2; [done|]. rewrite app_length, replicate_length. simpl. lia.
Qed.
Lemma mat_row_unit p values c j : mat_row p values (unit_vec j) c = coefficient p values c j.
Proof.
  unfold mat_row, coefficient. f_equal. apply map_ext. intros k. rewrite atV_unit.
  unfold vmul, Qc_unit. destruct (decide (j = atn (sp_colIdxs p) k)) as [E|E].
  - rewrite decide_True by done. ring.
  - rewrite decide_False by done. ring.
Qed.
Lemma rows_agree_iff m p q values rhs c : connectivity m -> pattern_rows m p -> pattern_rows m q -> c < nCells m ->
  (forall x, residual p values rhs x c = residual q values rhs x c) <-> (forall j, coefficient p values c j = coefficient q values c j).
Proof.
  intros Hm Hp Hq Hc. unfold residual. change (@vsub Qc Qc_value) with Qcminus. split.
  - intros H j. specialize (H (unit_vec j)). rewrite !mat_row_unit in H.
    replace (coefficient p values c j) with (coefficient p values c j - atV rhs c + atV rhs c)%Qc by ring. rewrite H. ring.
  - intros H x. rewrite (mat_row_coefficient m p), (mat_row_coefficient m q) by done. f_equal. f_equal. apply map_ext. intros j. by rewrite H.
Qed.

(** solve() without time derivative: whatever pattern it builds, the values and
    the right-hand side are the same ones, right for the pattern the operators
    use; read through the pattern just built, a row is the equation of its cell
    if and only if each of its columns has the same coefficient in both. *)
Theorem C84_solve_exactly : forall (cx : ctx Qc) h eqn,
  cx_fits cx -> equation_wf h (nCells (cx_mesh cx)) eqn -> single_fields h eqn -> equation_supported cx h eqn ->
  let equation_in x c := equation_value
        (object_value h (fun k => vscale (at0 (cellVolumes (cx_mesh cx)) c) (explicit_kind cx k c)) (fun k => implicit_kind cx k x c) c)
        (fun _ => vzero) c eqn in
  exists e h' values rhs, eval_equation eqn h = Ok (e, h') /\
    (forall x c, c < nCells (cx_mesh cx) -> residual (cx_pattern cx) values rhs x c = equation_in x c) /\
    forall fresh, sp_create (cx_exec cx) (cx_mesh cx) (Ok fresh) ->
      surely (solve_system cx h' e fresh) [values; rhs] /\
      forall c, c < nCells (cx_mesh cx) ->
        ((forall x, residual fresh values rhs x c = equation_in x c) <->
         (forall j, coefficient fresh values c j = coefficient (cx_pattern cx) values c j)).
Proof.
  intros cx h eqn Hcx Hwf Hsf Hsup equation_in.
  destruct (C46_solve_system cx h eqn Hcx Hwf Hsf Hsup) as (e & h' & values & rhs & E & A1 & A2).
  pose proof Hcx as (Hm & Hp & _). pose proof (valid_connectivity _ Hm) as Hcn.
  exists e, h', values, rhs. split; [done|]. split; [exact A2|]. intros fresh Hf.
  destruct (C29_rows_any_size (cx_mesh cx) (cx_exec cx) Hcn) as [_ Hall].
  destruct (Hall _ Hf) as (q & [= <-] & Hq). split.
  - destruct (rows_same _ _ _ Hq Hp) as (E1 & E2 & E3). unfold solve_system in *. rewrite E1, E2, E3. exact A1.
  - intros c Hc. rewrite <- (rows_agree_iff (cx_mesh cx) fresh (cx_pattern cx) values rhs c) by done.
    split; intros H x; rewrite (H x); [symmetry|]; apply A2; done.
Qed.
Print Assumptions C84_solve_exactly.

(** A backward Euler step likewise: the linear solver gets the pattern just built
    with the values of the pattern the operators use. *)
Theorem C84_backward_euler_exactly : forall cx n bcs lin d name h eqn dt st,
  setup_ok cx bcs -> state_ok cx st ->
  equation_wf h (nCells (cx_mesh cx)) eqn -> single_fields h eqn -> all_supported cx n (fun k => k) h eqn st ->
  solver_create d = Ok name ->
  exists e h' values rhs, eval_equation eqn h = Ok (e, h') /\ sys_ok (cx_mesh cx) (cx_pattern cx) values rhs /\
    (forall x c, c < nCells (cx_mesh cx) -> residual (cx_pattern cx) values rhs x c = implicit_at cx n (fun k => k) h eqn dt st x c) /\
    (forall r, backwardEuler_solve cx n lin d h' e dt st r <->
       exists fresh, sp_create (cx_exec cx) (cx_mesh cx) (Ok fresh) /\
         rseq (lin name d fresh values rhs (vf_int (ts_phi st)))
           (fun x r' => r' = Ok (TState (with_int (ts_phi st) x) (Some x))) r) /\
    forall fresh c, sp_create (cx_exec cx) (cx_mesh cx) (Ok fresh) -> c < nCells (cx_mesh cx) ->
      ((forall x, residual fresh values rhs x c = implicit_at cx n (fun k => k) h eqn dt st x c) <->
       (forall j, coefficient fresh values c j = coefficient (cx_pattern cx) values c j)).
Proof.
  intros cx n bcs lin d name h eqn dt st Hset Hst Hwf Hsf Hsup Hsol.
  destruct (eval_equation_spec (nCells (cx_mesh cx)) h eqn h (ext_refl h) Hwf) as [[_ Hok]|[Hn _]]; [|done].
  destruct Hok as (e & h1 & E & Hx & [ts ss] & HE & HM).
  assert (Hid : map (selected (fun k => k)) ss = ss) by (etransitivity; [|apply map_id]; apply map_ext; by intros []).
  rewrite <- Hid in HE.
  pose proof Hset as (Hcx & _). pose proof Hcx as (Hm & Hp & _). pose proof (valid_connectivity _ Hm) as Hcn.
  destruct (C29_rows_any_size (cx_mesh cx) (cx_exec cx) Hcn) as [_ Hall].
  pose proof (explicit_surely cx n h1 e st _ Hst (equation_adds cx n (fun k => k) h eqn st h1 e ts ss Hcx (all_explicit _ _ _ _ _ _ Hsup) HE HM)) as R1.
  destruct (backward_assembled cx n bcs Hset (fun k => k) h eqn st h1 e ts ss dt Hsup HE HM) as (v & b & A2 & A1 & A3).
  exists e, h1, v, b. split; [done|]. split; [done|]. split; [done|]. split.
  - intros r. unfold backwardEuler_solve. rewrite (rseq_surely _ _ _ _ R1). cbv zeta.
    assert (Hbody : forall fresh, sp_create (cx_exec cx) (cx_mesh cx) (Ok fresh) -> forall r,
       rseq (implicitOperation (at_state cx n st) h1 (sp_rowPtrs fresh) e [replicate (sp_nnz fresh) 0%Qc; replicate (length (sp_diagOffset fresh)) 0%Qc])
         (fun ls1 => rseq (implicitOperation_dt (at_state cx n st) h1 (sp_rowPtrs fresh) e dt ls1) (fun ls2 =>
           rseq (solver_solve lin d fresh ls2 (vf_int (ts_phi st))) (fun x =>
           rseq (fop (Fields.assign_field (Fields.mkField (cx_exec cx) (old_of st)) (Fields.mkField (cx_exec cx) x))) (fun old' r' => r' = Ok (TState (with_int (ts_phi st) x) (Some old')))))) r <->
       rseq (lin name d fresh v b (vf_int (ts_phi st))) (fun x r' => r' = Ok (TState (with_int (ts_phi st) x) (Some x))) r).
    { intros fresh Hf r0. destruct (Hall _ Hf) as (q & [= <-] & Hq). destruct (rows_same _ _ _ Hq Hp) as (E1 & E2 & E3).
      pose proof (pr_rows _ _ Hp) as Er. unfold sp_rows in Er. rewrite E1, E2, E3, Er.
      rewrite <- rseq_assoc. rewrite (rseq_surely _ _ _ _ A1). unfold solver_solve. rewrite Hsol.
      apply rseq_iff. intros x r'. by rewrite (rseq_surely _ _ _ _ (fop_assign _ _ _)). }
    split.
    + intros [(fresh & Hf & Hr)|[(t & Hf & _)|[[Hf _]|[Hf _]]]]; try (destruct (Hall _ Hf) as (? & ? & _); discriminate).
      exists fresh. split; [done|]. by apply Hbody.
    + intros (fresh & Hf & Hr). left. exists fresh. split; [done|]. by apply Hbody.
  - intros fresh c Hf Hc. destruct (Hall _ Hf) as (q & [= <-] & Hq).
    rewrite <- (rows_agree_iff (cx_mesh cx) fresh (cx_pattern cx) v b c) by done.
    split; intros H x; rewrite (H x); [symmetry|]; apply A3; done.
Qed.
Print Assumptions C84_backward_euler_exactly.

(** The hypotheses hold for a mesh of three cells with two possible patterns. *)
Example C84_exact_instance : exists (cx : ctx Qc) h eqn fresh,
  cx_fits cx /\ equation_wf h (nCells (cx_mesh cx)) eqn /\ single_fields h eqn /\ equation_supported cx h eqn /\
  sp_create (cx_exec cx) (cx_mesh cx) (Ok (cx_pattern cx)) /\ sp_create (cx_exec cx) (cx_mesh cx) (Ok fresh) /\
  fresh <> cx_pattern cx.
Proof.
  exists cx3, heap3, (EVar (Expression [] [0])), patB. split; [exact cx3_fits|]. split.
  { split; constructor; [|constructor]. eexists; split; reflexivity || done. }
  split; [exact I|]. split.
  { split; intros p o Hp Eo; simpl in Hp.
    - apply elem_of_list_singleton in Hp as ->. injection Eo as <-. split; [|done]. repeat split; try done; discriminate.
    - by apply elem_of_nil in Hp. }
  split; [exact patA_created|]. split; [exact patB_created|]. vm_compute. discriminate.
Qed.
