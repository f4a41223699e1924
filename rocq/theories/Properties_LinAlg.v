(** C23 - C27, C56: CSR matrices, linear systems, PETSc and Ginkgo. *)
From Verif Require Import Base Par Exec ExecProofs Value Kernel KernelProofs CSR CSRSpec CSRProofs Dict Ginkgo GinkgoProofs FVSpec.
From Verif Require Fields FieldsProofs.

(** * C23 *)
(** What entry(i,j) returns is stored at (i,j), sorted or not. *)
Theorem C23_sound : forall V (a : csr V nat) i j, csr_ok a -> i < nRows a ->
  (exists k, entry a i j = Ok k /\ stored a i j k) \/ entry a i j = Exit.
Proof. intros V a i j Hok Hi. destruct (entry_spec a Hok i j Hi) as [?|[? _]]; auto. Qed.
Print Assumptions C23_sound.

(** With columns sorted in each row: entry finds the coefficient if and only if
    one is stored, and aborts otherwise. *)
Theorem C23_sorted : forall V (a : csr V nat) i j, csr_ok a -> sorted_rows a -> i < nRows a ->
  (forall k, entry a i j = Ok k <-> stored a i j k) /\ (entry a i j = Exit <-> forall k, ~ stored a i j k).
Proof.
  intros V a i j Hok Hs Hi.
  assert (Hu : forall k k', stored a i j k -> stored a i j k' -> k = k').
  { intros k k' H1 H2. destruct (decide (k < k')) as [Hl|]; [pose proof (Hs i j j k k' H1 H2 Hl); lia|].
    destruct (decide (k' < k)) as [Hl|]; [pose proof (Hs i j j k' k H2 H1 Hl); lia|]. lia. }
  assert (Hcase : (exists k, entry a i j = Ok k /\ stored a i j k) \/ (entry a i j = Exit /\ forall k, ~ stored a i j k)).
  { destruct (entry_spec a Hok i j Hi) as [?|[E [H|(k & j' & H1 & H2 & H3)]]]; [by left|by right|].
    right. split; [done|]. intros k' Hk'. destruct (decide (k' <= k)) as [Hle|Hgt]; [by apply (H3 k')|].
    pose proof (Hs i j' j k k' H1 Hk'). lia. }
  destruct Hcase as [(k & E & Hk)|[E Hn]]; rewrite E.
  - split; [|split; [done|intros Hn; by apply Hn in Hk]]. intros k'. split; [by intros [= <-]|].
    intros Hk'. f_equal. by apply Hu.
  - split; [|done]. intros k. split; [done|]. intros Hk. by apply Hn in Hk.
Qed.
Print Assumptions C23_sorted.

(** Writing through entry(i,j) changes that coefficient and nothing else. *)
Theorem C23_write : forall V (a a' : csr V nat) i j v, csr_ok a -> i < nRows a -> entry_set a i j v = Ok a' ->
  csr_ok a' /\ a_rows a' = a_rows a /\ a_cols a' = a_cols a /\ entry_get a' i j = Ok v /\
  exists k, stored a i j k /\ fdata (a_values a') !! k = Some v /\
    forall k', k' <> k -> fdata (a_values a') !! k' = fdata (a_values a) !! k'.
Proof.
  intros V a a' i j v Hok Hi H. unfold entry_set in H.
  destruct (entry_spec a Hok i j Hi) as [(k & E & Hk)|[E _]]; rewrite E in H; [|done]. cbn [obind] in H. injection H as <-.
  pose proof Hok as [H1 H2 H3 H4 H5].
  assert (Hlen : k < length (fdata (a_values a))).
  { destruct Hk as (lo & hi & _ & Hhi & Hb & _). pose proof (rows_le a Hok _ _ Hhi). lia. }
  split. { split; simpl; try done. - by rewrite insert_length. - by rewrite insert_length. }
  split; [done|]. split; [done|]. split.
  - unfold entry_get. unfold entry in E |- *. cbn [a_rows a_cols a_values Fields.fdata] in *.
    destruct (fdata (a_rows a) !! i) as [lo|]; try done. cbn [oget obind] in *.
    destruct (fdata (a_rows a) !! (i + 1)) as [hi|]; try done. cbn [oget obind] in *.
    destruct (Nat.ltb hi lo); [done|].
    destruct (entry_loop (fdata (a_cols a)) j lo (hi - lo)) as [k0| | |]; try done. cbn [obind] in *.
    destruct (fdata (a_values a) !! k0); [|done]. cbn [oget obind] in E. injection E as ->.
    rewrite list_lookup_insert by done. cbn [oget obind]. rewrite list_lookup_insert by done. done.
  - exists k. split; [done|]. simpl. split; [by rewrite list_lookup_insert|]. intros k' Hne. by rewrite list_lookup_insert_ne.
Qed.
Print Assumptions C23_write.

(** A matrix can be built from three fields exactly when they share one
    executor; it then consists of those fields. The empty matrix has no row and
    no entry. *)
Theorem C23_construct : forall V (values : Fields.field V) (cols rows : Fields.field nat),
  (Fields.fexec values = Fields.fexec cols /\ Fields.fexec values = Fields.fexec rows ->
     csr_new values cols rows = Ok (Csr values cols rows)) /\
  (~ (Fields.fexec values = Fields.fexec cols /\ Fields.fexec values = Fields.fexec rows) ->
     csr_new values cols rows = Exit) /\
  forall e, a_exec (csr_empty (V := V) (I := nat) e) = e /\ nRows (csr_empty (V := V) (I := nat) e) = 0 /\
    nNonZeros (csr_empty (V := V) (I := nat) e) = 0.
Proof.
  intros V values cols rows. unfold csr_new.
  destruct (Fields.fexec values), (Fields.fexec cols), (Fields.fexec rows); simpl;
    (split; [intros [? ?]; try done|split; [intros H; try done; exfalso; apply H; done|done]]).
Qed.
Print Assumptions C23_construct.

Local Ltac rows_cases := intros i lo hi H1 H2; do 4 (destruct i as [|i]; simpl in *; simplify_eq; try lia).
Definition hostF {V} (l : list V) : Fields.field V := Fields.mkField SerialExecutor l.
Definition mat_unsorted : csr Qc nat := Csr (hostF [1; Q2Qc 2; Q2Qc 3]%Qc) (hostF [1; 0; 1]) (hostF [0; 2; 3]).
Lemma mat_unsorted_ok : csr_ok mat_unsorted.
Proof.
  split; try done. rows_cases.
Qed.
(** Not for unsorted rows, which CSRMatrix accepts and the parallel construction
    of the sparsity pattern can produce: the search stops at the first larger
    column. *)
Theorem C70_unsorted_refuted : ~ forall (a : csr Qc nat) i j k, csr_ok a -> i < nRows a -> stored a i j k -> entry a i j = Ok k.
Proof.
  intros H. specialize (H mat_unsorted 0 0 1 mat_unsorted_ok). vm_compute in H.
  discriminate H; [lia|]. exists 0, 2. repeat split; lia || done.
Qed.
Print Assumptions C70_unsorted_refuted.

Definition mat_ex : csr Qc nat := Csr (hostF [1; Q2Qc 2; Q2Qc 3; Q2Qc 4]%Qc) (hostF [0; 2; 1; 2]) (hostF [0; 2; 2; 4]).
Lemma mat_ex_ok : csr_ok mat_ex /\ sorted_rows mat_ex.
Proof.
  split.
  - split; try done. rows_cases.
  - intros i j j' k k' (lo & hi & H1 & H2 & H3 & H4) (lo' & hi' & H1' & H2' & H3' & H4') Hlt.
    rewrite H1 in H1'. rewrite H2 in H2'. injection H1' as <-. injection H2' as <-.
    destruct i as [|[|[|i]]]; simpl in H1, H2; try done; injection H1 as <-; injection H2 as <-;
      destruct k as [|[|[|[|k]]]]; simpl in H4; try lia; destruct k' as [|[|[|[|k']]]]; simpl in H4'; try lia;
      injection H4 as <-; injection H4' as <-; lia.
Qed.
Example C23_instance : csr_ok mat_ex /\ sorted_rows mat_ex /\ nRows mat_ex = 3 /\ entry mat_ex 0 2 = Ok 1 /\ entry mat_ex 1 0 = Exit /\
  entry mat_ex 2 0 = Exit /\ entry mat_ex 2 2 = Ok 3.
Proof. destruct mat_ex_ok. done. Qed.

(** * C24 *)
(** copyToExecutor never changes the contents. *)
Theorem C24_contents : forall V (a : csr V nat) dst, csr_ok a -> exists b, csr_copyToExecutor a dst = Ok b /\
  fdata (a_values b) = fdata (a_values a) /\ fdata (a_cols b) = fdata (a_cols a) /\ fdata (a_rows b) = fdata (a_rows a) /\
  Fields.fexec (a_cols b) = a_exec b /\ Fields.fexec (a_rows b) = a_exec b /\
  a_exec b = if decide (dst = a_exec a) then dst else SerialExecutor.
Proof.
  intros V a dst Hok. pose proof (ok_exec a Hok) as [H1 H2]. unfold csr_copyToExecutor.
  destruct a as [[ev dv] [ec dc] [er dr]]. unfold a_exec in *. simpl in *. subst ec er.
  destruct dst, ev; eexists; (split; [reflexivity|]); simpl; (split; [done|]; split; [done|]; split; [done|]; split; [done|]; split; done).
Qed.
Print Assumptions C24_contents.

(** copyToHost: the same matrix on the host. *)
Theorem C24_host : forall V (a : csr V nat), csr_ok a -> exists b, csr_copyToHost a = Ok b /\ a_exec b = SerialExecutor /\ csr_ok b /\
  fdata (a_values b) = fdata (a_values a) /\ fdata (a_cols b) = fdata (a_cols a) /\ fdata (a_rows b) = fdata (a_rows a).
Proof.
  intros V a Hok. rewrite csr_copyToHost_ok by done. eexists. split; [done|]. split; [done|]. split; [|done].
  destruct Hok. by split.
Qed.
Print Assumptions C24_host.

Theorem C24_system_host : forall V (ls : linsys V nat), csr_ok (l_matrix ls) -> length (fdata (l_rhs ls)) = nRows (l_matrix ls) ->
  exists h, ls_copyToHost ls = Ok h /\ a_exec (l_matrix h) = SerialExecutor /\ Fields.fexec (l_rhs h) = SerialExecutor /\
    csr_ok (l_matrix h) /\ fdata (l_rhs h) = fdata (l_rhs ls) /\
    fdata (a_values (l_matrix h)) = fdata (a_values (l_matrix ls)) /\
    fdata (a_cols (l_matrix h)) = fdata (a_cols (l_matrix ls)) /\ fdata (a_rows (l_matrix h)) = fdata (a_rows (l_matrix ls)).
Proof.
  intros V ls Hok Hr. rewrite ls_copyToHost_ok by done. eexists. split; [done|]. split; [done|]. split; [done|]. split; [|done].
  destruct Hok. by split.
Qed.
Print Assumptions C24_system_host.

(** But copyToExecutor does not copy to the executor asked for. *)
Theorem C71_destination_refuted : ~ forall V (a b : csr V nat) dst, csr_ok a -> csr_copyToExecutor a dst = Ok b -> a_exec b = dst.
Proof.
  intros H. destruct (C24_contents Qc mat_ex CPUExecutor (proj1 mat_ex_ok)) as (b & Hb & _ & _ & _ & _ & _ & He).
  specialize (H Qc mat_ex b CPUExecutor (proj1 mat_ex_ok) Hb). rewrite H in He. vm_compute in He. discriminate.
Qed.
Print Assumptions C71_destination_refuted.

(** convert on host executors: same values, every index converted, for every
    schedule. *)
Lemma set_kernel_all {V} (e : executor) n (f : nat -> option V) (l : list V) : length l = n -> (forall i, i < n -> f i = l !! i) ->
  forall v0 v1 o, Fields.fexec v0 = e -> Fields.fsize v0 = n ->
   Fields.kernel_on v0 (iterations 0 (Fields.fsize v0) (set_kernel f)) v1 o -> o = Ok tt /\ v1 = Fields.mkField e l.
Proof.
  intros Hl Hf v0 v1 o He Hs H. apply set_kernel_on in H as (H1 & H2 & H3 & H4).
  - split; [done|]. destruct v1 as [e1 d1]. simpl in *. f_equal; [congruence|]. apply list_eq. intros i.
    destruct (decide (i < n)).
    + rewrite H4 by lia. by apply Hf.
    + rewrite !lookup_ge_None_2; [done|lia|]. unfold Fields.fsize in *. simpl in *. lia.
  - intros i Hi. rewrite Hf by lia. apply lookup_lt_is_Some_2. lia.
Qed.
Theorem C24_convert : forall V I (e : executor) (a : csr V nat) (castI : nat -> I), csr_ok a ->
  a_exec a <> GPUExecutor -> e <> GPUExecutor ->
  always (convert e a castI)
    (Csr (Fields.mkField e (fdata (a_values a))) (Fields.mkField e (map castI (fdata (a_cols a)))) (Fields.mkField e (map castI (fdata (a_rows a))))).
Proof.
  intros V I e a castI Hok Hg He r.
  assert (Hs : Fields.same_space (a_exec a) SerialExecutor && Fields.same_space e (a_exec a) = true).
  { destruct (a_exec a), e; done. }
  unfold convert. rewrite Hs.
  set (vc := map castI (fdata (a_cols a))). set (vr := map castI (fdata (a_rows a))).
  assert (Hc : forall i, i < Fields.fsize (a_cols a) -> castI <$> (fdata (a_cols a) !! i) = vc !! i).
  { intros i _. unfold vc. change (map castI (fdata (a_cols a))) with (castI <$> fdata (a_cols a)). by rewrite list_lookup_fmap. }
  assert (Hr : forall i, i < Fields.fsize (a_rows a) -> castI <$> (fdata (a_rows a) !! i) = vr !! i).
  { intros i _. unfold vr. change (map castI (fdata (a_rows a))) with (castI <$> fdata (a_rows a)). by rewrite list_lookup_fmap. }
  split.
  - intros (c0 & r0 & c1 & r1 & v1 & o1 & o2 & o3 & [E1 E2] & [E3 E4] & H1 & H2 & H3 & ->).
    apply (set_kernel_all e (Fields.fsize (a_cols a)) _ vc) in H1 as [-> ->]; [|by unfold vc; rewrite map_length|done|done|done].
    apply (set_kernel_all e (Fields.fsize (a_rows a)) _ vr) in H2 as [-> ->]; [|by unfold vr; rewrite map_length|done|done|done].
    apply (set_kernel_all e (Fields.fsize (a_values a)) _ (fdata (a_values a))) in H3 as [-> ->]; try done.
  - intros ->.
    assert (Hk : forall {A} n (f : nat -> option A) (l : list A), length l = n -> (forall i, i < n -> f i = l !! i) ->
      Fields.kernel_on (Fields.mkField e l) (iterations 0 (Fields.fsize (Fields.mkField e l)) (set_kernel f)) (Fields.mkField e l) (Ok tt)).
    { intros A n f l Hl Hf. destruct (FieldsProofs.set_kernel_exists (Fields.mkField e l) f 0 (Fields.fsize (Fields.mkField e l))) as (a' & Ha'); [lia|lia| |].
      - intros i _ Hi. unfold Fields.fsize in Hi. simpl in Hi. rewrite Hf by lia. by apply lookup_lt_is_Some_2.
      - pose proof Ha' as Ha2. apply (set_kernel_all e n f l) in Ha2 as [_ ->]; done. }
    exists (Fields.mkField e vc), (Fields.mkField e vr), (Fields.mkField e vc), (Fields.mkField e vr), (Fields.mkField e (fdata (a_values a))), (Ok tt), (Ok tt), (Ok tt).
    split; [split; [done|unfold vc, Fields.fsize; simpl; by rewrite map_length]|].
    split; [split; [done|unfold vr, Fields.fsize; simpl; by rewrite map_length]|].
    split; [eapply Hk; [done|intros i Hi; apply Hc; unfold vc in Hi; by rewrite map_length in Hi]|].
    split; [eapply Hk; [done|intros i Hi; apply Hr; unfold vr in Hi; by rewrite map_length in Hi]|].
    split; [by eapply Hk|]. done.
Qed.
Print Assumptions C24_convert.

(** On the GPU convert copies from device memory as if it were host memory. *)
Theorem C71_convert_gpu_refuted : ~ forall V (a : csr V nat), csr_ok a -> ~ convert (a_exec a) a (fun i => i) None.
Proof.
  intros H. apply (H Qc (Csr (Fields.mkField GPUExecutor [1%Qc]) (Fields.mkField GPUExecutor [0]) (Fields.mkField GPUExecutor [0; 1]))).
  - split; try done. rows_cases.
  - done.
Qed.
Print Assumptions C71_convert_gpu_refuted.

(** * C25 *)
Theorem C25_spmv : forall ls (x : Fields.field Qc), csr_ok (l_matrix ls) -> length (fdata (l_rhs ls)) = nRows (l_matrix ls) ->
  Fields.fexec x = a_exec (l_matrix ls) -> (forall k c, fdata (a_cols (l_matrix ls)) !! k = Some c -> c < length (fdata x)) ->
  always (spmv ls x)
    [map (fun i => sum_over (length (fdata x)) (fun j => coef (l_matrix ls) i j * default 0 (fdata x !! j)) - default 0 (fdata (l_rhs ls) !! i))%Qc
       (seq 0 (nRows (l_matrix ls)))].
Proof.
  intros ls x Hok Hlen He Hx r. unfold spmv. rewrite He, FieldsProofs.same_space_refl.
  set (a := l_matrix ls) in *. set (n := nRows a).
  set (val := fun i => (sum_over (length (fdata x)) (fun j => coef a i j * default 0 (fdata x !! j)) - default 0 (fdata (l_rhs ls) !! i))%Qc).
  destruct (own_slot_iff (fun i => (0, i)) (fun i => SSet (0, i) (val i)) (a_exec a) 0 n
    [replicate (Fields.fsize (l_rhs ls)) 0%Qc] (spmv_kernel a (fdata (l_rhs ls)) (fdata x))) as (m' & Hm & Hsh & Hv & _).
  - intros i Hi. unfold spmv_kernel. destruct (row_bounds a Hok i) as (lo & hi & Hlo & Hhi & Hle & Hn); [lia|].
    rewrite Hlo. simpl. rewrite Nat.add_1_r, Hhi. simpl.
    rewrite row_sum_spec; [|apply (ok_cols a Hok)|lia|intros k c _; apply Hx]. simpl.
    destruct (lookup_lt_is_Some_2 (fdata (l_rhs ls)) i) as [bi Hbi]; [unfold n in *; lia|]. rewrite Hbi. simpl.
    unfold val. rewrite Hbi. simpl. do 4 f_equal.
    rewrite <- (row_dense a (fdata x) i Hok) by (lia || done). unfold row_range. rewrite Hlo, Hhi. simpl. ring.
  - intros i Hi. split; [done|]. exists n. split; [|simpl; lia]. simpl. rewrite replicate_length. unfold Fields.fsize. f_equal. done.
  - intros i j _ _ [= ->]. done.
  - rewrite Hm. assert (m' = [map val (seq 0 n)]) as ->; [|done].
    destruct m' as [|d [|d' m']]; try done; simpl in Hsh. injection Hsh as Hsh. rewrite replicate_length in Hsh.
    f_equal. apply list_eq. intros i. change (map val (seq 0 n)) with (val <$> seq 0 n). rewrite list_lookup_fmap.
    unfold Fields.fsize in Hsh. destruct (decide (i < n)) as [Hi|Hi].
    + specialize (Hv i ltac:(lia)). unfold mget in Hv. simpl in Hv. rewrite lookup_replicate_2 in Hv by (unfold Fields.fsize, n in *; lia).
      simpl in Hv. rewrite Hv, lookup_seq_lt by done. done.
    + rewrite lookup_ge_None_2 by (unfold n in *; lia). rewrite lookup_seq_ge by lia. done.
Qed.
Print Assumptions C25_spmv.

(** A row without entries gives -b. *)
Theorem C25_empty_row : forall a i j lo, fdata (a_rows a) !! i = Some lo -> fdata (a_rows a) !! S i = Some lo -> coef a i j = 0%Qc.
Proof. intros a i j lo H1 H2. unfold coef, row_range. rewrite H1, H2. simpl. by rewrite Nat.sub_diag. Qed.
Print Assumptions C25_empty_row.

Definition ls_ex : linsys Qc nat := LinSys mat_ex (hostF [Q2Qc 5; Q2Qc 6; Q2Qc 7]).
Example C24_instance : csr_ok mat_ex /\ a_exec mat_ex <> GPUExecutor /\ csr_ok (l_matrix ls_ex) /\
  length (fdata (l_rhs ls_ex)) = nRows (l_matrix ls_ex).
Proof. split; [apply mat_ex_ok|]. split; [done|]. split; [apply mat_ex_ok|done]. Qed.
Example C25_instance : csr_ok (l_matrix ls_ex) /\ exists r, spmv ls_ex (hostF [1; 1; Q2Qc 2]%Qc) (Some [r]) /\
  r = [0%Qc; Q2Qc (-6); Q2Qc 4].
Proof.
  split; [apply mat_ex_ok|]. eexists. split.
  - apply (C25_spmv ls_ex (hostF [1; 1; Q2Qc 2]%Qc)); try done; [apply mat_ex_ok|].
    intros [|[|[|[|k]]]] c; simpl; intros [= <-]; lia.
  - apply (bool_decide_unpack _). vm_compute. done.
Qed.

(** reset: all coefficients and the right-hand side zero, pattern kept. *)
Theorem C25_reset : forall V `(HV : ValueType V) (ls ls' : linsys V nat) o, ls_reset ls ls' o ->
  o = Ok tt /\ a_cols (l_matrix ls') = a_cols (l_matrix ls) /\ a_rows (l_matrix ls') = a_rows (l_matrix ls) /\
  fdata (a_values (l_matrix ls')) = replicate (length (fdata (a_values (l_matrix ls)))) vzero /\
  fdata (l_rhs ls') = replicate (length (fdata (l_rhs ls))) vzero /\
  a_exec (l_matrix ls') = a_exec (l_matrix ls) /\ Fields.fexec (l_rhs ls') = Fields.fexec (l_rhs ls).
Proof.
  intros V HV ls ls' o (v' & o1 & Hf & H). apply FieldsProofs.fill_default in Hf as [-> ->].
  destruct H as (r' & Hf & ->). apply FieldsProofs.fill_default in Hf as [-> ->]. done.
Qed.
Print Assumptions C25_reset.
Theorem C25_reset_runs : forall V `(HV : ValueType V) (ls : linsys V nat), exists ls', ls_reset ls ls' (Ok tt).
Proof.
  intros V HV ls.
  assert (Hk : forall a : Fields.field V, exists a', Fields.fill a vzero Fields.default_range a' (Ok tt)).
  { intros a. apply (FieldsProofs.set_kernel_exists a (fun _ => Some vzero) 0 (Fields.eff_end 0 (Fields.fsize a))); unfold Fields.eff_end; simpl; try lia. done. }
  destruct (Hk (a_values (l_matrix ls))) as [v' Hv]. destruct (Hk (l_rhs ls)) as [r' Hr].
  eexists _, v', (Ok tt). split; [done|]. exists r'. split; [done|reflexivity].
Qed.
Print Assumptions C25_reset_runs.

(** createEmptyLinearSystem: zeros on exactly the given pattern; any pattern
    with one value per column index and one right-hand side entry per row. *)
Theorem C25_empty_system : forall V `(HV : ValueType V) e rows nnz cols rowPtrs,
  Fields.fexec cols = e -> Fields.fexec rowPtrs = e -> length (fdata rowPtrs) = rows + 1 ->
  exists ls, createEmptyLinearSystem (V := V) e rows nnz cols rowPtrs = Ok ls /\
    a_cols (l_matrix ls) = cols /\ a_rows (l_matrix ls) = rowPtrs /\
    fdata (a_values (l_matrix ls)) = replicate nnz vzero /\ fdata (l_rhs ls) = replicate rows vzero /\
    a_exec (l_matrix ls) = e /\ Fields.fexec (l_rhs ls) = e.
Proof.
  intros V HV e rows nnz cols rowPtrs Hc Hr Hl. unfold createEmptyLinearSystem, csr_new. simpl.
  rewrite Hc, Hr, FieldsProofs.exec_eqb_refl. cbn [obind]. unfold ls_new, a_exec, nRows. simpl.
  rewrite FieldsProofs.exec_eqb_refl. unfold Fields.fsize. simpl. rewrite Hl, replicate_length.
  rewrite (proj2 (Nat.eqb_neq (rows + 1) 0)) by lia. rewrite (proj2 (Nat.eqb_eq _ _)) by lia. eexists. split; [done|]. done.
Qed.
Print Assumptions C25_empty_system.

(** * C26 *)
(** With no empty row PETSc gets the transposed matrix. *)
Theorem C26_transpose : forall ls, csr_ok (l_matrix ls) -> no_empty_row (l_matrix ls) -> 0 < nRows (l_matrix ls) ->
  length (fdata (l_rhs ls)) = nRows (l_matrix ls) ->
  exists c, petsc_system ls = Ok c /\
    (forall i j, j < nRows (l_matrix ls) -> coo_entry c i j = coef (l_matrix ls) j i) /\
    (forall i, i < nRows (l_matrix ls) -> coo_rhs c i = default 0%Qc (fdata (l_rhs ls) !! i)).
Proof.
  intros ls Hok Hne Hpos Hlen. unfold petsc_system. rewrite ls_copyToHost_ok by done. cbn [obind l_matrix a_values a_cols a_rows Fields.fdata].
  set (a := l_matrix ls) in *. unfold Fields.fsize.
  rewrite col_loop by (by rewrite (ok_cols a Hok)). cbn [obind].
  destruct (row_bounds a Hok 0 Hpos) as (lo & off & Hlo & Hoff & Hle & Hn). rewrite Hoff. cbn [oget obind].
  rewrite (ok_first a Hok) in Hlo. injection Hlo as <-.
  destruct (expand_rows_spec a Hok Hne (length (fdata (a_values a))) 0 off 0 0 (ok_first a Hok) Hoff) as (l & E & Hl & Hr); [lia|lia|].
  rewrite E. cbn [obind]. eexists. split; [done|]. split.
  - intros i j Hj. unfold coo_entry, coef. cbn [coo_i coo_j coo_v].
    rewrite take_ge by (by rewrite (ok_cols a Hok)).
    rewrite (sum_row a _ j Hok Hj).
    + apply sumQ_ext. intros k Hk. unfold row_range in Hk. destruct (row_bounds a Hok j Hj) as (lo & hi & Hlo & Hhi & Hle' & Hn').
      rewrite Hlo, Hhi in Hk. simpl in Hk. apply elem_of_seq in Hk.
      assert (Hlk : l !! k = Some j).
      { destruct (lookup_lt_is_Some_2 l k) as [r Hrk]; [lia|]. rewrite Hrk. f_equal.
        destruct (Hr k r Hrk) as (lo' & hi' & H1 & H2 & H3). eapply (rows_unique a Hok); eauto. lia. }
      rewrite Hlk. destruct (decide (fdata (a_cols a) !! k = Some i)) as [H|H].
      * by rewrite decide_True.
      * rewrite decide_False; [done|]. by intros [? _].
    + intros k lo hi Hlo Hhi Hout. rewrite decide_False; [done|]. intros [_ Hlk].
      destruct (Hr k j Hlk) as (lo' & hi' & H1 & H2 & H3). rewrite Hlo in H1. rewrite Hhi in H2. injection H1 as <-. injection H2 as <-. simpl in H3. done.
  - intros i Hi. unfold coo_rhs. cbn [vec_i vec_v].
    rewrite Hlen in *. rewrite (sumQ_ext _ (fun k => if decide (k = i) then default 0%Qc (fdata (l_rhs ls) !! i) else 0%Qc)).
    + rewrite sumQ_vsum. apply (vsum_over_single (HL:=Qc_laws) (nRows a) i). done.
    + intros k Hk. apply elem_of_seq in Hk. rewrite lookup_seq_lt by lia. simpl. destruct (decide (k = i)) as [->|].
      * by rewrite decide_True.
      * rewrite decide_False; [done|]. congruence.
Qed.
Print Assumptions C26_transpose.

(** Hence a symmetric matrix without empty rows arrives intact. *)
Theorem C26_symmetric : forall ls, csr_ok (l_matrix ls) -> no_empty_row (l_matrix ls) -> 0 < nRows (l_matrix ls) ->
  length (fdata (l_rhs ls)) = nRows (l_matrix ls) ->
  (forall i j, coef (l_matrix ls) i j = coef (l_matrix ls) j i) ->
  exists c, petsc_system ls = Ok c /\
    (forall i j, j < nRows (l_matrix ls) -> coo_entry c i j = coef (l_matrix ls) i j) /\
    (forall i, i < nRows (l_matrix ls) -> coo_rhs c i = default 0%Qc (fdata (l_rhs ls) !! i)).
Proof.
  intros ls Hok Hne Hpos Hlen Hsym. destruct (C26_transpose ls Hok Hne Hpos Hlen) as (c & E & Hc & Hr).
  exists c. split; [done|]. split; [|done]. intros i j Hj. rewrite Hsym. by apply Hc.
Qed.
Print Assumptions C26_symmetric.

(** the full claim *)
Definition petsc_faithful (ls : linsys Qc nat) : Prop := exists c, petsc_system ls = Ok c /\
  (forall i j, i < nRows (l_matrix ls) -> j < nRows (l_matrix ls) -> coo_entry c i j = coef (l_matrix ls) i j) /\
  (forall i, i < nRows (l_matrix ls) -> coo_rhs c i = default 0%Qc (fdata (l_rhs ls) !! i)).

Definition ls_nonsym : linsys Qc nat :=
  LinSys (Csr (hostF [1; Q2Qc 2; 1]%Qc) (hostF [0; 1; 1]) (hostF [0; 2; 3])) (hostF [1; 1]%Qc).
Lemma ls_nonsym_ok : csr_ok (l_matrix ls_nonsym) /\ no_empty_row (l_matrix ls_nonsym).
Proof.
  split.
  - split; try done. rows_cases.
  - rows_cases.
Qed.
Theorem C72_nonsymmetric_refuted : ~ forall ls, csr_ok (l_matrix ls) -> no_empty_row (l_matrix ls) -> 0 < nRows (l_matrix ls) ->
  length (fdata (l_rhs ls)) = nRows (l_matrix ls) -> petsc_faithful ls.
Proof.
  intros H. destruct (H ls_nonsym) as (c & E & Hc & _); [apply ls_nonsym_ok|apply ls_nonsym_ok|vm_compute; lia|done|].
  assert (E' : coo_entry c 0 1 = coef (l_matrix ls_nonsym) 0 1) by (apply Hc; vm_compute; lia).
  vm_compute in E. injection E as <-. apply (f_equal (fun q => bool_decide (q = 0%Qc))) in E'. vm_compute in E'. discriminate.
Qed.
Print Assumptions C72_nonsymmetric_refuted.

(** Symmetric, but with an empty row: the rows after it are misplaced. *)
Definition ls_hole : linsys Qc nat := LinSys (Csr (hostF [1; 1]%Qc) (hostF [0; 2]) (hostF [0; 1; 1; 2])) (hostF [1; 1; 1]%Qc).
Theorem C72_empty_row_refuted : ~ forall ls, csr_ok (l_matrix ls) -> 0 < nRows (l_matrix ls) ->
  length (fdata (l_rhs ls)) = nRows (l_matrix ls) -> (forall i j, coef (l_matrix ls) i j = coef (l_matrix ls) j i) -> petsc_faithful ls.
Proof.
  intros H. destruct (H ls_hole) as (c & E & Hc & _).
  - split; try done. rows_cases.
  - vm_compute. lia.
  - done.
  - assert (G : forall i j, coef (l_matrix ls_hole) i j = if decide (i = j /\ (i = 0 \/ i = 2)) then 1%Qc else 0%Qc).
    { intros i j. destruct i as [|[|[|i]]]; unfold coef, row_range; simpl.
      - destruct j as [|j]; simpl; [apply Qc_is_canon; reflexivity|]. repeat (try rewrite decide_False by naive_solver lia). apply Qc_is_canon; reflexivity.
      - rewrite decide_False by lia. done.
      - destruct j as [|[|[|j]]]; simpl; apply Qc_is_canon; reflexivity.
      - rewrite decide_False by lia. by destruct i. }
    intros i j. rewrite !G. destruct (decide (i = j)) as [->|]; [done|]. rewrite !decide_False by naive_solver. done.
  - assert (E' : coo_entry c 2 2 = coef (l_matrix ls_hole) 2 2) by (apply Hc; vm_compute; lia).
    vm_compute in E. injection E as <-. apply (f_equal (fun q => bool_decide (q = 0%Qc))) in E'. vm_compute in E'. discriminate.
Qed.
Print Assumptions C72_empty_row_refuted.

Example C26_instance : exists ls : linsys Qc nat, csr_ok (l_matrix ls) /\ no_empty_row (l_matrix ls) /\ nRows (l_matrix ls) = 2 /\
  length (fdata (l_rhs ls)) = nRows (l_matrix ls).
Proof. exists ls_nonsym. destruct ls_nonsym_ok. done. Qed.

(** * C27 *)
Theorem C27_parse : forall cstr flt d, keys_unique (ADict d) -> ~ has_bad (ADict d) ->
  exists t, parse cstr flt d = Ok t /\ mirrors cstr flt (ADict d) t.
Proof. intros cstr flt d Hu Hb. destruct (parse_spec cstr flt (ADict d) Hu) as [(t & E & Hm & _)|[_ ?]]; [by exists t|done]. Qed.
Print Assumptions C27_parse.

(** The C++ type of an entry decides the kind of the node: text stays text, integers
    stay integers and reals stay reals, with their values. *)
Theorem C27_kinds : forall cstr flt d t k v, keys_unique (ADict d) -> parse cstr flt d = Ok t -> dfind d k = Some v ->
  exists m n, t = PMap m /\ pfind m k = Some n /\
  match v with
  | AString s => n = PString s
  | ALabel z => n = PInt z
  | AScalar q => n = PReal q
  | ADict d' => exists m', n = PMap m'
  | AOther ty p => ty = 0 /\ n = PString (cstr p) \/ ty = 1 /\ n = PInt (Z.of_nat p) \/ ty = 2 /\ n = PReal (flt p)
  | _ => False
  end.
Proof.
  intros cstr flt d t k v Hu Hp Hk.
  destruct (parse_spec cstr flt (ADict d) Hu) as [(t' & E & Hm & _)|[E _]]; unfold parse in Hp; rewrite E in Hp; [|discriminate].
  injection Hp as ->. inversion Hm as [| | | | | |d0 m Hs Hn]; subst. destruct (Hs _ _ Hk) as (n & En & Hmn).
  exists m, n. split; [done|]. split; [done|]. destruct Hmn; try done; try (by eexists); eauto.
Qed.
Print Assumptions C27_kinds.

Theorem C27_unsupported : forall cstr flt d, keys_unique (ADict d) -> has_bad (ADict d) -> parse cstr flt d = Throw RuntimeError.
Proof. intros cstr flt d Hu Hb. destruct (parse_spec cstr flt (ADict d) Hu) as [(t & E & Hm & ?)|[? _]]; done. Qed.
Print Assumptions C27_unsupported.

Definition cfg_ex (x : any) : list (string * any) :=
  [("solver", AString "Ginkgo"); ("type", AString "solver::Cg");
   ("criteria", ADict [("iteration", ALabel 10); ("relative_residual_norm", AScalar (Q2Qc (1 # 1000))); ("x", x)])]%string.
Example C27_instance : keys_unique (ADict (cfg_ex (ALabel 1))) /\ ~ has_bad (ADict (cfg_ex (ALabel 1))) /\
  has_bad (ADict (cfg_ex (ABool true))).
Proof.
  split; [|split].
  - apply ku_dict; [apply (bool_decide_unpack _); vm_compute; done|].
    simpl. constructor; [by constructor|]. constructor; [by constructor|]. constructor; [|constructor].
    apply ku_dict; [apply (bool_decide_unpack _); vm_compute; done|].
    simpl. constructor; [by constructor|]. constructor; [by constructor|]. constructor; [by constructor|constructor].
  - assert (Hl : forall a, (forall d, a <> ADict d) -> supported a -> ~ has_bad a).
    { intros a Hl Hs Hb. destruct Hb; [done|by edestruct Hl]. }
    intros Hb. inversion Hb as [a Hd ?|d k v Hd Hb']; subst; [by edestruct Hd|]. cbn [cfg_ex dfind] in Hd.
    repeat (case_decide; [injection Hd as <-|]); try done; try (eapply Hl in Hb'; [done|discriminate|done]).
    inversion Hb' as [a Hd ?|d k' v Hd Hb2]; subst; [by edestruct Hd|]. cbn [dfind] in Hd.
    repeat (case_decide; [injection Hd as <-|]); try done; (eapply Hl in Hb2; [done|discriminate|done]).
  - eapply (bad_in _ "criteria"); [done|]. eapply (bad_in _ "x"); [done|]. apply bad_here; [discriminate|]. by intros [].
Qed.

(** * C56 *)
(** On host executors Ginkgo receives the system's matrix, as long as sizes fit
    an int. *)
Theorem C56_ginkgo_matrix : forall V (ls : linsys V nat), csr_ok (l_matrix ls) -> length (fdata (l_rhs ls)) = nRows (l_matrix ls) ->
  a_exec (l_matrix ls) <> GPUExecutor ->
  (Z.of_nat (nNonZeros (l_matrix ls)) < 2 ^ 31)%Z -> (forall k c, fdata (a_cols (l_matrix ls)) !! k = Some c -> (Z.of_nat c < 2 ^ 31)%Z) ->
  always (createGkoMtx ls) (GkoCsr (nRows (l_matrix ls)) (fdata (a_values (l_matrix ls)))
     (map Z.of_nat (fdata (a_cols (l_matrix ls)))) (map Z.of_nat (fdata (a_rows (l_matrix ls))))).
Proof.
  intros V ls Hok Hlen Hg Hn Hc r. unfold createGkoMtx.
  pose proof (C24_convert V Z (a_exec (l_matrix ls)) (l_matrix ls) to_int Hok Hg Hg) as Ha.
  assert (Hi : forall n, (Z.of_nat n < 2 ^ 31)%Z -> to_int n = Z.of_nat n).
  { intros n Hn'. unfold to_int. rewrite Z.mod_small by lia. lia. }
  assert (E1 : map to_int (fdata (a_cols (l_matrix ls))) = map Z.of_nat (fdata (a_cols (l_matrix ls)))).
  { apply map_ext_in. intros c Hin. apply Hi. apply elem_of_list_In, elem_of_list_lookup_1 in Hin as [k Hk]. by eapply Hc. }
  assert (E2 : map to_int (fdata (a_rows (l_matrix ls))) = map Z.of_nat (fdata (a_rows (l_matrix ls)))).
  { apply map_ext_in. intros c Hin. apply Hi. apply elem_of_list_In, elem_of_list_lookup_1 in Hin as [k Hk].
    pose proof (rows_le _ Hok _ _ Hk). unfold nNonZeros, Fields.fsize in Hn. lia. }
  rewrite E1, E2 in Ha. unfold Fields.fsize. rewrite Hlen. split.
  - intros (r' & Hr' & ->). apply Ha in Hr' as ->. done.
  - intros ->. eexists. split; [by apply Ha|]. done.
Qed.
Print Assumptions C56_ginkgo_matrix.

(** Without the bounds the offsets wrap to negative numbers: a single row with
    2^31 entries is enough. *)
Theorem C90_overflow_refuted : ~ forall (ls : linsys Qc nat) g, csr_ok (l_matrix ls) -> length (fdata (l_rhs ls)) = nRows (l_matrix ls) ->
  a_exec (l_matrix ls) <> GPUExecutor -> createGkoMtx ls (Some g) ->
  g_rows g = map Z.of_nat (fdata (a_rows (l_matrix ls))).
Proof.
  intros H. assert (Hn : exists n, (2 ^ 31)%Z = Z.of_nat n) by (apply Z_of_nat_complete; lia).
  destruct Hn as [n Hn].
  set (ls := LinSys (Csr (hostF (replicate n 0%Qc)) (hostF (replicate n 0)) (hostF [0; n])) (hostF [0%Qc])).
  assert (Hok : csr_ok (l_matrix ls)).
  { split; cbn [l_matrix ls a_values a_cols a_rows hostF fdata Fields.fdata]; try done.
    all: rewrite ?replicate_length; try done.
    intros [|[|i]] lo hi H1 H2; cbn in H1, H2; try done. injection H1 as <-. lia. }
  assert (Ha := C24_convert Qc Z SerialExecutor (l_matrix ls) to_int Hok).
  unfold always in Ha.
  specialize (H ls (GkoCsr 1 (replicate n 0%Qc) (map to_int (replicate n 0)) (map to_int [0; n])) Hok eq_refl).
  assert (g_rows (GkoCsr 1 (replicate n 0%Qc) (map to_int (replicate n 0)) (map to_int [0; n])) = map Z.of_nat [0; n]) as E.
  { apply H; [done|]. unfold createGkoMtx. eexists. split; [by apply Ha|]. done. }
  cbn [g_rows map] in E. injection E as E. unfold to_int in E. rewrite <- Hn in E. vm_compute in E. discriminate.
Qed.
Print Assumptions C90_overflow_refuted.
Example C56_instance : csr_ok (l_matrix ls_ex) /\ length (fdata (l_rhs ls_ex)) = nRows (l_matrix ls_ex) /\ a_exec (l_matrix ls_ex) <> GPUExecutor.
Proof. destruct mat_ex_ok. done. Qed.
