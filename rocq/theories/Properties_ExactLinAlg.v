(** C68, C70-C74, C90: exactly when the claims that fail in general hold. *)
From stdpp Require Import pretty.
From Verif Require Import Base Par Exec ExecProofs Value Kernel KernelProofs CSR CSRSpec CSRProofs FVSpec Properties_LinAlg
  Mesh MeshSpec MeshProofs Properties_Mesh Sparsity SparsitySpec SparsityMain SparsityProps ExampleMesh Properties_Sparsity.
From Verif Require Mpi Fields.
Local Open Scope nat_scope.
Local Ltac rows_cases := intros i lo hi H1 H2; do 4 (destruct i as [|i]; simpl in *; simplify_eq; try lia).

(** * C68: in builds without assertions initComm and finalise never look at the
    state of the buffer. *)
Theorem C68_release_refuses_nothing : forall pl, Mpi.debug pl = false ->
  (forall b, exists b', Mpi.h_finalise pl b = Ok b' /\ Mpi.isCommInit b' = false /\ Mpi.h_reqs b' = Mpi.h_reqs b) /\
  (forall n sz name b b0, Mpi.h_tsize b0 = Mpi.h_tsize b -> Mpi.h_reqs b0 = Mpi.h_reqs b -> Mpi.h_data b0 = Mpi.h_data b -> Mpi.h_off b0 = Mpi.h_off b ->
     Mpi.initComm pl n sz name b = Mpi.initComm pl n sz name b0).
Proof.
  intros pl Hd. split.
  - intros b. unfold Mpi.h_finalise, Mpi.dassert, Mpi.dassert_complete. rewrite Hd. cbn. eexists. split; [reflexivity|done].
  - intros n sz name [t1 n1 s1 r1 d1 o1] [t2 n2 s2 r2 d2 o2]. cbn. intros -> -> -> ->.
    unfold Mpi.initComm, Mpi.setType, Mpi.dassert. rewrite Hd. cbn. destruct (s1 =? sz)%nat; [done|]. unfold Mpi.updateDataSize. cbn [Mpi.h_off Mpi.h_tag Mpi.h_name Mpi.h_tsize Mpi.h_reqs Mpi.h_data].
    destruct (Mpi.offsets_from _ _ _ _) as [p| | |]; cbn; try done. destruct (_ || _); done.
Qed.
Print Assumptions C68_release_refuses_nothing.

(** * C70: entry(i,j) finds the coefficient stored at position k if and only if
    all columns before it in the row are smaller. *)
Theorem C70_lookup_exactly : forall V (a : csr V nat) i j k, csr_ok a -> i < nRows a ->
  (entry a i j = Ok k <-> stored a i j k /\ forall k' j', stored a i j' k' -> k' < k -> j' < j).
Proof.
  intros V a i j k Hok Hi. destruct (row_bounds a Hok i Hi) as (lo & hi & Hlo & Hhi & Hle & Hnnz).
  pose proof (ok_cols a Hok) as Hc.
  unfold entry. rewrite Nat.add_1_r, Hlo, Hhi. cbn [oget obind]. destruct (Nat.ltb_spec hi lo); [lia|].
  assert (Hst : forall j' k', stored a i j' k' <-> lo <= k' < hi /\ fdata (a_cols a) !! k' = Some j').
  { intros j' k'. unfold stored. split.
    - intros (lo' & hi' & E1 & E2 & ?). rewrite Hlo in E1. rewrite Hhi in E2. injection E1 as <-. by injection E2 as <-.
    - intros [? ?]. by exists lo, hi. }
  destruct (entry_loop_spec (fdata (a_cols a)) j (hi - lo) lo ltac:(lia)) as [(k0 & -> & Hk & Hck & Hb)|(-> & Hn)]; cbn [obind].
  - destruct (lookup_lt_is_Some_2 (fdata (a_values a)) k0 ltac:(lia)) as [v ->]. cbn [oget obind]. rewrite Hst. split.
    + intros [= <-]. split; [split; [lia|done]|]. intros k' j' [? ?]%Hst Hlt. destruct (Hb k' ltac:(lia)) as (c & E & ?). congruence.
    + intros [[Hk1 Hk2] Hall]. f_equal. destruct (decide (k = k0)) as [|Hne]; [done|]. destruct (decide (k < k0)).
      * destruct (Hb k ltac:(lia)) as (c & E & ?). rewrite Hk2 in E. injection E as <-. lia.
      * assert (j < j); [|lia]. apply (Hall k0); [apply Hst; split; [lia|done]|lia].
  - split; [done|]. intros [[Hk1 Hk2]%Hst Hall]. exfalso. destruct Hn as [Hn|(k1 & c & Hk & Hck & Hjc & Hb)].
    + apply (Hn k); [lia|done].
    + destruct (decide (k <= k1)) as [|Hgt]; [by apply (Hb k); [lia|]|].
      assert (c < j); [|lia]. apply (Hall k1); [apply Hst; split; [lia|done]|lia].
Qed.
Print Assumptions C70_lookup_exactly.
Example C70_instance : let a := Csr (hostF [1; 1; 1]%Qc) (hostF [0; 2; 1]) (hostF [0; 3]) in
  csr_ok a /\ entry a 0 2 = Ok 1 /\ entry a 0 1 = Exit.
Proof. split; [split; try done; rows_cases|]. done. Qed.

(** * C71: a copy lives on the executor asked for if and only if that is the
    serial one or the one the matrix is on already. *)
Theorem C71_destination_exactly : forall V (a b : csr V nat) dst, csr_ok a -> csr_copyToExecutor a dst = Ok b ->
  (a_exec b = dst <-> dst = a_exec a \/ dst = SerialExecutor).
Proof.
  intros V a b dst Hok E. destruct (C24_contents V a dst Hok) as (b' & E' & _ & _ & _ & _ & _ & Hx). rewrite E in E'. injection E' as <-.
  rewrite Hx. destruct (decide (dst = a_exec a)); [tauto|]. split; [intros <-; by right|]. intros [?|<-]; done.
Qed.
Print Assumptions C71_destination_exactly.

Example C71_instance : csr_ok mat_ex /\ a_exec mat_ex = SerialExecutor /\ exists b, csr_copyToExecutor mat_ex GPUExecutor = Ok b /\ a_exec b = SerialExecutor.
Proof. split; [apply mat_ex_ok|]. split; [done|]. eexists. split; reflexivity. Qed.

(** * C72: with no empty row, PETSc gets the matrix as it is if and only if the
    matrix is symmetric. *)
Theorem C72_faithful_exactly : forall ls, csr_ok (l_matrix ls) -> no_empty_row (l_matrix ls) -> 0 < nRows (l_matrix ls) ->
  length (fdata (l_rhs ls)) = nRows (l_matrix ls) ->
  (petsc_faithful ls <-> forall i j, i < nRows (l_matrix ls) -> j < nRows (l_matrix ls) -> coef (l_matrix ls) i j = coef (l_matrix ls) j i).
Proof.
  intros ls Hok Hne Hpos Hlen. destruct (C26_transpose ls Hok Hne Hpos Hlen) as (c & E & Hc & Hr). split.
  - intros (c' & E' & Hc' & _) i j Hi Hj. rewrite E in E'. injection E' as <-. by rewrite <- Hc', Hc.
  - intros Hs. exists c. split; [done|]. split; [|done]. intros i j Hi Hj. rewrite Hc by done. by apply Hs.
Qed.
Print Assumptions C72_faithful_exactly.

Example C72_instance : csr_ok (l_matrix ls_nonsym) /\ no_empty_row (l_matrix ls_nonsym) /\ 0 < nRows (l_matrix ls_nonsym) /\
  length (fdata (l_rhs ls_nonsym)) = nRows (l_matrix ls_nonsym) /\ coef (l_matrix ls_nonsym) 0 1 <> coef (l_matrix ls_nonsym) 1 0.
Proof.
  split; [apply ls_nonsym_ok|]. split; [apply ls_nonsym_ok|]. split; [unfold nRows; simpl; lia|]. split; [done|].
  intros E. apply (f_equal this) in E. vm_compute in E. discriminate.
Qed.

(** * C73: where the single-cell mesh should hold the neighbour cell's centre it
    holds the face area vector. *)
Theorem C73_single_cell_holds_areas : bCn (bmesh createSingleCellMesh) = bSf (bmesh createSingleCellMesh) /\
  ~ boundary_cn_is_cell_centre createSingleCellMesh.
Proof. split; [reflexivity|apply C73_single_cell_cn_refuted]. Qed.
Print Assumptions C73_single_cell_holds_areas.

(** * C74: the pattern's offsets are right if and only if no row has more than 256
    entries. *)
Theorem C74_located_exactly : forall m e p, connectivity m -> sp_create e m (Ok p) ->
  (pattern_located m p <-> forall c, c < nCells m -> length (row_spec m c) <= 256).
Proof.
  intros m e p Hcn Hp. split.
  - intros HL c Hc. destruct (le_lt_dec (length (row_spec m c)) 256) as [|Hlt]; [done|exfalso].
    destruct (C74_offset_overflow m e p c Hcn Hc Hlt Hp) as (l & l' & Hl & Hl' & Hne & E). apply Hne. by apply (pl_inj _ _ HL).
  - intros Hfit. destruct (C29_pattern m e Hcn Hfit) as [_ H]. destruct (H _ Hp) as (p' & E & _ & HL). by injection E as <-.
Qed.
Print Assumptions C74_located_exactly.

Example C74_instance : connectivity mesh22 /\ connectivity star /\ 256 < length (row_spec star 0) /\
  (exists p, sp_create CPUExecutor mesh22 (Ok p)) /\ exists p, sp_create CPUExecutor star (Ok p).
Proof.
  split; [apply mesh22_connectivity|]. split; [apply valid_connectivity, star_topology|]. split; [apply star_row|].
  split; [apply (sp_create_good mesh22 mesh22_connectivity CPUExecutor)|apply (sp_create_good star (valid_connectivity _ star_topology) CPUExecutor)].
Qed.

(** * C90: Ginkgo receives the row offsets as they are if and only if the last one
    fits an int; it receives a column index as it is if and only if that fits. *)
Theorem C90_ginkgo_exactly : forall V (ls : linsys V nat) g, csr_ok (l_matrix ls) -> length (fdata (l_rhs ls)) = nRows (l_matrix ls) ->
  a_exec (l_matrix ls) <> GPUExecutor -> createGkoMtx ls (Some g) ->
  (g_rows g = map Z.of_nat (fdata (a_rows (l_matrix ls))) <-> (Z.of_nat (nNonZeros (l_matrix ls)) < 2 ^ 31)%Z) /\
  (g_cols g = map Z.of_nat (fdata (a_cols (l_matrix ls))) <-> forall k c, fdata (a_cols (l_matrix ls)) !! k = Some c -> (Z.of_nat c < 2 ^ 31)%Z) /\
  g_values g = fdata (a_values (l_matrix ls)) /\ g_size g = nRows (l_matrix ls).
Proof.
  intros V ls g Hok Hlen Hg (r' & Hr & Eg).
  pose proof (C24_convert V Z (a_exec (l_matrix ls)) (l_matrix ls) to_int Hok Hg Hg) as Ha. apply Ha in Hr as ->.
  cbn in Eg. injection Eg as ->. cbn [g_rows g_cols g_values g_size].
  assert (Hi : forall n, to_int n = Z.of_nat n <-> (Z.of_nat n < 2 ^ 31)%Z).
  { intros n. unfold to_int. split.
    - intros E. pose proof (Z.mod_pos_bound (Z.of_nat n + 2 ^ 31) (2 ^ 32) ltac:(lia)). lia.
    - intros Hn. rewrite Z.mod_small by lia. lia. }
  assert (HL : forall l : list nat, map to_int l = map Z.of_nat l <-> forall k c, l !! k = Some c -> (Z.of_nat c < 2 ^ 31)%Z).
  { intros l. split.
    - intros E k c Hk. apply Hi. apply (f_equal (fun l => l !! k)) in E. change (map to_int l) with (to_int <$> l) in E. change (map Z.of_nat l) with (Z.of_nat <$> l) in E.
      rewrite !list_lookup_fmap, Hk in E. by injection E.
    - intros H. apply map_ext_in. intros c Hin. apply Hi. apply elem_of_list_In, elem_of_list_lookup_1 in Hin as [k Hk]. by eapply H. }
  split; [|split; [apply HL|split; [done|done]]].
  rewrite HL. unfold nNonZeros, Fields.fsize. split.
  - intros H. apply (H (length (fdata (a_rows (l_matrix ls))) - 1)). by apply rows_last.
  - intros Hn k c Hk. pose proof (rows_le _ Hok _ _ Hk). lia.
Qed.
Print Assumptions C90_ginkgo_exactly.

Example C90_instance : csr_ok (l_matrix ls_ex) /\ length (fdata (l_rhs ls_ex)) = nRows (l_matrix ls_ex) /\ a_exec (l_matrix ls_ex) <> GPUExecutor /\
  exists g, createGkoMtx ls_ex (Some g) /\ g_cols g = [0%Z; 2%Z; 1%Z; 2%Z].
Proof.
  split; [apply mat_ex_ok|]. split; [done|]. split; [done|]. eexists. split.
  - apply (C56_ginkgo_matrix Qc ls_ex); [apply mat_ex_ok|done|done|vm_compute; reflexivity| |reflexivity].
    intros [|[|[|[|k]]]] c; simpl; intros [= <-]; vm_compute; reflexivity.
  - reflexivity.
Qed.
