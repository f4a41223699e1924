(** C29, C30, C31: sparsity pattern and cell-to-face stencil.

    Each theorem quantifies over the executor and, through [sp_create],
    [sp_update] and [computeStencil], over every interleaving of every kernel.
    [good op R]: some execution succeeds, and every execution succeeds with a
    result satisfying [R]. *)
From Verif Require Import Base Par Exec Reduce ReduceProofs Kernel Ticket Mesh MeshSpec Value CSR CSRSpec Properties_LinAlg
  Sparsity SparsitySpec SparsityProofs SparsityMain SparsityProps StencilProofs ExampleMesh.
From Verif Require Fields.

(** * C29 *)
Theorem C29_pattern : forall m e, connectivity m -> rows_fit m ->
  (exists p, sp_create e m (Ok p)) /\
  forall r, sp_create e m r -> exists p, r = Ok p /\ pattern_rows m p /\ pattern_located m p.
Proof.
  intros m e Hcn Hfit. destruct (sp_create_good m Hcn e) as [He Hr]. split; [done|].
  intros r H. destruct (Hr r H) as (p & -> & tkL & tkU & HP). exists p. split; [done|].
  split; [by eapply post_rows|by eapply post_located].
Qed.
Print Assumptions C29_pattern.

(** The row structure needs no bound on the number of faces of a cell. *)
Theorem C29_rows_any_size : forall m e, connectivity m ->
  (exists p, sp_create e m (Ok p)) /\
  forall r, sp_create e m r -> exists p, r = Ok p /\ pattern_rows m p.
Proof.
  intros m e Hcn. destruct (sp_create_good m Hcn e) as [He Hr]. split; [done|].
  intros r H. destruct (Hr r H) as (p & -> & tkL & tkU & HP). exists p. split; [done|].
  by eapply post_rows.
Qed.
Print Assumptions C29_rows_any_size.

(** update() on a pattern of the mesh's size recreates a correct one. *)
Theorem C29_update_again : forall m e p, connectivity m -> rows_fit m -> pattern_rows m p ->
  (exists p', sp_update e m p (Ok p')) /\
  forall r, sp_update e m p r -> exists p', r = Ok p' /\ pattern_rows m p' /\ pattern_located m p'.
Proof.
  intros m e p Hcn Hfit Hp. destruct (sp_update_good m Hcn e p) as [He Hr].
  { destruct Hp. constructor; auto. }
  split; [done|].
  intros r H. destruct (Hr r H) as (p' & -> & tkL & tkU & HP). exists p'. split; [done|].
  split; [by eapply post_rows|by eapply post_located].
Qed.
Print Assumptions C29_update_again.

(** The bound is sharp: a cell with more than 255 internal faces makes two
    different coefficients share a slot, because offsets are stored in uint8_t. *)
Theorem C74_offset_overflow : forall m e p c, connectivity m -> c < nCells m ->
  256 < length (row_spec m c) -> sp_create e m (Ok p) ->
  exists l l', loc_valid m l /\ loc_valid m l' /\ l <> l' /\ loc_slot m p l = loc_slot m p l'.
Proof.
  intros m e p c Hcn Hc Hlen H. destruct (sp_create_good m Hcn e) as [_ Hr].
  destruct (Hr _ H) as (p' & E & tkL & tkU & HP). injection E as <-. by eapply post_overflow.
Qed.
Print Assumptions C74_offset_overflow.

(** A cell with 256 neighbours. *)
Definition star : mesh :=
  Mesh [] (replicate 257 1%Qc) [] [] [] [] (replicate 256 0) (seq 1 256) 257 256 0 0 256
    (BoundaryMesh [] [] [] [] [] [] [] [] [] [0]).
Lemma star_topology : valid_topology star.
Proof.
  split; try (vm_compute; reflexivity).
  - intros f Hf. cbn [star faceOwner faceNeighbour nInternalFaces] in *. unfold atn.
    rewrite lookup_replicate_2 by done. rewrite lookup_seq_lt by done.
    match goal with |- default 0 (Some ?a) < default 0 (Some ?b) => change (a < b) end. lia.
  - intros f Hf. cbn [star faceOwner faceNeighbour nInternalFaces nCells] in *. unfold atn.
    rewrite lookup_seq_lt by done.
    match goal with |- default 0 (Some ?a) < ?b => change (a < b) end. lia.
  - intros b Hb. exfalso. cbn in Hb. lia.
  - intros c Hc. cbn [star cellVolumes nCells] in *. unfold at0. rewrite lookup_replicate_2 by done. done.
Qed.
Lemma star_row : 256 < length (row_spec star 0).
Proof. apply (bool_decide_unpack _). vm_compute. reflexivity. Qed.

Theorem C74_large_cells_refuted : ~ forall m e p, valid_topology m -> sp_create e m (Ok p) -> pattern_located m p.
Proof.
  intros H. pose proof (valid_connectivity star star_topology) as Hcn.
  destruct (proj1 (sp_create_good star Hcn SerialExecutor)) as [p Hp].
  destruct (C74_offset_overflow star SerialExecutor p 0 Hcn) as (l & l' & Hl & Hl' & Hne & E).
  { apply (bool_decide_unpack _). vm_compute. reflexivity. }
  { apply star_row. }
  { done. }
  apply Hne. by apply (pl_inj _ _ (H _ _ _ star_topology Hp)).
Qed.
Print Assumptions C74_large_cells_refuted.

Lemma mesh22_connectivity : connectivity mesh22.
Proof. apply valid_connectivity, mesh22_topology. Qed.
Lemma mesh22_fit : rows_fit mesh22.
Proof.
  intros c Hc. simpl in Hc. do 4 (destruct c as [|c]; [apply (bool_decide_unpack _); vm_compute; reflexivity|]). lia.
Qed.
Example C29_instance : forall e, exists p, sp_create e mesh22 (Ok p) /\ pattern_located mesh22 p /\
  row_of p 1 ≡ₚ [1; 3; 0] /\ sp_nnz p = 12.
Proof.
  intros e. destruct (C29_pattern mesh22 e mesh22_connectivity mesh22_fit) as [[p Hp] Hr].
  exists p. destruct (Hr _ Hp) as (p' & E & H1 & H2). injection E as <-. split; [done|]. split; [done|].
  split; [apply (pr_row _ _ H1 1); simpl; lia|]. apply (pr_nnz _ _ H1).
Qed.

(** * C30 *)
Theorem C30_sorted_serial : forall m, valid_topology m -> upper_triangular m ->
  forall r, sp_create SerialExecutor m r ->
  exists p, r = Ok p /\ pattern_rows m p /\ pattern_sorted m p.
Proof.
  intros m Hm Hut r H. pose proof (valid_connectivity m Hm) as Hcn.
  destruct (sp_create_good m Hcn SerialExecutor) as [_ Hr].
  destruct (Hr r H) as (p & -> & tkL & tkU & HP). exists p. split; [done|].
  split; [by eapply post_rows|]. eapply post_sorted; eauto. intros f Hf. by apply (vt_owner m Hm).
Qed.
Print Assumptions C30_sorted_serial.

(** The matrix of an empty linear system built on a pattern. *)
Definition system_on (e : executor) (p : sparsity) : outcome (linsys Qc nat) :=
  createEmptyLinearSystem e (sp_rows p) (sp_nnz p)
    (Fields.mkField e (sp_colIdxs p)) (Fields.mkField e (sp_rowPtrs p)).

Lemma system_on_ok m e p : pattern_rows m p ->
  exists ls, system_on e p = Ok ls /\ csr_ok (l_matrix ls) /\ nRows (l_matrix ls) = nCells m /\
    fdata (a_rows (l_matrix ls)) = sp_rowPtrs p /\ fdata (a_cols (l_matrix ls)) = sp_colIdxs p /\
    Fields.fsize (l_rhs ls) = nCells m.
Proof.
  intros Hp. unfold system_on, createEmptyLinearSystem, csr_new. simpl.
  destruct e; simpl; unfold ls_new, a_exec; simpl; unfold nRows, Fields.fsize; simpl;
    rewrite (pr_rp_len _ _ Hp), replicate_length, (pr_rows _ _ Hp), Nat.add_1_r; simpl;
    rewrite Nat.sub_0_r, Nat.eqb_refl; eexists; (split; [reflexivity|]); simpl;
    (split; [|split; [unfold Fields.fsize; simpl; rewrite (pr_rp_len _ _ Hp), Nat.add_1_r; simpl; lia|by rewrite replicate_length]]);
    (constructor; simpl; [done|apply (pr_rp_0 _ _ Hp)| | |by rewrite replicate_length]);
    [intros i lo hi H1 H2|rewrite last_lookup, (pr_rp_len _ _ Hp), Nat.add_1_r, replicate_length; apply (pr_rp_end _ _ Hp)
    |intros i lo hi H1 H2|rewrite last_lookup, (pr_rp_len _ _ Hp), Nat.add_1_r, replicate_length; apply (pr_rp_end _ _ Hp)
    |intros i lo hi H1 H2|rewrite last_lookup, (pr_rp_len _ _ Hp), Nat.add_1_r, replicate_length; apply (pr_rp_end _ _ Hp)].
  all: pose proof (lookup_lt_Some _ _ _ H2) as Hlt; rewrite (pr_rp_len _ _ Hp) in Hlt;
    pose proof (pr_rp_mono _ _ Hp i ltac:(lia)) as Hm; unfold atn in Hm;
    rewrite Nat.add_1_r, H1, H2 in Hm; simpl in Hm; lia.
Qed.

Lemma sorted_system m p a : pattern_rows m p -> pattern_sorted m p ->
  fdata (a_rows a) = sp_rowPtrs p -> fdata (a_cols a) = sp_colIdxs p -> @sorted_rows Qc a.
Proof.
  intros Hp Hs Hr Hc i j j' k k' (lo & hi & H1 & H2 & Hk & Hj) (lo' & hi' & H1' & H2' & Hk' & Hj') Hkk.
  rewrite Hr in *. rewrite Hc in *. rewrite H1 in H1'. rewrite H2 in H2'. injection H1' as <-. injection H2' as <-.
  pose proof (lookup_lt_Some _ _ _ H2) as Hlt. rewrite (pr_rp_len _ _ Hp) in Hlt.
  assert (Hrow : forall q x, lo <= q < hi -> sp_colIdxs p !! q = Some x -> row_of p i !! (q - lo) = Some x).
  { intros q x Hq Hx. unfold row_of, atn. rewrite Nat.add_1_r, H1, H2. simpl.
    rewrite lookup_take by lia. rewrite lookup_drop. replace (lo + (q - lo)) with q by lia. done. }
  apply (Hs i (k - lo) (k' - lo)); [lia|lia|by apply Hrow|by apply Hrow].
Qed.

(** Looking up the coefficient of any (row, column) of the mesh finds it, and it
    is the slot the pattern's offsets point to. *)
Theorem C30_lookup : forall m p ls l, valid_topology m -> upper_triangular m -> rows_fit m ->
  sp_create SerialExecutor m (Ok p) -> system_on SerialExecutor p = Ok ls -> loc_valid m l ->
  entry (l_matrix ls) (loc_row m l) (loc_col m l) = Ok (loc_slot m p l).
Proof.
  intros m p ls l Hm Hut Hfit H E Hl. pose proof (valid_connectivity m Hm) as Hcn.
  destruct (C30_sorted_serial m Hm Hut _ H) as (p' & E' & Hp & Hs). injection E' as <-.
  destruct (C29_pattern m SerialExecutor Hcn Hfit) as [_ Hr].
  destruct (Hr _ H) as (p' & E' & _ & Hloc). injection E' as <-.
  destruct (system_on_ok m SerialExecutor p Hp) as (ls' & E2 & Hok & Hn & Hrows & Hcols & _).
  rewrite E in E2. injection E2 as <-.
  assert (Hrow : loc_row m l < nCells m) by (by apply loc_row_lt).
  apply C23_sorted; [done|by eapply sorted_system|by rewrite Hn|].
  destruct (pl_in_row _ _ Hloc l Hl) as [Hlo Hhi].
  assert (Hat : forall k, k <= nCells m -> sp_rowPtrs p !! k = Some (atn (sp_rowPtrs p) k)).
  { intros k Hk. destruct (lookup_lt_is_Some_2 (sp_rowPtrs p) k) as [x Hx].
    { rewrite (pr_rp_len _ _ Hp). lia. }
    unfold atn. by rewrite Hx. }
  exists (atn (sp_rowPtrs p) (loc_row m l)), (atn (sp_rowPtrs p) (loc_row m l + 1)).
  rewrite Hrows, Hcols. split; [apply Hat; lia|]. split; [rewrite <- Nat.add_1_r; apply Hat; lia|].
  split; [done|]. by apply (pl_col _ _ Hloc).
Qed.
Print Assumptions C30_lookup.

(** On the parallel executors the order within a row depends on the schedule,
    and lookup by (row, column) can abort. *)
Ltac one_schedule s :=
  right; eexists; split; [exists s; eexists; split; [vm_compute; reflexivity|repeat constructor]|].
Lemma mesh22_other_order : exists p, sp_create CPUExecutor mesh22 (Ok p) /\ row_of p 0 = [0; 2; 1].
Proof.
  eexists. split.
  - unfold sp_create, sp_update.
    one_schedule [0;0;1;1;2;2;3;3].
    exists [[0;1;2;3]], [0]. split; [apply (serial_plan 4)|].
    cbn beta iota. match goal with |- context [segmentsFromIntervals ?a ?b ?c ?d] =>
      let x := eval vm_compute in (segmentsFromIntervals a b c d) in change (segmentsFromIntervals a b c d) with x end.
    cbn beta iota.
    one_schedule [0;1;2;3].
    one_schedule [0;0;0;1;1;1;2;2;2;3;3;3].
    one_schedule [0;0;0;0;1;1;1;1;2;2;2;2;3;3;3;3].
    one_schedule [1;1;1;0;0;0;2;2;2;3;3;3].
    reflexivity.
  - vm_compute. reflexivity.
Qed.
Theorem C30_parallel_order_varies : ~ forall m e p, valid_topology m -> upper_triangular m ->
  sp_create e m (Ok p) -> pattern_sorted m p.
Proof.
  intros H. destruct mesh22_other_order as (p & Hp & Hrow).
  pose proof (H _ _ _ mesh22_topology mesh22_upper Hp 0 1 2 2 1) as Hx. rewrite Hrow in Hx.
  assert (2 < 1); [|lia]. apply Hx; simpl; try lia; reflexivity.
Qed.
Print Assumptions C30_parallel_order_varies.

Example C30_instance : exists p ls, sp_create SerialExecutor mesh22 (Ok p) /\
  system_on SerialExecutor p = Ok ls /\ pattern_sorted mesh22 p /\
  loc_row mesh22 (Lower 2) = 3 /\ loc_col mesh22 (Lower 2) = 1 /\
  entry (l_matrix ls) 3 1 = Ok (loc_slot mesh22 p (Lower 2)).
Proof.
  destruct (C29_pattern mesh22 SerialExecutor mesh22_connectivity mesh22_fit) as [[p Hp] Hr].
  destruct (Hr _ Hp) as (p' & E & H1 & H2). injection E as <-.
  destruct (system_on_ok mesh22 SerialExecutor p H1) as (ls & E & _).
  exists p, ls. split; [done|]. split; [done|].
  destruct (C30_sorted_serial mesh22 mesh22_topology mesh22_upper _ Hp) as (p' & E' & _ & Hs). injection E' as <-.
  split; [done|]. split; [reflexivity|]. split; [reflexivity|].
  apply (C30_lookup mesh22 p ls (Lower 2)); auto using mesh22_topology, mesh22_upper, mesh22_fit. simpl. lia.
Qed.

(** * C31 *)
(** [junk n]: arbitrary contents of the n freshly allocated values. *)
Theorem C31_stencil : forall m e junk, connectivity m -> (forall n, length (junk n) = n) ->
  (exists sg values, computeStencil e m junk (Ok (sg, values))) /\
  forall r, computeStencil e m junk r -> exists sg values, r = Ok (sg, values) /\
    numSegments sg = nCells m /\ seg_size sg = length values /\
    atn (segments sg) 0 = 0 /\
    (forall c, c < nCells m -> atn (segments sg) c <= atn (segments sg) (c + 1)) /\
    atn (segments sg) (nCells m) = length values /\
    forall c, c < nCells m -> segment_values sg values c ≡ₚ cell_faces m c.
Proof.
  intros m e junk Hcn Hj. destruct (stencil_good m Hcn e junk Hj) as [[[sg v] Hx] Hr]. split; [eauto|].
  intros r H. destruct (Hr r H) as ([sg' v'] & -> & H1 & H2 & H3 & H4). exists sg', v'.
  split; [done|]. simpl in *. split; [done|]. split; [by destruct H2|].
  assert (Ha : forall k, k <= nCells m -> atn (segments sg') k = sptr m k).
  { intros k Hk. apply atn_lookup. auto. }
  split; [rewrite Ha by lia; done|]. split; [|split; [|done]].
  - intros c Hc. rewrite !Ha by lia. pose proof (psum_S (slen m) c). unfold sptr. lia.
  - destruct H2 as [_ H2]. rewrite H2. by apply Ha.
Qed.
Print Assumptions C31_stencil.

Theorem C31_each_once : forall m e junk sg values c, valid_topology m -> (forall n, length (junk n) = n) ->
  computeStencil e m junk (Ok (sg, values)) -> c < nCells m ->
  NoDup (segment_values sg values c) /\
  (forall f, f ∈ segment_values sg values c <->
     f < nFaces m /\ (atn (faceOwner m) f = c \/ (f < nInternalFaces m /\ atn (faceNeighbour m) f = c))).
Proof.
  intros m e junk sg values c Hm Hj H Hc.
  destruct (stencil_good m (valid_connectivity m Hm) e junk Hj) as [_ Hr].
  destruct (Hr _ H) as ([sg' v'] & E & _ & _ & _ & H4). injection E as <- <-. simpl in *.
  specialize (H4 c Hc). split; [rewrite H4; by apply cell_faces_NoDup|].
  intros f. rewrite H4. unfold cell_faces, faces_owned, faces_neighboured.
  rewrite !elem_of_app, !elem_of_list_filter, !elem_of_seq, elem_of_list_fmap.
  pose proof (vt_faces m Hm). split.
  - intros [[? ?]|[[? ?]|(b & -> & Hb)]]; [split; [lia|auto]|split; [lia|right; split; [lia|done]]|].
    apply elem_of_list_filter in Hb as [Hb Hb']. apply elem_of_seq in Hb'.
    split; [lia|]. left. rewrite (vt_fc_owner m Hm); [done|lia].
  - intros [Hf [Ho|[Hi Hn]]].
    + destruct (decide (f < nInternalFaces m)); [left; split; [done|lia]|].
      right. right. exists (f - nInternalFaces m). split; [lia|].
      apply elem_of_list_filter. split; [|apply elem_of_seq; lia].
      rewrite <- (vt_fc_owner m Hm) by lia. by replace (nInternalFaces m + (f - nInternalFaces m)) with f by lia.
    + right. left. split; [done|lia].
Qed.
Print Assumptions C31_each_once.

Example C31_instance : forall e, exists sg values,
  computeStencil e mesh22 (fun n => replicate n 7) (Ok (sg, values)) /\
  segment_values sg values 3 ≡ₚ [2; 3; 7; 11] /\ NoDup (segment_values sg values 3).
Proof.
  intros e. assert (Hj : forall n, length (replicate n 7) = n) by (intros n; apply replicate_length).
  destruct (C31_stencil mesh22 e (fun n => replicate n 7) mesh22_connectivity Hj) as [(sg & v & Hx) Hr].
  exists sg, v. split; [done|]. destruct (Hr _ Hx) as (sg' & v' & E & _ & _ & _ & _ & _ & H4). injection E as <- <-.
  split; [apply (H4 3); simpl; lia|].
  apply (C31_each_once mesh22 e (fun n => replicate n 7) sg v 3 mesh22_topology Hj Hx). simpl; lia.
Qed.
