(** What holds instead, for all inputs, of the refuted claims about weights,
    boundary patches, the Courant number and boundary data. *)
From Coq Require Import QArith.Qcabs.
From Verif Require Import Base Par ParProofs Exec ExecProofs Fields Value Kernel KernelProofs Mesh MeshSpec FV FVSpec FVProofs Reduce ReduceProofs
  Dict Boundary BoundaryProofs ExampleMesh Properties_Assembly Properties_Boundary CoNum Properties_CoNum QcLra Geometry Properties_Geometry.

(** * C81: the weight of an internal face is the distance fraction exactly when
    area times distance exceeds 1e-18, or the face is half-way. *)
Theorem C81_weight_exactly : forall e m w w' f sf cf co cn x,
  geometry_sized m -> length w = nFaces m -> updateWeights e m w (Ok w') -> face_geometry m f sf cf co cn ->
  w' !! f = Some x ->
  (x * (dist_own sf cf co + dist_nei sf cf cn) = dist_nei sf cf cn)%Qc <->
  (ROOTVSMALL < dist_own sf cf co + dist_nei sf cf cn)%Qc \/ dist_own sf cf co = dist_nei sf cf cn.
Proof.
  intros e m w w' f sf cf co cn x Hg Hl Hu Hf Hx.
  destruct (C41_weights e m w Hg Hl) as (w1 & Hs & _ & Hw & _). apply Hs in Hu. injection Hu as ->.
  destruct (Hw f sf cf co cn Hf) as (y & Hy & _ & H1 & H2). rewrite Hy in Hx. injection Hx as ->.
  generalize dependent (dist_own sf cf co). generalize dependent (dist_nei sf cf cn). intros n o H2 H1.
  assert (Eh : (Q2Qc (1 # 2) + Q2Qc (1 # 2) = 1)%Qc) by (apply Qc_is_canon; vm_compute; reflexivity).
  destruct (Qclt_le_dec ROOTVSMALL (o + n)) as [Hlt|Hle].
  - split; [by left|]. intros _. by apply H1.
  - rewrite (H2 Hle). split.
    + intros E. right.
      assert (E2 : ((Q2Qc (1 # 2) + Q2Qc (1 # 2)) * (o + n) = n + n)%Qc) by (rewrite Qcmult_plus_distr_l, E; done).
      rewrite Eh in E2. qc_lra.
    + intros [Hlt|E].
      * exfalso. by apply Qclt_not_le in Hlt.
      * rewrite E. replace (Q2Qc (1 # 2) * (n + n))%Qc with ((Q2Qc (1 # 2) + Q2Qc (1 # 2)) * n)%Qc by ring. rewrite Eh. ring.
Qed.
Print Assumptions C81_weight_exactly.

(** Non-vacuity: cells of size 1 and of size 1e-7. *)
Example C81_instance : forall k, (0 < k)%Qc -> exists w' x, geometry_sized (pairMesh k) /\ updateWeights CPUExecutor (pairMesh k) [0%Qc] (Ok w') /\
  face_geometry (pairMesh k) 0 (Vec (k * k) 0 0)%Qc (Vec k 0 0)%Qc (Vec (Q2Qc (1 # 2) * k) 0 0)%Qc (Vec (Q2Qc (5 # 2) * k) 0 0)%Qc /\ w' !! 0 = Some x.
Proof.
  intros k Hk. destruct (C41_weights CPUExecutor (pairMesh k) [0%Qc] (pairMesh_sized k Hk) eq_refl) as (w' & A & L & P & _).
  destruct (P _ _ _ _ _ (pairMesh_face k)) as (x & Ex & _). exists w', x.
  split; [by apply pairMesh_sized|]. split; [by apply A|]. split; [apply pairMesh_face|done].
Qed.

(** * C82: patchEnd() is right exactly for empty patches; the extrapolated helper
    works for surface fields exactly on meshes without boundaries. *)
Theorem C82_patch_end_exactly : forall m id p, offsets_ok m -> patch_create m id = Some p ->
  patchEnd p = patchStart p /\ (patchEnd p = patchStart p + patchSize p <-> patchSize p = 0).
Proof. intros m id p _ _. split; [done|]. unfold patchEnd, patchStart, patchSize. split; intros; lia. Qed.
Print Assumptions C82_patch_end_exactly.

Theorem C82_surface_extrapolated_exactly : forall m, offsets_ok m ->
  (nBoundaries m = 0 -> createExtrapolatedBCs (surfaceBoundary_create m) m = Ok []) /\
  (nBoundaries m <> 0 -> createExtrapolatedBCs (surfaceBoundary_create m) m = Exit).
Proof.
  intros m Ho. split; intros Hn; unfold createExtrapolatedBCs; [by rewrite Hn|].
  apply create_each_exit; [lia|].
  destruct (C43_patches m Ho) as (Hp & _). destruct (Hp 0 ltac:(lia)) as (p & E & _).
  unfold surfaceBoundary_create. rewrite E. reflexivity.
Qed.
Print Assumptions C82_surface_extrapolated_exactly.
(** Both cases occur. *)
Example C82_instance : offsets_ok cell1 /\ nBoundaries cell1 <> 0 /\ offsets_ok mesh0 /\ nBoundaries mesh0 = 0 /\
  exists p q, patch_create cell1 0 = Some p /\ patchSize p = 1 /\ offsets_ok (Mesh [] [] [] [] [] [] [] [] 0 0 0 1 0 (BoundaryMesh [] [] [] [] [] [] [] [] [] [0; 0])) /\
    patch_create (Mesh [] [] [] [] [] [] [] [] 0 0 0 1 0 (BoundaryMesh [] [] [] [] [] [] [] [] [] [0; 0])) 0 = Some q /\ patchSize q = 0.
Proof.
  split. { split; try done. intros [|[|i]] Hi; simpl in Hi; try lia; vm_compute; lia. }
  split; [done|]. split. { split; try done. intros i Hi; simpl in Hi; lia. }
  split; [done|]. eexists _, _. split; [reflexivity|]. split; [reflexivity|]. split.
  { split; try done. intros [|i] Hi; simpl in Hi; try lia; vm_compute; lia. }
  split; reflexivity.
Qed.

(** * C88: on a mesh without cells the serial executor returns 0 and the Kokkos
    executors half the lowest number times dt; the result is non-negative
    exactly when there are cells, or the executor is serial, or dt = 0. *)
Lemma jeval_max_empty lowest f t : jindices t = [] -> jeval qmax lowest f t = lowest.
Proof.
  induction t as [is|l IHl r IHr]; simpl; [by intros ->|]. intros E. apply app_eq_nil in E as [E1 E2].
  rewrite (IHl E1), (IHr E2). unfold qmax. by destruct (Qclt_le_dec lowest lowest).
Qed.
Definition without_cells (lowest : Qc) (e : executor) : Qc := match e with SerialExecutor => 0%Qc | _ => lowest end.
Lemma reduce_empty lowest f e x : parallelReduce qmax lowest f e 0 0 0%Qc x <-> x = without_cells lowest e.
Proof.
  assert (Hk : reduce_kokkos qmax lowest f 0 0 x <-> x = lowest).
  { split.
    - intros (t & Ht & ->). apply jeval_max_empty. simpl in Ht. by apply Permutation_nil.
    - intros ->. by exists (Piece []). }
  destruct e; simpl; done.
Qed.
Theorem C88_courant_exactly : forall m lowest flux dt e junk bv br bf bg,
  valid_topology m -> offsets_ok m -> length flux = nFaces m -> (0 <= dt)%Qc -> (lowest < 0)%Qc -> length junk = nCells m ->
  exists co mean, (forall o, computeCoNum lowest e m flux dt junk bv br bf bg o <-> o = Ok (co, mean)) /\
    (nCells m = 0 -> co = (dt / Q2Qc 2 * without_cells lowest e)%Qc) /\
    ((0 <= co)%Qc <-> 0 < nCells m \/ e = SerialExecutor \/ dt = 0%Qc).
Proof.
  intros m lowest flux dt e junk bv br bf bg Hm Ho Hflux Hdt Hlow Hj.
  destruct (decide (nCells m = 0)) as [Hz|Hz].
  2:{ destruct (C50_courant m lowest flux dt) as (co & _ & Hco & H); try done; [lia|].
      exists co, (mean_courant m flux dt). split; [by apply H|]. split; [done|]. split; [left; lia|done]. }
  destruct (C43_calculated m Ho) as (ps & _ & _ & Hbcs & _ & _ & Hnop).
  destruct (accumulated m Hm flux Hflux e junk Hj) as (vp & Hl & Hacc & Hvp).
  assert (Ehalf : forall x y, (x * (1 / (1 + 1)) * y = y / Q2Qc 2 * x)%Qc).
  { intros x y. replace (1 + 1)%Qc with (Q2Qc 2) by (apply Qc_is_canon; reflexivity). unfold Qcdiv. ring. }
  exists (dt / Q2Qc 2 * without_cells lowest e)%Qc, (dt / Q2Qc 2 * (0 / 0))%Qc. split; [|split; [done|]].
  - intros o. unfold computeCoNum. rewrite Hbcs.
    assert (Hred : forall o, co_reduce lowest e m vp dt o <-> o = Ok (dt / Q2Qc 2 * without_cells lowest e, dt / Q2Qc 2 * (0 / 0))%Qc).
    { intros o'. unfold co_reduce. rewrite decide_True by (rewrite Hl, (vt_vol_len m Hm); lia). rewrite Hz. split.
      - intros (a & s & v & Ha & Hs & Hv & ->). apply reduce_empty in Ha as ->. apply reduce_sum in Hs as ->. apply reduce_sum in Hv as ->.
        rewrite Ehalf, (Qcmult_comm (1 / (1 + 1))), Ehalf. done.
      - intros ->. exists (without_cells lowest e), 0%Qc, 0%Qc. split; [by apply reduce_empty|].
        split; [by apply reduce_sum|]. split; [by apply reduce_sum|]. rewrite Ehalf, (Qcmult_comm (1 / (1 + 1))), Ehalf. done. }
    split.
    + intros [[Hr _]|(v & Hv & [[Hr _]|(p & Hp & Hr)])].
      * by apply Hacc in Hr.
      * by apply Hnop in Hr.
      * apply Hacc in Hv. injection Hv as ->. apply Hnop in Hp. injection Hp as ->. simpl in Hr. by apply Hred.
    + intros ->. right. exists vp. split; [by apply Hacc|]. right. eexists. split; [by apply Hnop|]. simpl. by apply Hred.
  - rewrite Hz. split.
    + intros Hco. right. destruct e; [by left| |]; right.
      all: simpl in Hco; destruct (Qc_eq_dec dt 0%Qc) as [|Hne]; [done|exfalso].
      all: assert (Hpos : (0 < dt)%Qc) by (destruct (Qcle_lt_or_eq _ _ Hdt) as [|E]; [done|exfalso; apply Hne; by symmetry]).
      all: assert (Hp : (0 < dt / Q2Qc 2)%Qc) by (unfold Qcdiv; replace 0%Qc with (0 * / Q2Qc 2)%Qc by ring; apply Qcmult_lt_compat_r; [reflexivity|done]).
      all: clear Hdt; revert Hco Hp; generalize (dt / Q2Qc 2)%Qc; intros q Hco Hp.
      all: apply (Qcmult_lt_compat_r lowest 0%Qc q Hp) in Hlow; rewrite Qcmult_0_l, Qcmult_comm in Hlow.
      all: by apply Qclt_not_le in Hlow.
    + intros [H|[->| ->]]; [lia| |].
      * simpl. rewrite Qcmult_0_r. apply Qcle_refl.
      * unfold Qcdiv. rewrite !Qcmult_0_l. apply Qcle_refl.
Qed.
Print Assumptions C88_courant_exactly.
(** The mesh without cells meets the hypotheses. *)
Example C88_instance : valid_topology mesh0 /\ offsets_ok mesh0 /\ nCells mesh0 = 0 /\ length (@nil Qc) = nFaces mesh0.
Proof.
  split. { split; try done; intros f Hf; simpl in Hf; lia. }
  split. { split; try done. intros i Hi. simpl in Hi. lia. }
  done.
Qed.

(** * C89: boundary data copied to an executor reports the executor of the source;
    a geometric field keeps the data of the domain field it is made from where
    it was; patch ranges can be asked for exactly off the GPU. *)
Theorem C89_exec_exactly : forall V (e : executor) (src : boundaryFields V),
  bf_exec (bf_copy_to e src) = bf_exec src /\ (bf_exec (bf_copy_to e src) = e <-> bf_exec src = e) /\ boundary_on e src (bf_copy_to e src).
Proof. intros V e src. split; [done|]. split; [done|]. apply C51_data. Qed.
Print Assumptions C89_exec_exactly.
Theorem C89_geometric_field_exactly : forall V (e : executor) (d : domainField V),
  gf_exec (gf_from_domain e d) = e /\ fexec (df_internal (gf_field (gf_from_domain e d))) = fexec (df_internal d) /\
  fdata (df_internal (gf_field (gf_from_domain e d))) = fdata (df_internal d) /\
  fexec (bf_value (df_boundary (gf_field (gf_from_domain e d)))) = fexec (bf_value (df_boundary d)).
Proof. intros V e d. done. Qed.
Print Assumptions C89_geometric_field_exactly.
Theorem C89_range_exactly : forall V (e : executor) offsets (b : boundaryFields V) i, bf_new e offsets (Ok b) -> i < bf_nBoundaries b ->
  (exists s t, bf_range b i = Ok (s, t)) <-> e <> GPUExecutor.
Proof.
  intros V e offsets b i Hb Hi.
  destruct (C51_new V e offsets b Hb) as (_ & _ & _ & _ & _ & _ & _ & _ & _ & _ & _ & _ & [Ho _] & Hr). split.
  - intros (s & t & E) ->. unfold bf_range in E. rewrite Ho in E. done.
  - intros He. destruct (Hr He i Hi) as (s & t & _ & _ & E). by exists s, t.
Qed.
Print Assumptions C89_range_exactly.

Example C89_instance : exists b, bf_new SerialExecutor [0; 1; 3] (Ok b : outcome (boundaryFields Qc)) /\ 1 < bf_nBoundaries b /\
  exists s t, bf_range b 1 = Ok (s, t).
Proof. eexists. split; [apply C51_instance|]. split; [simpl; lia|]. do 2 eexists. reflexivity. Qed.
