(** C34, C35, C36, C38: implicit operators.

    [p] is a sparsity pattern of the mesh (C29 shows that the constructor yields
    one), [values], [rhs] the system before the operator is applied, and
    [residual p values rhs x c] is (A x - b) at cell c. *)
From Verif Require Import Base Par Exec Reduce ReduceProofs Value Kernel KernelProofs Ticket Mesh MeshSpec Coeff FV FVSpec FVProofs FVProps
  Sparsity SparsitySpec SparsityMain SparsityProps Assembly AssemblySpec AssemblyProofs AssemblyProps ExampleMesh Properties_Sparsity.

(** * C34 *)
(** For every vector [x], applying the implicit divergence adds to A x - b the net
    outward flux of the upwind face values of x, times the scaling. *)
Theorem C34_residual : forall {V} `{ValueLaws V} `{!ValueUnit V} `{!UnitLaws V} m p,
  valid_topology m -> pattern_rows m p -> pattern_located m p ->
  forall e flux (phi : volField V) scaling values rhs, no_boundary_race e m ->
  length flux = nFaces m -> boundary_ok m phi -> coeff_ok scaling (nCells m) -> sys_ok m p values rhs ->
  exists values' rhs', always (computeDivImp e m p (sp_rowPtrs p) flux phi scaling [values; rhs]) [values'; rhs'] /\
    sys_ok m p values' rhs' /\
    forall x c, c < nCells m -> residual p values' rhs' x c = vadd (residual p values rhs x c)
      (vscale (coeff_val scaling c)
        (cell_balance m (fun f => vscale (at0 flux f) (implicit_face_value m (with_int phi x) flux f)) c)).
Proof.
  intros V ? ? ? ? m p Hm Hp Hpl e flux phi scaling values rhs Hr Hfl Hb Hsc Hs.
  destruct (div_assembled m Hm p Hp Hpl flux phi scaling Hfl Hb Hsc e values rhs Hr Hs) as (v' & r' & H1 & H2 & _ & H3).
  eauto.
Qed.
Print Assumptions C34_residual.

Lemma volume_cancel {V} `{ValueLaws V} m scaling c (y : V) : valid_topology m -> c < nCells m ->
  vscale (at0 (cellVolumes m) c) (per_volume m scaling c y) = vscale (coeff_val scaling c) y.
Proof.
  intros Hm Hc. unfold per_volume. rewrite <- vscale_mul. f_equal. field. by apply vol_nz.
Qed.

Definition zero_system {V} `{ValueType V} (m : mesh) (p : sparsity) : list (list V) :=
  [replicate (sp_nnz p) vzero; replicate (nCells m) vzero].
Lemma zero_residual {V} `{ValueLaws V} `{!ValueUnit V} `{!UnitLaws V} m p (x : list V) c :
  residual p (replicate (sp_nnz p) vzero) (replicate (nCells m) vzero) x c = vzero.
Proof.
  unfold residual, mat_row. rewrite vsum_map_zero; [|intros k _].
  - rewrite atV_zero. unfold vsub. by rewrite vadd_neg.
  - rewrite atV_zero. assert (E : forall y : V, vmul vzero y = vzero); [|apply E].
    intros y. rewrite <- (vscale_0_l (vone : V)), vmul_scale_l. rewrite !vscale_0_l. done.
Qed.
Lemma zero_sys_ok {V} `{ValueType V} m p :
  sys_ok m p (replicate (sp_nnz p) (vzero : V)) (replicate (nCells m) vzero).
Proof. split; apply replicate_length. Qed.

Lemma div_from_zero {V} `{ValueLaws V} `{!ValueUnit V} `{!UnitLaws V} m p :
  valid_topology m -> pattern_rows m p -> pattern_located m p ->
  forall e flux (phi : volField V) scaling, no_boundary_race e m ->
  length flux = nFaces m -> boundary_ok m phi -> coeff_ok scaling (nCells m) ->
  exists values rhs, always (computeDivImp e m p (sp_rowPtrs p) flux phi scaling (zero_system m p)) [values; rhs] /\
    forall x c, c < nCells m -> residual p values rhs x c = vscale (coeff_val scaling c)
        (cell_balance m (fun f => vscale (at0 flux f) (implicit_face_value m (with_int phi x) flux f)) c).
Proof.
  intros Hm Hp Hpl e flux phi scaling Hr Hfl Hb Hsc.
  destruct (C34_residual m p Hm Hp Hpl e flux phi scaling _ _ Hr Hfl Hb Hsc (zero_sys_ok m p)) as (v' & r' & H1 & _ & H3).
  exists v', r'. split; [exact H1|]. intros x c Hc. by rewrite H3, zero_residual, vadd_0_l.
Qed.

(** Where the boundary values are those of a mixed condition without gradient
    part (fixed value, zero gradient, ...), the system assembled from zero has
    A phi - b = V * explicit upwind divergence. *)
Theorem C34_matches_explicit : forall {V} `{ValueLaws V} `{!ValueUnit V} `{!UnitLaws V} m p,
  valid_topology m -> pattern_rows m p -> pattern_located m p ->
  forall e flux weights (phi : volField V) scaling, no_boundary_race e m ->
  length flux = nFaces m -> boundary_ok m phi -> coeff_ok scaling (nCells m) ->
  (forall b, b < nBoundaryFaces m -> at0 weights (nInternalFaces m + b) = 1%Qc /\
     atV (vf_value phi) b = vadd (vscale (at0 (vf_valueFraction phi) b) (atV (vf_refValue phi) b))
       (vscale (1 - at0 (vf_valueFraction phi) b)%Qc (at_face_cell m phi b))) ->
  exists values rhs, always (computeDivImp e m p (sp_rowPtrs p) flux phi scaling (zero_system m p)) [values; rhs] /\
    forall c, c < nCells m -> residual p values rhs (vf_int phi) c =
      vscale (at0 (cellVolumes m) c) (div_spec m Upwind flux weights phi scaling c).
Proof.
  intros V ? ? ? ? m p Hm Hp Hpl e flux weights phi scaling Hr Hfl Hb Hsc Hbd.
  destruct (C34_residual m p Hm Hp Hpl e flux phi scaling _ _ Hr Hfl Hb Hsc (zero_sys_ok m p)) as (v' & r' & H1 & _ & H3).
  exists v', r'. split; [exact H1|]. intros c Hc. rewrite H3, zero_residual, vadd_0_l by done.
  unfold div_spec. rewrite volume_cancel by done. f_equal. apply (cell_balance_ext m Hm). intros f Hf. f_equal.
  unfold implicit_face_value, face_value. destruct (decide (f < nInternalFaces m)); [done|].
  pose proof (vt_faces m Hm). destruct (Hbd (f - nInternalFaces m)) as [Hw Hv]; [lia|].
  replace (nInternalFaces m + (f - nInternalFaces m)) with f in Hw by lia. rewrite Hw, Hv, vscale_1. done.
Qed.
Print Assumptions C34_matches_explicit.

(** A single cell with two boundary faces, and its pattern. *)
Definition cell1 : mesh :=
  Mesh [] [1%Qc] [Vec 0 0 0] [Vec (-(1)) 0 0; Vec 1 0 0] [] [1%Qc; 1%Qc] [0; 0] [] 1 0 2 2 2
    (BoundaryMesh [0; 0] [] [] [] [] [] [] [] [] [0; 1; 2]).
Lemma cell1_topology : valid_topology cell1.
Proof.
  split; try done; try (intros f Hf; simpl in Hf; lia).
  - intros [|[|b]] Hb; simpl in Hb; try lia; vm_compute; lia.
  - intros [|[|b]] Hb; simpl in Hb; try lia; reflexivity.
Qed.
Definition pat1 : sparsity := Sparsity [0; 1] [0] [] [] [0].
Lemma pat1_created : sp_create CPUExecutor cell1 (Ok pat1).
Proof.
  unfold sp_create, sp_update.
  one_schedule (@nil nat).
  exists [[0]], [0]. split; [apply (serial_plan 1)|].
  cbn beta iota. match goal with |- context [segmentsFromIntervals ?a ?b ?c ?d] =>
    let x := eval vm_compute in (segmentsFromIntervals a b c d) in change (segmentsFromIntervals a b c d) with x end.
  cbn beta iota.
  one_schedule [0]. one_schedule (@nil nat). one_schedule [0; 0; 0; 0]. one_schedule (@nil nat). reflexivity.
Qed.
Lemma cell1_fit : rows_fit cell1.
Proof. intros c Hc. assert (c = 0) as -> by (simpl in Hc; lia). vm_compute. lia. Qed.
Lemma pat1_ok : pattern_rows cell1 pat1 /\ pattern_located cell1 pat1.
Proof.
  destruct (C29_pattern cell1 CPUExecutor (valid_connectivity _ cell1_topology) cell1_fit) as [_ H].
  destruct (H _ pat1_created) as (p & E & ? & ?). injection E as <-. done.
Qed.

(** On a patch with a prescribed gradient the implicit operator leaves the
    gradient out (gaussGreenDiv.cpp:224-226): A phi - b is not V div(phi), with
    face value vf*ref + (1-vf)*(phi_cell + grad/deltaCoeff). *)
Theorem C76_gradient_boundary_refuted : ~ forall m p e flux weights dc (phi : volField Qc) values rhs,
  valid_topology m -> pattern_rows m p -> pattern_located m p -> no_boundary_race e m ->
  length flux = nFaces m -> boundary_ok m phi ->
  (forall b, b < nBoundaryFaces m -> at0 weights (nInternalFaces m + b) = 1%Qc /\
     at0 (vf_value phi) b = (at0 (vf_valueFraction phi) b * at0 (vf_refValue phi) b +
       (1 - at0 (vf_valueFraction phi) b) * (at_face_cell m phi b + at0 (vf_refGrad phi) b / at0 dc (nInternalFaces m + b)))%Qc) ->
  computeDivImp e m p (sp_rowPtrs p) flux phi coeff_default (zero_system m p) (Some [values; rhs]) ->
  forall c, c < nCells m -> residual p values rhs (vf_int phi) c =
      vscale (at0 (cellVolumes m) c) (div_spec m Upwind flux weights phi coeff_default c).
Proof.
  intros H. destruct pat1_ok as [Hp Hpl].
  set (phi := VolField [1%Qc] [Q2Qc 3; 1%Qc] [0; 0]%Qc [0; 0]%Qc [Q2Qc 2; 0%Qc]).
  destruct (div_from_zero cell1 pat1 cell1_topology Hp Hpl SerialExecutor [1%Qc; 1%Qc] phi coeff_default)
    as (v & r & Hv & Hres); try done; [by left|].
  specialize (H cell1 pat1 SerialExecutor [1%Qc; 1%Qc] [1%Qc; 1%Qc] [1%Qc; 1%Qc] phi v r cell1_topology Hp Hpl).
  specialize (Hres (vf_int phi) 0 ltac:(simpl; lia)).
  rewrite (H ltac:(by left) eq_refl ltac:(done)) with (c := 0) in Hres.
  - apply (f_equal this) in Hres. vm_compute in Hres. discriminate.
  - intros [|[|b]] Hb; [..|simpl in Hb; lia]; (split; [reflexivity|apply Qc_is_canon; reflexivity]).
  - by apply Hv.
  - simpl. lia.
Qed.
Print Assumptions C76_gradient_boundary_refuted.

(** The implicit operator is always upwind, whatever interpolation scheme the
    divergence was configured with. *)
Theorem C76_scheme_ignored_refuted : ~ forall m p e s flux weights (phi : volField Qc) values rhs,
  valid_topology m -> pattern_rows m p -> pattern_located m p -> no_boundary_race e m ->
  length flux = nFaces m -> boundary_ok m phi ->
  (forall b, b < nBoundaryFaces m -> at0 weights (nInternalFaces m + b) = 1%Qc /\
     at0 (vf_value phi) b = (at0 (vf_valueFraction phi) b * at0 (vf_refValue phi) b +
       (1 - at0 (vf_valueFraction phi) b) * at_face_cell m phi b)%Qc) ->
  computeDivImp e m p (sp_rowPtrs p) flux phi coeff_default (zero_system m p) (Some [values; rhs]) ->
  forall c, c < nCells m -> residual p values rhs (vf_int phi) c =
      vscale (at0 (cellVolumes m) c) (div_spec m s flux weights phi coeff_default c).
Proof.
  intros H. destruct (C29_pattern mesh22 SerialExecutor mesh22_connectivity mesh22_fit) as [[p Hc] Hr].
  destruct (Hr _ Hc) as (p' & E & Hp & Hpl). injection E as <-.
  set (phi := VolField [1; 0; 0; 0]%Qc (replicate 8 0%Qc) (replicate 8 0%Qc) (replicate 8 1%Qc) (replicate 8 0%Qc)).
  set (fl := (replicate 4 1%Qc ++ replicate 8 0%Qc)). set (ws := replicate 4 half ++ replicate 8 1%Qc).
  destruct (div_from_zero mesh22 p mesh22_topology Hp Hpl SerialExecutor fl phi coeff_default)
    as (v & r & Hv & Hres); try done; [by left|].
  specialize (H mesh22 p SerialExecutor Linear fl ws phi v r mesh22_topology Hp Hpl).
  specialize (Hres (vf_int phi) 0 ltac:(simpl; lia)).
  rewrite (H ltac:(by left) eq_refl ltac:(done)) with (c := 0) in Hres.
  - apply (f_equal this) in Hres. vm_compute in Hres. discriminate.
  - intros b Hb. do 8 (destruct b as [|b]; [split; [reflexivity|apply Qc_is_canon; reflexivity]|]). simpl in Hb; lia.
  - by apply Hv.
  - simpl. lia.
Qed.
Print Assumptions C76_scheme_ignored_refuted.

Example C34_instance : exists p v r, sp_create CPUExecutor mesh22 (Ok p) /\
  computeDivImp SerialExecutor mesh22 p (sp_rowPtrs p) (replicate 12 1%Qc)
    (VolField [1; 0; 0; 0]%Qc (replicate 8 0%Qc) (replicate 8 0%Qc) (replicate 8 1%Qc) (replicate 8 0%Qc))
    coeff_default (zero_system mesh22 p) (Some [v; r]) /\
  residual p v r [1; 0; 0; 0]%Qc 0 = Q2Qc 2 /\ residual p v r [1; 0; 0; 0]%Qc 1 = (- (1))%Qc /\
  residual p v r [1; 0; 0; 0]%Qc 3 = 0%Qc.
Proof.
  destruct (C29_pattern mesh22 CPUExecutor mesh22_connectivity mesh22_fit) as [[p Hc] Hr].
  destruct (Hr _ Hc) as (p' & E & Hp & Hpl). injection E as <-.
  destruct (div_from_zero mesh22 p mesh22_topology Hp Hpl SerialExecutor (replicate 12 1%Qc)
    (VolField [1; 0; 0; 0]%Qc (replicate 8 0%Qc) (replicate 8 0%Qc) (replicate 8 1%Qc) (replicate 8 0%Qc))
    coeff_default) as (v & r & Hv & Hres); try done; [by left|].
  exists p, v, r. split; [done|]. split; [by apply Hv|].
  rewrite !Hres by (simpl; lia).
  split; [|split]; apply Qc_is_canon; vm_compute; reflexivity.
Qed.

(** * C35 *)
Lemma system_unique {V} `{ValueLaws V} `{!ValueUnit V} `{!UnitLaws V} m p (v r v' r' : list V) :
  pattern_located m p -> sys_ok m p v r -> sys_ok m p v' r' ->
  (forall l, loc_valid m l -> atV v (loc_slot m p l) = atV v' (loc_slot m p l)) ->
  (forall x c, c < nCells m -> residual p v r x c = residual p v' r' x c) -> v = v' /\ r = r'.
Proof.
  intros Hpl [L1 L2] [L3 L4] Hv Hres.
  assert (v = v') as ->.
  { apply (list_eq_same_length _ _ (length v)); [lia|lia|]. intros k x y Hk E1 E2.
    destruct (pl_onto m p Hpl k) as (l & Hl & <-); [lia|]. specialize (Hv l Hl).
    unfold atV in Hv. rewrite E1, E2 in Hv. exact Hv. }
  split; [done|]. apply (list_eq_same_length _ _ (length r)); [lia|lia|]. intros c x y Hc E1 E2.
  specialize (Hres [] c ltac:(lia)). unfold residual, atV in Hres. rewrite E1, E2 in Hres. simpl in Hres.
  set (a := mat_row p v' [] c) in Hres.
  assert (E : vadd (vsub a x) (vneg a) = vadd (vsub a y) (vneg a)) by (by rewrite Hres).
  assert (E' : forall z, vneg (vadd (vsub a z) (vneg a)) = z).
  { intros z. unfold vsub. rewrite (vadd_comm a (vneg z)), <- vadd_assoc, vadd_neg, vadd_0_r. apply vneg_neg. }
  rewrite <- (E' x), E. apply E'.
Qed.

(** When no cell has two boundary faces, every schedule of the parallel executor
    gives the serial matrix and right-hand side, and there is no undefined
    behaviour. *)
Theorem C35_div_schedule_independent : forall {V} `{ValueLaws V} `{!ValueUnit V} `{!UnitLaws V} m p,
  valid_topology m -> pattern_rows m p -> pattern_located m p ->
  forall e flux (phi : volField V) scaling values rhs r r', boundary_once m ->
  length flux = nFaces m -> boundary_ok m phi -> coeff_ok scaling (nCells m) -> sys_ok m p values rhs ->
  computeDivImp SerialExecutor m p (sp_rowPtrs p) flux phi scaling [values; rhs] r ->
  computeDivImp e m p (sp_rowPtrs p) flux phi scaling [values; rhs] r' -> r = r' /\ r <> None.
Proof.
  intros V ? ? ? ? m p Hm Hp Hpl e flux phi scaling values rhs r r' Ho Hfl Hb Hsc Hs H1 H2.
  destruct (div_assembled m Hm p Hp Hpl flux phi scaling Hfl Hb Hsc SerialExecutor values rhs ltac:(by left) Hs) as (v & s & Ha & A1 & A2 & A3).
  destruct (div_assembled m Hm p Hp Hpl flux phi scaling Hfl Hb Hsc e values rhs ltac:(by right) Hs) as (v' & s' & Ha' & B1 & B2 & B3).
  apply Ha in H1 as ->. apply Ha' in H2 as ->. split; [|done].
  destruct (system_unique m p v s v' s') as [-> ->]; try done.
  - intros l Hl. by rewrite A2, B2.
  - intros x c Hc. by rewrite A3, B3.
Qed.
Print Assumptions C35_div_schedule_independent.

Theorem C35_laplacian_schedule_independent : forall {V} `{ValueLaws V} `{!ValueUnit V} `{!UnitLaws V} m p,
  valid_topology m -> pattern_rows m p -> pattern_located m p ->
  forall e dc gamma (phi : volField V) scaling values rhs r r', boundary_once m ->
  length dc = nFaces m -> length gamma = nFaces m -> length (magFaceAreas m) = nFaces m ->
  boundary_ok m phi -> coeff_ok scaling (nCells m) -> sys_ok m p values rhs ->
  computeLaplacianImpl SerialExecutor m p (sp_rowPtrs p) dc gamma phi scaling [values; rhs] r ->
  computeLaplacianImpl e m p (sp_rowPtrs p) dc gamma phi scaling [values; rhs] r' -> r = r' /\ r <> None.
Proof.
  intros V ? ? ? ? m p Hm Hp Hpl e dc gamma phi scaling values rhs r r' Ho Hdc Hg Hmag Hb Hsc Hs H1 H2.
  destruct (lap_assembled m Hm p Hp Hpl dc gamma phi scaling Hdc Hg Hmag Hb Hsc SerialExecutor values rhs ltac:(by left) Hs) as (v & s & Ha & A1 & A2 & A3).
  destruct (lap_assembled m Hm p Hp Hpl dc gamma phi scaling Hdc Hg Hmag Hb Hsc e values rhs ltac:(by right) Hs) as (v' & s' & Ha' & B1 & B2 & B3).
  apply Ha in H1 as ->. apply Ha' in H2 as ->. split; [|done].
  destruct (system_unique m p v s v' s') as [-> ->]; try done.
  - intros l Hl. by rewrite A2, B2.
  - intros x c Hc. by rewrite A3, B3.
Qed.
Print Assumptions C35_laplacian_schedule_independent.

(** Without that restriction the boundary loop races (plain += on the diagonal
    and -= on the right-hand side, gaussGreenDiv.cpp:222-227,
    gaussGreenLaplacian.cpp:166-172): one cell with two boundary faces loses an update. *)
Definition phi1 : volField Qc := VolField [1%Qc] [1; 1]%Qc [0; 0]%Qc [0; 0]%Qc [0; 0]%Qc.
Definition phi1' : volField Qc := VolField [1%Qc] [1; 1]%Qc [0; 0]%Qc [1; 1]%Qc [0; 0]%Qc.
Lemma div_race : exists v r, computeDivImp CPUExecutor cell1 pat1 (sp_rowPtrs pat1) [1; 1]%Qc phi1 coeff_default
    (zero_system cell1 pat1) (Some [v; r]) /\ residual pat1 v r [1%Qc] 0 = 1%Qc.
Proof.
  eexists _, _. split.
  - unfold computeDivImp, pseq. one_schedule (@nil nat).
    eexists [0; 1; 0; 1; 0; 1; 0; 1], _. split; [vm_compute; reflexivity|repeat constructor].
  - apply Qc_is_canon. vm_compute. reflexivity.
Qed.
Theorem C77_div_race_refuted : ~ forall m p e flux (phi : volField Qc) values rhs r r',
  valid_topology m -> sp_create e m (Ok p) -> length flux = nFaces m -> boundary_ok m phi -> sys_ok m p values rhs ->
  computeDivImp SerialExecutor m p (sp_rowPtrs p) flux phi coeff_default [values; rhs] r ->
  computeDivImp e m p (sp_rowPtrs p) flux phi coeff_default [values; rhs] r' -> r = r'.
Proof.
  intros H. destruct pat1_ok as [Hp Hpl]. destruct div_race as (v & r & Hv & Hx).
  destruct (div_from_zero cell1 pat1 cell1_topology Hp Hpl SerialExecutor [1; 1]%Qc phi1 coeff_default)
    as (v' & r' & Hv' & Hres); try done; [by left|].
  assert (E : Some [v'; r'] = Some [v; r]).
  { refine (H _ _ _ _ _ _ _ _ _ cell1_topology pat1_created _ _ (zero_sys_ok cell1 pat1) _ Hv); try done. by apply Hv'. }
  injection E as -> ->. rewrite Hres in Hx by (simpl; lia).
  apply (f_equal this) in Hx. vm_compute in Hx. discriminate.
Qed.
Print Assumptions C77_div_race_refuted.

Definition cell1_dc : list Qc := [1; 1]%Qc.
Lemma lap_from_zero {V} `{ValueLaws V} `{!ValueUnit V} `{!UnitLaws V} m p :
  valid_topology m -> pattern_rows m p -> pattern_located m p ->
  forall e dc gamma (phi : volField V) scaling, no_boundary_race e m ->
  length dc = nFaces m -> length gamma = nFaces m -> length (magFaceAreas m) = nFaces m ->
  boundary_ok m phi -> coeff_ok scaling (nCells m) ->
  exists values rhs, always (computeLaplacianImpl e m p (sp_rowPtrs p) dc gamma phi scaling (zero_system m p)) [values; rhs] /\
    forall x c, c < nCells m -> residual p values rhs x c = vscale (coeff_val scaling c)
        (cell_balance m (fun f => vscale (at0 gamma f * at0 (magFaceAreas m) f)%Qc (implicit_normal_gradient m (with_int phi x) dc f)) c).
Proof.
  intros Hm Hp Hpl e dc gamma phi scaling Hr Hdc Hg Hmag Hb Hsc.
  destruct (lap_assembled m Hm p Hp Hpl dc gamma phi scaling Hdc Hg Hmag Hb Hsc e _ _ Hr (zero_sys_ok m p)) as (v' & r' & H1 & _ & _ & H3).
  exists v', r'. split; [exact H1|]. intros x c Hc. by rewrite H3, zero_residual, vadd_0_l.
Qed.
Lemma lap_race : exists v r, computeLaplacianImpl CPUExecutor cell1 pat1 (sp_rowPtrs pat1) cell1_dc [1; 1]%Qc phi1' coeff_default
    (zero_system cell1 pat1) (Some [v; r]) /\ residual pat1 v r [1%Qc] 0 = (-(1))%Qc.
Proof.
  eexists _, _. split.
  - unfold computeLaplacianImpl, pseq. one_schedule (@nil nat).
    eexists [0; 1; 0; 1; 0; 1; 0; 1], _. split; [vm_compute; reflexivity|repeat constructor].
  - apply Qc_is_canon. vm_compute. reflexivity.
Qed.
Theorem C77_laplacian_race_refuted : ~ forall m p e dc gamma (phi : volField Qc) values rhs r r',
  valid_topology m -> sp_create e m (Ok p) -> length dc = nFaces m -> length gamma = nFaces m ->
  length (magFaceAreas m) = nFaces m -> boundary_ok m phi -> sys_ok m p values rhs ->
  computeLaplacianImpl SerialExecutor m p (sp_rowPtrs p) dc gamma phi coeff_default [values; rhs] r ->
  computeLaplacianImpl e m p (sp_rowPtrs p) dc gamma phi coeff_default [values; rhs] r' -> r = r'.
Proof.
  intros H. destruct pat1_ok as [Hp Hpl]. destruct lap_race as (v & r & Hv & Hx).
  destruct (lap_from_zero cell1 pat1 cell1_topology Hp Hpl SerialExecutor cell1_dc [1; 1]%Qc phi1' coeff_default)
    as (v' & r' & Hv' & Hres); try done; [by left|].
  assert (E : Some [v'; r'] = Some [v; r]).
  { refine (H _ _ _ _ _ _ _ _ _ _ cell1_topology pat1_created _ _ _ _ (zero_sys_ok cell1 pat1) _ Hv); try done. by apply Hv'. }
  injection E as -> ->. rewrite Hres in Hx by (simpl; lia).
  apply (f_equal this) in Hx. vm_compute in Hx. discriminate.
Qed.
Print Assumptions C77_laplacian_race_refuted.

(** A mesh with an internal face on which no cell has two boundary faces. *)
Definition row2 : mesh :=
  Mesh [] [1; 1]%Qc [Vec 0 0 0; Vec 1 0 0] [Vec 1 0 0; Vec (-(1)) 0 0; Vec 1 0 0] [] [1; 1; 1]%Qc [0; 0; 1] [1] 2 1 2 2 3
    (BoundaryMesh [0; 1] [] [] [] [] [] [] [] [] [0; 1; 2]).
Lemma row2_topology : valid_topology row2.
Proof.
  split; try done.
  - intros [|f] Hf; simpl in Hf; try lia. vm_compute. lia.
  - intros [|f] Hf; simpl in Hf; try lia. vm_compute. lia.
  - intros [|[|b]] Hb; simpl in Hb; try lia; vm_compute; lia.
  - intros [|[|b]] Hb; simpl in Hb; try lia; reflexivity.
Qed.
Example C35_instance : boundary_once row2 /\
  exists p v r, sp_create CPUExecutor row2 (Ok p) /\
  computeDivImp CPUExecutor row2 p (sp_rowPtrs p) [1; 1; 1]%Qc
    (VolField [1; 0]%Qc [0; 0]%Qc [1; 1]%Qc [1; 0]%Qc [0; 0]%Qc) coeff_default (zero_system row2 p) (Some [v; r]) /\
  residual p v r [1; 0]%Qc 0 = Q2Qc 2 /\ residual p v r [1; 0]%Qc 1 = (-(1))%Qc.
Proof.
  assert (Ho : boundary_once row2).
  { intros [|[|b]] [|[|b']] Hb Hb' E; simpl in Hb, Hb'; try lia; vm_compute in E; lia. }
  split; [done|].
  assert (Hf : rows_fit row2). { intros [|[|c]] Hc; simpl in Hc; try lia; vm_compute; lia. }
  destruct (C29_pattern row2 CPUExecutor (valid_connectivity _ row2_topology) Hf) as [[p Hc] Hr].
  destruct (Hr _ Hc) as (p' & E & Hp & Hpl). injection E as <-.
  destruct (div_from_zero row2 p row2_topology Hp Hpl CPUExecutor [1; 1; 1]%Qc
    (VolField [1; 0]%Qc [0; 0]%Qc [1; 1]%Qc [1; 0]%Qc [0; 0]%Qc) coeff_default) as (v & r & Hv & Hres); try done; [by right|].
  exists p, v, r. split; [done|]. split; [by apply Hv|].
  rewrite !Hres by (simpl; lia). split; apply Qc_is_canon; vm_compute; reflexivity.
Qed.

(** * C36 *)
(** A x - b gains the scaling times the net outward diffusive flux, with the mixed
    condition on the boundary. *)
Theorem C36_residual : forall {V} `{ValueLaws V} `{!ValueUnit V} `{!UnitLaws V} m p,
  valid_topology m -> pattern_rows m p -> pattern_located m p ->
  forall e dc gamma (phi : volField V) scaling values rhs, no_boundary_race e m ->
  length dc = nFaces m -> length gamma = nFaces m -> length (magFaceAreas m) = nFaces m ->
  boundary_ok m phi -> coeff_ok scaling (nCells m) -> sys_ok m p values rhs ->
  exists values' rhs', always (computeLaplacianImpl e m p (sp_rowPtrs p) dc gamma phi scaling [values; rhs]) [values'; rhs'] /\
    sys_ok m p values' rhs' /\
    forall x c, c < nCells m -> residual p values' rhs' x c = vadd (residual p values rhs x c)
      (vscale (coeff_val scaling c)
        (cell_balance m (fun f => vscale (at0 gamma f * at0 (magFaceAreas m) f)%Qc
           (implicit_normal_gradient m (with_int phi x) dc f)) c)).
Proof.
  intros V ? ? ? ? m p Hm Hp Hpl e dc gamma phi scaling values rhs Hr Hdc Hg Hmag Hb Hsc Hs.
  destruct (lap_assembled m Hm p Hp Hpl dc gamma phi scaling Hdc Hg Hmag Hb Hsc e values rhs Hr Hs) as (v' & r' & H1 & H2 & _ & H3).
  eauto.
Qed.
Print Assumptions C36_residual.

(** (owner, neighbour) and (neighbour, owner) coefficients coincide. *)
Definition symmetric_system {V} `{ValueType V} (m : mesh) (p : sparsity) (values : list V) : Prop :=
  forall f, f < nInternalFaces m -> atV values (loc_slot m p (Upper f)) = atV values (loc_slot m p (Lower f)).

Theorem C36_symmetric : forall {V} `{ValueLaws V} `{!ValueUnit V} `{!UnitLaws V} m p,
  valid_topology m -> pattern_rows m p -> pattern_located m p ->
  forall e dc gamma (phi : volField V) scaling values rhs values' rhs', no_boundary_race e m ->
  length dc = nFaces m -> length gamma = nFaces m -> length (magFaceAreas m) = nFaces m ->
  boundary_ok m phi -> coeff_ok scaling (nCells m) -> sys_ok m p values rhs ->
  (forall c c', c < nCells m -> c' < nCells m -> coeff_val scaling c = coeff_val scaling c') ->
  symmetric_system m p values ->
  computeLaplacianImpl e m p (sp_rowPtrs p) dc gamma phi scaling [values; rhs] (Some [values'; rhs']) ->
  symmetric_system m p values'.
Proof.
  intros V ? ? ? ? m p Hm Hp Hpl e dc gamma phi scaling values rhs values' rhs' Hr Hdc Hg Hmag Hb Hsc Hs Hu Hsym Hrun f Hf.
  destruct (lap_assembled m Hm p Hp Hpl dc gamma phi scaling Hdc Hg Hmag Hb Hsc e values rhs Hr Hs) as (v' & r' & H1 & H2 & H3 & _).
  apply H1 in Hrun. injection Hrun as -> ->. rewrite !H3 by done. rewrite (Hsym f Hf). f_equal.
  unfold lap_delta. simpl.
  pose proof (vt_owner m Hm f Hf). pose proof (vt_nei m Hm f Hf).
  by rewrite (Hu (atn (faceOwner m) f) (atn (faceNeighbour m) f)) by lia.
Qed.
Print Assumptions C36_symmetric.

Lemma mat_row_residual {V} `{ValueLaws V} `{!ValueUnit V} `{!UnitLaws V} p (v r x : list V) c :
  mat_row p v x c = vsub (residual p v r x c) (residual p v r [] c).
Proof.
  assert (E : mat_row p v [] c = vzero).
  { unfold mat_row. apply vsum_map_zero. intros k _.
    rewrite vmul_comm. change (atV [] (atn (sp_colIdxs p) k)) with (vzero : V).
    rewrite <- (vscale_0_l (vone : V)), vmul_scale_l. by rewrite !vscale_0_l. }
  unfold residual. rewrite E. unfold vsub. rewrite vadd_0_l, vneg_neg, <- vadd_assoc.
  by rewrite (vadd_comm (vneg _)), vadd_neg, vadd_0_r.
Qed.

Lemma balance_interior {V} `{ValueLaws V} m (F : nat -> V) c : valid_topology m ->
  (forall f, f < nInternalFaces m -> F f = vzero) ->
  (forall b, b < nBoundaryFaces m -> atn (bFaceCells (bmesh m)) b <> c) -> cell_balance m F c = vzero.
Proof.
  intros Hm Hi Hb. unfold cell_balance.
  rewrite (vsum_over_ext (nInternalFaces m) (fun f => if decide (atn (faceOwner m) f = c) then F f else vzero) (fun _ => vzero)).
  2:{ intros f Hf. rewrite Hi by done. by destruct (decide _). }
  rewrite (vsum_over_ext (nInternalFaces m) (fun f => if decide (atn (faceNeighbour m) f = c) then F f else vzero) (fun _ => vzero)).
  2:{ intros f Hf. rewrite Hi by done. by destruct (decide _). }
  rewrite (vsum_over_ext (nBoundaryFaces m) (fun b => if decide (atn (bFaceCells (bmesh m)) b = c) then F (nInternalFaces m + b) else vzero) (fun _ => vzero)).
  2:{ intros b Hbb. destruct (decide _); [|done]. by destruct (Hb b Hbb). }
  unfold vsum_over, vsub. by rewrite !vsum_map_zero, vadd_neg, vadd_0_l by done.
Qed.

(** The row of a cell without boundary faces gains nothing when applied to a
    constant vector: its coefficients sum to zero. *)
Theorem C36_interior_rows : forall {V} `{ValueLaws V} `{!ValueUnit V} `{!UnitLaws V} m p,
  valid_topology m -> pattern_rows m p -> pattern_located m p ->
  forall e dc gamma (phi : volField V) scaling values rhs values' rhs' k c, no_boundary_race e m ->
  length dc = nFaces m -> length gamma = nFaces m -> length (magFaceAreas m) = nFaces m ->
  boundary_ok m phi -> coeff_ok scaling (nCells m) -> sys_ok m p values rhs ->
  computeLaplacianImpl e m p (sp_rowPtrs p) dc gamma phi scaling [values; rhs] (Some [values'; rhs']) ->
  c < nCells m -> (forall b, b < nBoundaryFaces m -> atn (bFaceCells (bmesh m)) b <> c) ->
  mat_row p values' (replicate (nCells m) k) c = mat_row p values (replicate (nCells m) k) c /\
  atV rhs' c = atV rhs c.
Proof.
  intros V ? ? ? ? m p Hm Hp Hpl e dc gamma phi scaling values rhs values' rhs' k c Hr Hdc Hg Hmag Hb Hsc Hs Hrun Hc Hint.
  destruct (lap_assembled m Hm p Hp Hpl dc gamma phi scaling Hdc Hg Hmag Hb Hsc e values rhs Hr Hs) as (v' & r' & H1 & H2 & _ & H3).
  apply H1 in Hrun. injection Hrun as -> ->.
  assert (Hk : forall k' x, (forall i, i < nCells m -> atV x i = k') -> residual p v' r' x c = residual p values rhs x c).
  { intros k' x Hx. rewrite H3 by done. rewrite balance_interior, vscale_0_r, vadd_0_r; try done.
    intros f Hf. unfold implicit_normal_gradient. rewrite decide_True by done. unfold at_neighbour, at_owner. simpl.
    pose proof (vt_owner m Hm f Hf). pose proof (vt_nei m Hm f Hf).
    rewrite !Hx by lia. unfold vsub. by rewrite vadd_neg, !vscale_0_r. }
  assert (Hz : residual p v' r' [] c = residual p values rhs [] c) by (apply (Hk vzero); done).
  split.
  - rewrite (mat_row_residual p v' r'), (mat_row_residual p values rhs), Hz. f_equal. apply (Hk k).
    intros i Hi. unfold atV. by rewrite lookup_replicate_2.
  - pose proof (mat_row_residual p v' r' [] c) as E1. pose proof (mat_row_residual p values rhs [] c) as E2.
    unfold vsub in E1, E2. rewrite vadd_neg in E1, E2.
    unfold residual in Hz. rewrite E1, E2 in Hz. unfold vsub in Hz. rewrite !vadd_0_l in Hz.
    by rewrite <- (vneg_neg (atV r' c)), Hz, vneg_neg.
Qed.
Print Assumptions C36_interior_rows.

(** Conservation: with unit scaling the total over the cells of what is added to
    A x - b is the diffusive flux through the boundary alone. *)
Theorem C36_conservation : forall {V} `{ValueLaws V} `{!ValueUnit V} `{!UnitLaws V} m p,
  valid_topology m -> pattern_rows m p -> pattern_located m p ->
  forall e dc gamma (phi : volField V) values rhs, no_boundary_race e m ->
  length dc = nFaces m -> length gamma = nFaces m -> length (magFaceAreas m) = nFaces m ->
  boundary_ok m phi -> forall scaling, coeff_ok scaling (nCells m) ->
  (forall c, c < nCells m -> coeff_val scaling c = 1%Qc) ->
  sys_ok m p values rhs -> forall values' rhs',
  computeLaplacianImpl e m p (sp_rowPtrs p) dc gamma phi scaling [values; rhs] (Some [values'; rhs']) ->
  forall x, vsum_over (nCells m) (residual p values' rhs' x) = vadd (vsum_over (nCells m) (residual p values rhs x))
    (vsum_over (nBoundaryFaces m) (fun b => vscale (at0 gamma (nInternalFaces m + b) * at0 (magFaceAreas m) (nInternalFaces m + b))%Qc
       (implicit_normal_gradient m (with_int phi x) dc (nInternalFaces m + b)))).
Proof.
  intros V ? ? ? ? m p Hm Hp Hpl e dc gamma phi values rhs Hr Hdc Hg Hmag Hb scaling Hsc H1s Hs values' rhs' Hrun x.
  destruct (lap_assembled m Hm p Hp Hpl dc gamma phi scaling Hdc Hg Hmag Hb Hsc e values rhs Hr Hs) as (v' & r' & H1 & H2 & _ & H3).
  apply H1 in Hrun. injection Hrun as -> ->.
  rewrite <- (balance_total m Hm (fun f => vscale (at0 gamma f * at0 (magFaceAreas m) f)%Qc
       (implicit_normal_gradient m (with_int phi x) dc f))), <- vsum_over_add.
  apply vsum_over_ext. intros c Hc. rewrite H3 by done. by rewrite H1s, vscale_1.
Qed.
Print Assumptions C36_conservation.

(** The normal gradients on the boundary agree with the boundary values: the
    mixed condition. *)
Definition mixed_boundary {V} `{ValueType V} (m : mesh) (dc : list Qc) (phi : volField V) : Prop :=
  forall b, b < nBoundaryFaces m -> at0 dc (nInternalFaces m + b) <> 0%Qc /\
    atV (vf_value phi) b = vadd (vscale (at0 (vf_valueFraction phi) b) (atV (vf_refValue phi) b))
      (vscale (1 - at0 (vf_valueFraction phi) b)%Qc
         (vadd (at_face_cell m phi b) (vscale (1 / at0 dc (nInternalFaces m + b))%Qc (atV (vf_refGrad phi) b)))).

Section mixed.
  Context {V : Type} `{HL : ValueLaws V} `{HU : ValueUnit V} `{HUL : !UnitLaws V}.
  Add Ring VR : (V_ring (V := V)).
  Lemma mixed_algebra d vf (rv rg g : V) : d <> 0%Qc ->
    vadd (vscale (vf * d)%Qc (vsub rv g)) (vscale (1 - vf)%Qc rg) =
    vscale d (vsub (vadd (vscale vf rv) (vscale (1 - vf)%Qc (vadd g (vscale (1 / d)%Qc rg)))) g).
  Proof using HL HUL.
    intros Hd. rewrite (vscale_unit (vf * d)), (vscale_unit (1 - vf) rg), (vscale_unit d), (vscale_unit vf),
      (vscale_unit (1 - vf) (vadd _ _)), (vscale_unit (1 / d)), unit_mul, unit_sub, unit_1.
    assert (HDE : vmul (vscale d vone) (vscale (1 / d)%Qc vone) = (vone : V)).
    { rewrite <- unit_mul. replace (d * (1 / d))%Qc with 1%Qc by (field; done). apply unit_1. }
    ring [HDE].
  Qed.
End mixed.
Lemma mixed_gradient {V} `{ValueLaws V} `{!ValueUnit V} `{!UnitLaws V} m dc (phi : volField V) f :
  valid_topology m -> mixed_boundary m dc phi -> f < nFaces m ->
  implicit_normal_gradient m phi dc f = normal_gradient m phi dc f.
Proof.
  intros Hm Hmix Hf. unfold implicit_normal_gradient, normal_gradient.
  destruct (decide (f < nInternalFaces m)); [done|]. pose proof (vt_faces m Hm).
  destruct (Hmix (f - nInternalFaces m)) as [Hnz Hv]; [lia|]. rewrite Hv.
  replace (nInternalFaces m + (f - nInternalFaces m)) with f in * by lia.
  by apply mixed_algebra.
Qed.

(** Where the boundary values follow the mixed condition, the system assembled
    from zero has A phi - b = V * laplacian(gamma, phi). *)
Theorem C36_matches_laplacian : forall {V} `{ValueLaws V} `{!ValueUnit V} `{!UnitLaws V} m p,
  valid_topology m -> pattern_rows m p -> pattern_located m p ->
  forall e dc gamma (phi : volField V) scaling, no_boundary_race e m ->
  length dc = nFaces m -> length gamma = nFaces m -> length (magFaceAreas m) = nFaces m ->
  boundary_ok m phi -> coeff_ok scaling (nCells m) -> mixed_boundary m dc phi ->
  exists values rhs, always (computeLaplacianImpl e m p (sp_rowPtrs p) dc gamma phi scaling (zero_system m p)) [values; rhs] /\
    forall c, c < nCells m -> residual p values rhs (vf_int phi) c =
      vscale (at0 (cellVolumes m) c) (laplacian_gamma_spec m dc gamma phi scaling c).
Proof.
  intros V ? ? ? ? m p Hm Hp Hpl e dc gamma phi scaling Hr Hdc Hg Hmag Hb Hsc Hmix.
  destruct (lap_from_zero m p Hm Hp Hpl e dc gamma phi scaling) as (v' & r' & H1 & H3); try done.
  exists v', r'. split; [exact H1|]. intros c Hc. rewrite H3 by done.
  unfold laplacian_gamma_spec. rewrite volume_cancel by done. f_equal. apply (cell_balance_ext m Hm). intros f Hf. f_equal.
  rewrite <- mixed_gradient by done. done.
Qed.
Print Assumptions C36_matches_laplacian.

(** With gamma = 1 that is V times what the explicit operator computes ... *)
Theorem C36_matches_explicit_unit_gamma : forall {V} `{ValueLaws V} `{!ValueUnit V} `{!UnitLaws V} m p,
  valid_topology m -> pattern_rows m p -> pattern_located m p ->
  forall e dc gamma (phi : volField V) junk scaling, no_boundary_race e m ->
  field_ok m phi -> length junk = nFaces m ->
  length dc = nFaces m -> length gamma = nFaces m -> length (magFaceAreas m) = nFaces m ->
  boundary_ok m phi -> coeff_ok scaling (nCells m) -> mixed_boundary m dc phi ->
  (forall f, f < nFaces m -> at0 gamma f = 1%Qc) ->
  exists values rhs explicit,
    always (computeLaplacianImpl e m p (sp_rowPtrs p) dc gamma phi scaling (zero_system m p)) [values; rhs] /\
    always (laplacian_explicitOperation e m dc gamma phi junk scaling (replicate (nCells m) vzero)) explicit /\
    forall c, c < nCells m -> residual p values rhs (vf_int phi) c =
      vscale (at0 (cellVolumes m) c) (atV explicit c).
Proof.
  intros V ? ? ? ? m p Hm Hp Hpl e dc gamma phi junk scaling Hr Hf Hj Hdc Hg Hmag Hb Hsc Hmix H1g.
  destruct (C36_matches_laplacian m p Hm Hp Hpl e dc gamma phi scaling) as (v' & r' & H1 & H3); try done.
  eexists v', r', _. split; [exact H1|]. split.
  { apply (laplacian_add_spec m Hm); try done. by rewrite replicate_length. }
  intros c Hc. rewrite H3 by done. f_equal.
  unfold atV at 1. rewrite (list_lookup_fmap _ (seq 0 (nCells m)) c), lookup_seq_lt by done. simpl.
  rewrite atV_zero, vadd_0_l. unfold laplacian_gamma_spec, laplacian_spec. f_equal.
  apply (cell_balance_ext m Hm). intros f Hff. rewrite H1g by done. f_equal. ring.
Qed.
Print Assumptions C36_matches_explicit_unit_gamma.

(** ... but the explicit operator ignores gamma (gaussGreenLaplacian.cpp:11-67),
    so for other diffusion coefficients the two disagree. *)
Definition phi1d : volField Qc := VolField [1%Qc] [0; 0]%Qc [0; 0]%Qc [1; 1]%Qc [0; 0]%Qc.
Theorem C78_explicit_gamma_refuted : ~ forall m p e dc gamma (phi : volField Qc) junk values rhs explicit,
  valid_topology m -> pattern_rows m p -> pattern_located m p -> no_boundary_race e m ->
  field_ok m phi -> length junk = nFaces m ->
  length dc = nFaces m -> length gamma = nFaces m -> length (magFaceAreas m) = nFaces m ->
  boundary_ok m phi -> mixed_boundary m dc phi ->
  computeLaplacianImpl e m p (sp_rowPtrs p) dc gamma phi coeff_default (zero_system m p) (Some [values; rhs]) ->
  laplacian_explicitOperation e m dc gamma phi junk coeff_default (replicate (nCells m) vzero) (Some explicit) ->
  forall c, c < nCells m -> residual p values rhs (vf_int phi) c =
      vscale (at0 (cellVolumes m) c) (atV explicit c).
Proof.
  intros H. destruct pat1_ok as [Hp Hpl].
  assert (Hmix : mixed_boundary cell1 [1; 1]%Qc phi1d).
  { intros [|[|b]] Hb; simpl in Hb; try lia; (split; [done|apply Qc_is_canon; reflexivity]). }
  destruct (C36_matches_laplacian cell1 pat1 cell1_topology Hp Hpl SerialExecutor [1; 1]%Qc [Q2Qc 2; Q2Qc 2] phi1d coeff_default)
    as (v & r & Hv & Hres); try done; [by left|].
  pose proof (laplacian_add_spec cell1 cell1_topology SerialExecutor phi1d [1; 1]%Qc [Q2Qc 2; Q2Qc 2] [0; 0]%Qc (replicate 1 0%Qc) coeff_default) as He.
  do 6 (specialize (He ltac:(done))).
  specialize (H cell1 pat1 SerialExecutor [1; 1]%Qc [Q2Qc 2; Q2Qc 2] phi1d [0; 0]%Qc v r _ cell1_topology Hp Hpl ltac:(by left)
    ltac:(done) ltac:(done) ltac:(done) ltac:(done) ltac:(done) ltac:(done) Hmix (proj2 (Hv _) eq_refl) (proj2 (He _) eq_refl) 0 ltac:(simpl; lia)).
  rewrite Hres in H by (simpl; lia). apply (f_equal this) in H. vm_compute in H. discriminate.
Qed.
Print Assumptions C78_explicit_gamma_refuted.

Example C36_instance : exists p v r, sp_create CPUExecutor row2 (Ok p) /\
  computeLaplacianImpl CPUExecutor row2 p (sp_rowPtrs p) [1; 1; 1]%Qc [Q2Qc 2; Q2Qc 2; Q2Qc 2]
    (VolField [1; 0]%Qc [1; 0]%Qc [1; 1]%Qc [1; 0]%Qc [0; 0]%Qc) coeff_default (zero_system row2 p) (Some [v; r]) /\
  residual p v r [1; 0]%Qc 0 = (- Q2Qc 2)%Qc /\ residual p v r [1; 0]%Qc 1 = Q2Qc 2 /\ symmetric_system row2 p v.
Proof.
  assert (Ho : boundary_once row2) by apply C35_instance.
  assert (Hf : rows_fit row2). { intros [|[|c]] Hc; simpl in Hc; try lia; vm_compute; lia. }
  destruct (C29_pattern row2 CPUExecutor (valid_connectivity _ row2_topology) Hf) as [[p Hc] Hr].
  destruct (Hr _ Hc) as (p' & E & Hp & Hpl). injection E as <-.
  destruct (lap_from_zero row2 p row2_topology Hp Hpl CPUExecutor [1; 1; 1]%Qc [Q2Qc 2; Q2Qc 2; Q2Qc 2]
    (VolField [1; 0]%Qc [1; 0]%Qc [1; 1]%Qc [1; 0]%Qc [0; 0]%Qc) coeff_default) as (v & r & Hv & Hres); try done; [by right|].
  exists p, v, r. split; [done|]. split; [by apply Hv|].
  rewrite !Hres by (simpl; lia). split; [|split]; [apply Qc_is_canon; vm_compute; reflexivity..|].
  refine (C36_symmetric row2 p row2_topology Hp Hpl CPUExecutor _ _ _ coeff_default _ _ v r _ _ _ _ _ _ (zero_sys_ok row2 p) _ _ (proj2 (Hv _) eq_refl)); try done; [by right|].
  intros f Hff. by rewrite !atV_zero.
Qed.

(** * C38 *)
(** A loop that adds [g c] to element c of a field. *)
Lemma pfor_add1 {V} `{ValueLaws V} e n (k : kernel V) (g : nat -> V) (src : list V) :
  length src = n -> (forall i, i < n -> k i = Some [SAdd (0, i) (g i)]) ->
  always (pfor e 0 n k [src]) [map (fun i => vadd (atV src i) (g i)) (seq 0 n)].
Proof.
  intros Hl Hk.
  destruct (own_slot_iff (fun i => (0, i)) (fun i => SAdd (0, i) (g i)) e 0 n [src] k) as (m' & Hr & Hsh & Hg & _).
  - intros i Hi. apply Hk. lia.
  - intros i Hi. split; [done|]. rewrite shape1, Hl. apply in_shape1. lia.
  - intros i j _ _ E. congruence.
  - rewrite shape1 in Hsh. apply shape1_inv in Hsh as (l & -> & Hl').
    assert (l = map (fun i => vadd (atV src i) (g i)) (seq 0 n)) as ->; [|exact Hr].
    apply list_eq. intros i. destruct (decide (i < n)) as [Hi|Hi].
    + specialize (Hg i ltac:(lia)). rewrite !mget1 in Hg. rewrite Hg.
      rewrite (list_lookup_fmap _ (seq 0 n) i), lookup_seq_lt by done.
      rewrite (lookup_atV src) by lia. done.
    + rewrite !lookup_ge_None_2; [done|rewrite map_length, seq_length; lia|lia].
Qed.

Theorem C38_source_explicit : forall {V} `{ValueLaws V} e n scaling coeff (field source : list V),
  coeff_ok scaling n -> length coeff = n -> length field = n -> length source = n ->
  always (source_explicit e scaling coeff field source)
    [map (fun c => vadd (atV source c) (vscale (coeff_val scaling c * at0 coeff c)%Qc (atV field c))) (seq 0 n)].
Proof.
  intros V ? ? e n scaling coeff field source Hsc Hc Hf Hs. unfold source_explicit. rewrite Hs.
  apply (pfor_add1 e n _ (fun c => vscale (coeff_val scaling c * at0 coeff c)%Qc (atV field c))); [done|].
  intros i Hi. rewrite (coeff_lookup scaling n), (lookup_at0 coeff), (lookup_atV field) by (done || lia). done.
Qed.
Print Assumptions C38_source_explicit.

(** The implicit source adds scaling * coeff * V to the diagonal only. *)
Theorem C38_source_implicit : forall {V} `{ValueLaws V} `{!ValueUnit V} `{!UnitLaws V} m p,
  valid_topology m -> pattern_rows m p -> pattern_located m p ->
  forall e scaling coeff (values rhs : list V),
  coeff_ok scaling (nCells m) -> length coeff = nCells m -> sys_ok m p values rhs ->
  exists values' rhs', always (source_implicit e m p (sp_rowPtrs p) scaling coeff [values; rhs]) [values'; rhs'] /\
    sys_ok m p values' rhs' /\ rhs' = rhs /\
    (forall c, c < nCells m -> atV values' (loc_slot m p (Diag c)) = vadd (atV values (loc_slot m p (Diag c)))
       (vscale (coeff_val scaling c * at0 coeff c * at0 (cellVolumes m) c)%Qc vone)) /\
    (forall f, f < nInternalFaces m -> atV values' (loc_slot m p (Upper f)) = atV values (loc_slot m p (Upper f)) /\
                                       atV values' (loc_slot m p (Lower f)) = atV values (loc_slot m p (Lower f))).
Proof.
  intros V ? ? ? ? m p Hm Hp Hpl e scaling coeff values rhs Hsc Hc Hs.
  destruct (source_assembled m Hm p Hp Hpl e scaling coeff values rhs Hsc Hc Hs) as (v & r & H1 & H2 & H3 & H4 & _).
  exists v, r. split; [done|]. split; [done|]. split; [|split].
  - destruct H2 as [_ Hl]. destruct Hs as [_ Hl']. apply (list_eq_same_length _ _ (nCells m)); [done..|].
    intros c x y Hcc E1 E2. specialize (H3 c Hcc). unfold atV in H3. rewrite E1, E2 in H3. exact H3.
  - intros c Hcc. apply (H4 (Diag c) Hcc).
  - intros f Hf. split; [apply (H4 (Upper f) Hf)|apply (H4 (Lower f) Hf)].
Qed.
Print Assumptions C38_source_implicit.

(** Applying the implicit source changes A x - b at each cell by V times what the
    explicit source adds for the field x. *)
Theorem C38_source_agreement : forall {V} `{ValueLaws V} `{!ValueUnit V} `{!UnitLaws V} m p,
  valid_topology m -> pattern_rows m p -> pattern_located m p ->
  forall e scaling coeff (values rhs x : list V),
  coeff_ok scaling (nCells m) -> length coeff = nCells m -> length x = nCells m -> sys_ok m p values rhs ->
  exists values' rhs' added, always (source_implicit e m p (sp_rowPtrs p) scaling coeff [values; rhs]) [values'; rhs'] /\
    always (source_explicit e scaling coeff x (replicate (nCells m) vzero)) [added] /\
    forall c, c < nCells m -> residual p values' rhs' x c =
      vadd (residual p values rhs x c) (vscale (at0 (cellVolumes m) c) (atV added c)).
Proof.
  intros V ? ? ? ? m p Hm Hp Hpl e scaling coeff values rhs x Hsc Hc Hx Hs.
  destruct (source_assembled m Hm p Hp Hpl e scaling coeff values rhs Hsc Hc Hs) as (v & r & H1 & _ & _ & _ & H5).
  eexists v, r, _. split; [done|]. split.
  { apply (C38_source_explicit e (nCells m)); try done. apply replicate_length. }
  intros c Hcc. rewrite H5 by done. f_equal. unfold atV at 2.
  rewrite (list_lookup_fmap _ (seq 0 (nCells m)) c), lookup_seq_lt by done. simpl.
  rewrite atV_zero, vadd_0_l, <- vscale_mul. f_equal. ring.
Qed.
Print Assumptions C38_source_agreement.

(** The implicit time derivative. *)
Theorem C38_ddt_implicit : forall {V} `{ValueLaws V} `{!ValueUnit V} `{!UnitLaws V} m p,
  valid_topology m -> pattern_rows m p -> pattern_located m p ->
  forall e scaling dt old (values rhs : list V),
  coeff_ok scaling (nCells m) -> length old = nCells m -> sys_ok m p values rhs ->
  exists values' rhs', always (ddt_implicit e m p (sp_rowPtrs p) scaling dt old [values; rhs]) [values'; rhs'] /\
    sys_ok m p values' rhs' /\
    (forall c, c < nCells m -> let a := (coeff_val scaling c * at0 (cellVolumes m) c / dt)%Qc in
      atV values' (loc_slot m p (Diag c)) = vadd (atV values (loc_slot m p (Diag c))) (vscale a vone) /\
      atV rhs' c = vadd (atV rhs c) (vscale a (atV old c)) /\
      forall x, residual p values' rhs' x c = vadd (residual p values rhs x c) (vscale a (vsub (atV x c) (atV old c)))) /\
    (forall f, f < nInternalFaces m -> atV values' (loc_slot m p (Upper f)) = atV values (loc_slot m p (Upper f)) /\
                                       atV values' (loc_slot m p (Lower f)) = atV values (loc_slot m p (Lower f))).
Proof.
  intros V ? ? ? ? m p Hm Hp Hpl e scaling dt old values rhs Hsc Ho Hs.
  destruct (ddt_assembled m Hm p Hp Hpl e scaling dt old values rhs Hsc Ho Hs) as (v & r & H1 & H2 & H3 & H4 & H5).
  exists v, r. split; [done|]. split; [done|]. split.
  - intros c Hcc a. assert (a = (coeff_val scaling c * at0 (cellVolumes m) c * (1 / dt))%Qc) as ->.
    { unfold a, Qcdiv. ring. }
    split; [apply (H4 (Diag c) Hcc)|]. split; [by apply H3|]. intros x. by apply H5.
  - intros f Hf. split; [apply (H4 (Upper f) Hf)|apply (H4 (Lower f) Hf)].
Qed.
Print Assumptions C38_ddt_implicit.

(** The explicit time derivative adds V * (phi - phi_old) / dt, whatever the
    coefficient of the operator. *)
Theorem C38_ddt_explicit : forall {V} `{ValueLaws V} m, valid_topology m ->
  forall e scaling dt (field old source : list V),
  length field = nCells m -> length old = nCells m -> length source = nCells m ->
  always (ddt_explicit e m scaling dt field old source)
    [map (fun c => vadd (atV source c) (vscale (at0 (cellVolumes m) c / dt)%Qc (vsub (atV field c) (atV old c))))
         (seq 0 (nCells m))].
Proof.
  intros V ? ? m Hm e scaling dt field old source Hf Ho Hs. unfold ddt_explicit. rewrite Hs.
  apply (pfor_add1 e (nCells m) _ (fun c => vscale (at0 (cellVolumes m) c / dt)%Qc (vsub (atV field c) (atV old c)))); [done|].
  intros i Hi. rewrite (lookup_atV field), (lookup_atV old) by lia. rewrite (vol_lookup m Hm) by done.
  cbn [mbind option_bind]. rewrite <- vscale_mul. do 4 f_equal. unfold Qcdiv. ring.
Qed.
Print Assumptions C38_ddt_explicit.

(** With coefficient 1, implicit and explicit time derivative are the same
    expression ... *)
Theorem C38_ddt_agreement : forall {V} `{ValueLaws V} `{!ValueUnit V} `{!UnitLaws V} m p,
  valid_topology m -> pattern_rows m p -> pattern_located m p ->
  forall e scaling dt old (values rhs x : list V),
  coeff_ok scaling (nCells m) -> (forall c, c < nCells m -> coeff_val scaling c = 1%Qc) ->
  length old = nCells m -> length x = nCells m -> sys_ok m p values rhs ->
  exists values' rhs' added, always (ddt_implicit e m p (sp_rowPtrs p) scaling dt old [values; rhs]) [values'; rhs'] /\
    always (ddt_explicit e m scaling dt x old (replicate (nCells m) vzero)) [added] /\
    forall c, c < nCells m -> residual p values' rhs' x c = vadd (residual p values rhs x c) (atV added c).
Proof.
  intros V ? ? ? ? m p Hm Hp Hpl e scaling dt old values rhs x Hsc H1s Ho Hx Hs.
  destruct (C38_ddt_implicit m p Hm Hp Hpl e scaling dt old values rhs Hsc Ho Hs) as (v & r & H1 & _ & H3 & _).
  eexists v, r, _. split; [done|]. split.
  { apply (C38_ddt_explicit m Hm); try done. apply replicate_length. }
  intros c Hcc. destruct (H3 c Hcc) as (_ & _ & H4). rewrite H4. f_equal. unfold atV at 3.
  rewrite (list_lookup_fmap _ (seq 0 (nCells m)) c), lookup_seq_lt by done. simpl.
  rewrite atV_zero, vadd_0_l, H1s by done. f_equal. unfold Qcdiv. ring.
Qed.
Print Assumptions C38_ddt_agreement.

(** ... but the explicit form ignores the coefficient (ddtOperator.cpp:16-31). *)
Theorem C79_ddt_explicit_scaling_refuted : ~ forall m e scaling dt (field old source added : list Qc),
  valid_topology m -> coeff_ok scaling (nCells m) ->
  length field = nCells m -> length old = nCells m -> length source = nCells m ->
  ddt_explicit e m scaling dt field old source (Some [added]) ->
  forall c, c < nCells m -> atV added c =
    vadd (atV source c) (vscale (coeff_val scaling c * at0 (cellVolumes m) c / dt)%Qc (vsub (atV field c) (atV old c))).
Proof.
  intros H. pose proof (C38_ddt_explicit cell1 cell1_topology SerialExecutor (coeff_scalar (Q2Qc 2)) 1%Qc [1%Qc] [0%Qc] [0%Qc] eq_refl eq_refl eq_refl) as Ha.
  specialize (H cell1 SerialExecutor (coeff_scalar (Q2Qc 2)) 1%Qc [1%Qc] [0%Qc] [0%Qc] _ cell1_topology I eq_refl eq_refl eq_refl
    (proj2 (Ha _) eq_refl) 0 ltac:(simpl; lia)).
  apply (f_equal this) in H. vm_compute in H. discriminate.
Qed.
Print Assumptions C79_ddt_explicit_scaling_refuted.

Example C38_instance : sys_ok cell1 pat1 [0%Qc] [0%Qc] /\ exists v r,
  ddt_implicit CPUExecutor cell1 pat1 (sp_rowPtrs pat1) (coeff_scalar (Q2Qc 3)) (Q2Qc (1 # 2)) [1%Qc] [[0%Qc]; [0%Qc]] (Some [v; r]) /\
  residual pat1 v r [Q2Qc 2] 0 = Q2Qc 6.
Proof.
  split; [done|]. destruct pat1_ok as [Hp Hpl].
  destruct (C38_ddt_implicit cell1 pat1 cell1_topology Hp Hpl CPUExecutor (coeff_scalar (Q2Qc 3)) (Q2Qc (1 # 2)) [1%Qc] [0%Qc] [0%Qc]) as (v & r & H1 & _ & H3 & _); try done.
  exists v, r. split; [by apply H1|]. destruct (H3 0 ltac:(simpl; lia)) as (_ & _ & H4). rewrite H4.
  apply Qc_is_canon. vm_compute. reflexivity.
Qed.
