(** C75-C79: exactly when the claims about the finite-volume operators that fail
    in general hold. *)
From Verif Require Import Base Par Exec Value Kernel KernelProofs Mesh MeshSpec Coeff FV FVSpec FVProofs FVProps
  Sparsity SparsitySpec Assembly AssemblySpec AssemblyProofs AssemblyProps KernelRace AssemblyRace ExampleMesh Properties_FV Properties_Sparsity Properties_Assembly.

Lemma scale_zero {V} `{ValueLaws V} k (x : V) : k <> 0%Qc -> vscale k x = vzero <-> x = vzero.
Proof.
  intros Hk. split; [|intros ->; apply vscale_0_r]. intros E. apply (f_equal (vscale (1 / k)%Qc)) in E.
  rewrite <- vscale_mul, vscale_0_r in E. replace (1 / k * k)%Qc with 1%Qc in E by (field; done). by rewrite vscale_1 in E.
Qed.
Lemma add_is_right {V} `{ValueLaws V} (a b : V) : vadd a b = b <-> a = vzero.
Proof.
  split; [|intros ->; apply vadd_0_l]. intros E. apply (f_equal (fun z => vadd z (vneg b))) in E.
  rewrite <- vadd_assoc, vadd_neg, vadd_0_r in E. done.
Qed.
Lemma atV_seq {V} `{ValueType V} (g : nat -> V) n c : c < n -> atV (map g (seq 0 n)) c = g c.
Proof. intros Hc. unfold atV. change (map g (seq 0 n)) with (g <$> seq 0 n). by rewrite list_lookup_fmap, lookup_seq_lt by done. Qed.
Lemma per_volume_zero {V} `{ValueLaws V} m scaling c (x : V) : valid_topology m -> c < nCells m -> coeff_val scaling c <> 0%Qc ->
  per_volume m scaling c x = vzero <-> x = vzero.
Proof.
  intros Hm Hc Hs. unfold per_volume. apply scale_zero. intros E. apply Hs.
  pose proof (vol_nz m Hm c Hc) as Hv. replace (coeff_val scaling c) with (coeff_val scaling c / at0 (cellVolumes m) c * at0 (cellVolumes m) c)%Qc by (field; done).
  rewrite E. ring.
Qed.

(** * C75: the operators leave their value in a cell of the caller's field if and
    only if the field held zero there. *)
Theorem C75_div_exactly : forall {V} `{ValueLaws V} m, valid_topology m ->
  forall e s (phi : volField V) flux weights junk target scaling r c,
  field_ok m phi -> length flux = nFaces m -> length weights = nFaces m ->
  length junk = nFaces m -> length target = nCells m -> coeff_ok scaling (nCells m) ->
  computeDivExp e m flux phi s weights junk target scaling (Some [r]) ->
  c < nCells m -> coeff_val scaling c <> 0%Qc ->
  (atV r c = div_spec m s flux weights phi scaling c <-> atV target c = vzero).
Proof.
  intros V ? ? m Hm e s phi flux weights junk target scaling r c H1 H2 H3 H4 H5 H6 E Hc Hs.
  apply (div_target_exact m Hm) in E; try done. injection E as ->. rewrite atV_seq by done.
  rewrite add_is_right. by apply per_volume_zero.
Qed.
Print Assumptions C75_div_exactly.

Theorem C75_laplacian_exactly : forall {V} `{ValueLaws V} m, valid_topology m ->
  forall e (phi : volField V) dc gamma junk target scaling r c,
  field_ok m phi -> length dc = nFaces m -> length junk = nFaces m ->
  length (magFaceAreas m) = nFaces m -> length target = nCells m -> coeff_ok scaling (nCells m) ->
  computeLaplacianExp e m dc gamma phi junk target scaling (Some [r]) ->
  c < nCells m -> coeff_val scaling c <> 0%Qc ->
  (atV r c = laplacian_spec m dc phi scaling c <-> atV target c = vzero).
Proof.
  intros V ? ? m Hm e phi dc gamma junk target scaling r c H1 H2 H3 H4 H5 H6 E Hc Hs.
  apply (C33_laplacian_target_exact m Hm) in E; try done. injection E as ->. rewrite atV_seq by done.
  rewrite add_is_right. by apply per_volume_zero.
Qed.
Print Assumptions C75_laplacian_exactly.

Theorem C75_grad_exactly : forall m, valid_topology m ->
  forall e (phi : volField Qc) weights junk (target r : list vec) c,
  field_ok m phi -> length weights = nFaces m -> length junk = nFaces m ->
  length (faceAreas m) = nFaces m -> length target = nCells m ->
  computeGrad e m phi weights junk target (Some [r]) -> c < nCells m ->
  (atV r c = grad_spec m weights phi c <-> atV target c = vzero).
Proof.
  intros m Hm e phi weights junk target r c H1 H2 H3 H4 H5 E Hc.
  apply (C33_grad_target_exact m Hm) in E; try done. injection E as ->. rewrite atV_seq by done.
  etransitivity; [exact (add_is_right (V := vec) (vec_scale (1 / at0 (cellVolumes m) c)%Qc (atV target c)) (grad_spec m weights phi c))|]. refine (scale_zero (V := vec) (1 / at0 (cellVolumes m) c)%Qc (atV target c) _). pose proof (vol_nz m Hm c Hc) as Hv. intros E.
  apply Hv. replace (at0 (cellVolumes m) c) with (at0 (cellVolumes m) c * at0 (cellVolumes m) c * (1 / at0 (cellVolumes m) c))%Qc by (field; done).
  rewrite E. ring.
Qed.
Print Assumptions C75_grad_exactly.

(** div(...) returning a field: what it returns in a cell is the value if and only
    if the uninitialised memory happened to hold zero there. *)
Theorem C75_div_value_exactly : forall {V} `{ValueLaws V} m, valid_topology m ->
  forall e s (phi : volField V) flux weights junk uninit scaling r c,
  field_ok m phi -> length flux = nFaces m -> length weights = nFaces m ->
  length junk = nFaces m -> length uninit = nCells m -> coeff_ok scaling (nCells m) ->
  div_value e m flux phi s weights junk uninit scaling (Some [r]) ->
  c < nCells m -> coeff_val scaling c <> 0%Qc ->
  (atV r c = div_spec m s flux weights phi scaling c <-> atV uninit c = vzero).
Proof. intros V ? ? m Hm e s phi flux weights junk uninit scaling r c. apply C75_div_exactly; done. Qed.
Print Assumptions C75_div_value_exactly.

(** Non-vacuity: an outcome of each operator in a field that is zero in some cells
    and not in others. *)
Example C75_instance : let one12 := replicate 12 1%Qc in let t := [1; 0; 1; 0]%Qc in
  valid_topology mesh22 /\ field_ok mesh22 phi22 /\ length flux22 = nFaces mesh22 /\ length one12 = nFaces mesh22 /\
  length (faceAreas mesh22) = nFaces mesh22 /\ length (magFaceAreas mesh22) = nFaces mesh22 /\ length t = nCells mesh22 /\
  coeff_ok (coeff_scalar (Q2Qc 2)) (nCells mesh22) /\ coeff_val (coeff_scalar (Q2Qc 2)) 0 <> 0%Qc /\
  atV t 0 <> vzero /\ atV t 1 = vzero /\
  (exists r, computeDivExp CPUExecutor mesh22 flux22 phi22 Upwind one12 one12 t (coeff_scalar (Q2Qc 2)) (Some [r])) /\
  (exists r, div_value CPUExecutor mesh22 flux22 phi22 Upwind one12 one12 t (coeff_scalar (Q2Qc 2)) (Some [r])) /\
  (exists r, computeGrad CPUExecutor mesh22 phi22 one12 one12 (replicate 4 vec_zero) (Some [r])) /\
  (exists r, computeLaplacianExp CPUExecutor mesh22 one12 one12 phi22 one12 t (coeff_scalar (Q2Qc 2)) (Some [r])).
Proof.
  cbv zeta. split; [apply mesh22_topology|]. do 7 (split; [done|]).
  split; [intros E; apply (f_equal this) in E; vm_compute in E; discriminate|].
  split; [intros E; apply (f_equal this) in E; vm_compute in E; discriminate|]. split; [done|].
  split; [|split; [|split]]; eexists.
  - apply (C33_div_target_exact mesh22 mesh22_topology); done.
  - apply (C33_div_target_exact mesh22 mesh22_topology); done.
  - apply (C33_grad_target_exact mesh22 mesh22_topology); done.
  - apply (C33_laplacian_target_exact mesh22 mesh22_topology); done.
Qed.

(** * C76: what the implicit divergence misses: the prescribed gradients. *)
Section balance.
  Context {V : Type} `{HL : ValueLaws V} `{HU : ValueUnit V} `{HUL : !UnitLaws V}.
  Add Ring Vring9 : (V_ring (V := V)).
  Lemma balance_boundary m (F : nat -> V) (G : nat -> V) c :
    cell_balance m (fun f => if decide (f < nInternalFaces m) then F f else vadd (F f) (G (f - nInternalFaces m))) c =
    vadd (cell_balance m F c) (vsum_over (nBoundaryFaces m) (fun b => if decide (atn (bFaceCells (bmesh m)) b = c) then G b else vzero)).
  Proof using HL HUL.
    unfold cell_balance.
    rewrite (vsum_over_ext (nInternalFaces m) (fun f => if decide (atn (faceOwner m) f = c) then if decide (f < nInternalFaces m) then F f else _ else _) (fun f => if decide (atn (faceOwner m) f = c) then F f else vzero))
      by (intros f Hf; by rewrite (decide_True (P := f < nInternalFaces m)) by done).
    rewrite (vsum_over_ext (nInternalFaces m) (fun f => if decide (atn (faceNeighbour m) f = c) then _ else _) (fun f => if decide (atn (faceNeighbour m) f = c) then F f else vzero))
      by (intros f Hf; by rewrite (decide_True (P := f < nInternalFaces m)) by done).
    rewrite (vsum_over_ext (nBoundaryFaces m) (fun b => if decide (atn (bFaceCells (bmesh m)) b = c) then if decide _ then _ else _ else _)
      (fun b => vadd (if decide (atn (bFaceCells (bmesh m)) b = c) then F (nInternalFaces m + b) else vzero) (if decide (atn (bFaceCells (bmesh m)) b = c) then G b else vzero))).
    2:{ intros b Hb. rewrite (decide_False (P := nInternalFaces m + b < nInternalFaces m)) by lia.
        replace (nInternalFaces m + b - nInternalFaces m) with b by lia. destruct (decide _); [done|ring]. }
    rewrite vsum_over_add. ring.
  Qed.
End balance.

Theorem C76_gradient_difference : forall {V} `{ValueLaws V} `{!ValueUnit V} `{!UnitLaws V} m p,
  valid_topology m -> pattern_rows m p -> pattern_located m p ->
  forall e flux weights dc (phi : volField V) scaling values rhs c, no_boundary_race e m ->
  length flux = nFaces m -> boundary_ok m phi -> coeff_ok scaling (nCells m) ->
  (forall b, b < nBoundaryFaces m -> at0 weights (nInternalFaces m + b) = 1%Qc) -> mixed_boundary m dc phi ->
  computeDivImp e m p (sp_rowPtrs p) flux phi scaling (zero_system m p) (Some [values; rhs]) -> c < nCells m ->
  vscale (at0 (cellVolumes m) c) (div_spec m Upwind flux weights phi scaling c) =
  vadd (residual p values rhs (vf_int phi) c) (vscale (coeff_val scaling c)
    (vsum_over (nBoundaryFaces m) (fun b => if decide (atn (bFaceCells (bmesh m)) b = c)
       then vscale (at0 flux (nInternalFaces m + b) * (1 - at0 (vf_valueFraction phi) b) / at0 dc (nInternalFaces m + b))%Qc (atV (vf_refGrad phi) b)
       else vzero))).
Proof.
  intros V ? ? ? ? m p Hm Hp Hpl e flux weights dc phi scaling values rhs c Hr Hfl Hb Hsc Hw Hmix E Hc.
  destruct (div_from_zero m p Hm Hp Hpl e flux phi scaling Hr Hfl Hb Hsc) as (v & r & Ha & Hres).
  apply Ha in E. injection E as -> ->. rewrite Hres by done. unfold div_spec. rewrite volume_cancel by done.
  rewrite <- vscale_add. f_equal.
  rewrite <- (balance_boundary m (fun f => vscale (at0 flux f) (implicit_face_value m (with_int phi (vf_int phi)) flux f))
    (fun b => vscale (at0 flux (nInternalFaces m + b) * (1 - at0 (vf_valueFraction phi) b) / at0 dc (nInternalFaces m + b))%Qc (atV (vf_refGrad phi) b))).
  apply (cell_balance_ext m Hm). intros f Hf. unfold face_value, implicit_face_value.
  destruct (decide (f < nInternalFaces m)) as [Hlt|Hge]; [done|].
  pose proof (vt_faces m Hm). set (b := f - nInternalFaces m). assert (Hbb : b < nBoundaryFaces m) by (unfold b; lia).
  assert (Ef : f = nInternalFaces m + b) by (unfold b; lia). rewrite Ef, Hw by done. replace (nInternalFaces m + b - nInternalFaces m) with b by lia.
  destruct (Hmix b Hbb) as [Hd ->]. rewrite vscale_1. change (at_face_cell m (with_int phi (vf_int phi)) b) with (at_face_cell m phi b).
  cbn [with_int vf_valueFraction vf_refValue].
  rewrite !vscale_add, <- !vscale_mul, <- !vadd_assoc. do 3 f_equal. field. done.
Qed.
Print Assumptions C76_gradient_difference.

(** Non-vacuity: a single cell, one of whose faces has a prescribed gradient of 2. *)
Example C76_instance : let phi := VolField [1%Qc] [Q2Qc 3; 1%Qc] [0; 0]%Qc [0; 0]%Qc [Q2Qc 2; 0%Qc] in exists values rhs,
  valid_topology cell1 /\ pattern_rows cell1 pat1 /\ pattern_located cell1 pat1 /\ no_boundary_race SerialExecutor cell1 /\
  boundary_ok cell1 phi /\ (forall b, b < nBoundaryFaces cell1 -> at0 [1%Qc; 1%Qc] (nInternalFaces cell1 + b) = 1%Qc) /\
  mixed_boundary cell1 [1%Qc; 1%Qc] phi /\
  computeDivImp SerialExecutor cell1 pat1 (sp_rowPtrs pat1) [1%Qc; 1%Qc] phi coeff_default (zero_system cell1 pat1) (Some [values; rhs]).
Proof.
  cbv zeta. destruct pat1_ok as [Hp Hpl].
  set (phi := VolField [1%Qc] [Q2Qc 3; 1%Qc] [0; 0]%Qc [0; 0]%Qc [Q2Qc 2; 0%Qc]).
  destruct (div_from_zero cell1 pat1 cell1_topology Hp Hpl SerialExecutor [1%Qc; 1%Qc] phi coeff_default)
    as (v & r & Hv & _); try done; [by left|].
  exists v, r. split; [apply cell1_topology|]. split; [done|]. split; [done|]. split; [by left|]. split; [done|].
  split; [intros [|[|b]] Hb; [done..|simpl in Hb; lia]|]. split; [|by apply Hv].
  intros [|[|b]] Hb; [..|simpl in Hb; lia]; (split; [done|apply Qc_is_canon; reflexivity]).
Qed.

Lemma lost_zero (x y : Qc) : x = vadd x y -> y = 0%Qc.
Proof. intros E. cbn in E. apply (f_equal (fun z => z - x)%Qc) in E. ring_simplify in E. done. Qed.
Lemma lost_zero' (x y : Qc) : x = vsub x y -> y = 0%Qc.
Proof. intros E. cbn in E. apply (f_equal (fun z => x - z)%Qc) in E. unfold vsub in E. cbn in E. ring_simplify in E. done. Qed.

(** * C77: on a parallel executor the boundary loops give the serial result under
    every schedule if and only if no cell has two boundary faces. *)
Theorem C77_div_exactly : forall m p, valid_topology m -> pattern_rows m p -> pattern_located m p ->
  forall e flux (phi : volField Qc) scaling values rhs, e <> SerialExecutor ->
  length flux = nFaces m -> boundary_ok m phi -> coeff_ok scaling (nCells m) -> sys_ok m p values rhs ->
  (forall b, b < nBoundaryFaces m -> at0 flux (nInternalFaces m + b) <> 0%Qc /\ coeff_val scaling (atn (bFaceCells (bmesh m)) b) <> 0%Qc /\
     (at0 (vf_valueFraction phi) b = 1%Qc -> at0 (vf_refValue phi) b <> 0%Qc)) ->
  ((forall r r', computeDivImp SerialExecutor m p (sp_rowPtrs p) flux phi scaling [values; rhs] r ->
      computeDivImp e m p (sp_rowPtrs p) flux phi scaling [values; rhs] r' -> r = r') <-> boundary_once m).
Proof.
  intros m p Hm Hp Hpl e flux phi scaling values rhs He Hfl Hb Hsc Hs Hnz. split.
  - intros Hdet b b' Hbb Hbb' Efc. destruct (decide (b = b')) as [|Hne]; [done|exfalso].
    destruct (div_race_general m Hm p Hp Hpl flux phi scaling Hfl Hb Hsc e values rhs b b' He Hs Hbb Hbb' Hne Efc) as [(vs & rs & vc & rc & R1 & R2 & _ & _ & G) (vs' & rs' & vc' & rc' & R1' & R2' & _ & _ & G')].
    destruct (Hnz b' Hbb') as (N1 & N2 & N3).
    pose proof (Hdet _ _ R1 R2) as E. injection E as -> ->. pose proof (Hdet _ _ R1' R2') as E. injection E as -> ->.
    apply lost_zero in G. apply lost_zero' in G'. cbn in G, G'.
    destruct (Qc_eq_dec (at0 (vf_valueFraction phi) b') 1%Qc) as [E1|E1].
    + rewrite E1 in G'. specialize (N3 E1). change (@atV Qc Qc_value) with at0 in G'. rewrite Qcmult_1_l in G'. by repeat apply Qcmult_integral in G' as [G'|G'].
    + rewrite Qcmult_1_r in G. apply Qcmult_integral in G as [G|G]; [by apply Qcmult_integral in G as [G|G]|]. apply E1. apply (f_equal (fun z => 1 - z)%Qc) in G. ring_simplify in G. done.
  - intros Ho r r' R1 R2. by apply (C35_div_schedule_independent m p Hm Hp Hpl e flux phi scaling values rhs r r').
Qed.
Print Assumptions C77_div_exactly.

Theorem C77_laplacian_exactly : forall m p, valid_topology m -> pattern_rows m p -> pattern_located m p ->
  forall e dc gamma (phi : volField Qc) scaling values rhs, e <> SerialExecutor ->
  length dc = nFaces m -> length gamma = nFaces m -> length (magFaceAreas m) = nFaces m ->
  boundary_ok m phi -> coeff_ok scaling (nCells m) -> sys_ok m p values rhs ->
  (forall b, b < nBoundaryFaces m -> let f := nInternalFaces m + b in
     at0 gamma f <> 0%Qc /\ at0 (magFaceAreas m) f <> 0%Qc /\ at0 dc f <> 0%Qc /\ coeff_val scaling (atn (bFaceCells (bmesh m)) b) <> 0%Qc /\
     (at0 (vf_valueFraction phi) b = 0%Qc -> at0 (vf_refGrad phi) b <> 0%Qc)) ->
  ((forall r r', computeLaplacianImpl SerialExecutor m p (sp_rowPtrs p) dc gamma phi scaling [values; rhs] r ->
      computeLaplacianImpl e m p (sp_rowPtrs p) dc gamma phi scaling [values; rhs] r' -> r = r') <-> boundary_once m).
Proof.
  intros m p Hm Hp Hpl e dc gamma phi scaling values rhs He Hdc Hg Hmag Hb Hsc Hs Hnz. split.
  - intros Hdet b b' Hbb Hbb' Efc. destruct (decide (b = b')) as [|Hne]; [done|exfalso].
    destruct (lap_race_general m Hm p Hp Hpl dc gamma phi scaling Hdc Hg Hmag Hb Hsc e values rhs b b' He Hs Hbb Hbb' Hne Efc) as [(vs & rs & vc & rc & R1 & R2 & _ & _ & G) (vs' & rs' & vc' & rc' & R1' & R2' & _ & _ & G')].
    destruct (Hnz b' Hbb') as (N1 & N2 & N3 & N4 & N5).
    pose proof (Hdet _ _ R1 R2) as E. injection E as -> ->. pose proof (Hdet _ _ R1' R2') as E. injection E as -> ->.
    apply lost_zero' in G. apply lost_zero' in G'. cbn in G, G'.
    destruct (Qc_eq_dec (at0 (vf_valueFraction phi) b') 0%Qc) as [E1|E1].
    + rewrite E1 in G'. specialize (N5 E1). change (@atV Qc Qc_value) with at0 in G'. rewrite !Qcmult_0_l, Qcplus_0_l in G'.
      apply Qcmult_integral in G' as [G'|G']; [by repeat apply Qcmult_integral in G' as [G'|G']|].
      apply Qcmult_integral in G' as [G'|G']; [discriminate G'|done].
    + rewrite Qcmult_1_r in G. by repeat apply Qcmult_integral in G as [G|G].
  - intros Ho r r' R1 R2. by apply (C35_laplacian_schedule_independent m p Hm Hp Hpl e dc gamma phi scaling values rhs r r').
Qed.
Print Assumptions C77_laplacian_exactly.
(** Both sides of the equivalence occur: a cell with two boundary faces, and a row
    of two cells with one each. *)
Example C77_instance :
  ~ boundary_once cell1 /\ boundary_once row2 /\
  (forall b, b < nBoundaryFaces cell1 -> at0 [1; 1]%Qc (nInternalFaces cell1 + b) <> 0%Qc /\ coeff_val coeff_default (atn (bFaceCells (bmesh cell1)) b) <> 0%Qc /\
     (at0 (vf_valueFraction phi1) b = 1%Qc -> at0 (vf_refValue phi1) b <> 0%Qc)) /\
  ~ (forall r r', computeDivImp SerialExecutor cell1 pat1 (sp_rowPtrs pat1) [1; 1]%Qc phi1 coeff_default (zero_system cell1 pat1) r ->
      computeDivImp CPUExecutor cell1 pat1 (sp_rowPtrs pat1) [1; 1]%Qc phi1 coeff_default (zero_system cell1 pat1) r' -> r = r').
Proof.
  assert (Ho : ~ boundary_once cell1).
  { intros H. specialize (H 0 1 ltac:(simpl; lia) ltac:(simpl; lia) eq_refl). lia. }
  assert (Hn : forall b, b < nBoundaryFaces cell1 -> at0 [1; 1]%Qc (nInternalFaces cell1 + b) <> 0%Qc /\ coeff_val coeff_default (atn (bFaceCells (bmesh cell1)) b) <> 0%Qc /\
     (at0 (vf_valueFraction phi1) b = 1%Qc -> at0 (vf_refValue phi1) b <> 0%Qc)).
  { intros [|[|b]] Hb; simpl in Hb; try lia; (split; [|split]); intros E; apply (f_equal this) in E; vm_compute in E; discriminate. }
  split; [exact Ho|]. split; [apply C35_instance|]. split; [exact Hn|].
  destruct pat1_ok as [Hp Hpl]. intros Hdet. apply Ho.
  refine (proj1 (C77_div_exactly cell1 pat1 cell1_topology Hp Hpl CPUExecutor [1; 1]%Qc phi1 coeff_default _ _ _ _ _ _ (zero_sys_ok cell1 pat1) Hn) Hdet); done.
Qed.

(** * C78: implicit and explicit Laplacian agree in a cell if and only if the
    fluxes with gamma - 1 balance there. *)
Section lin.
  Context {V : Type} `{HL : ValueLaws V} `{HU : ValueUnit V} `{HUL : !UnitLaws V}.
  Add Ring Vring10 : (V_ring (V := V)).
  Lemma balance_sub m (F G : nat -> V) c : cell_balance m (fun f => vsub (F f) (G f)) c = vsub (cell_balance m F c) (cell_balance m G c).
  Proof using HL HUL.
    unfold cell_balance.
    assert (E : forall n (P : nat -> Prop) `{forall f, Decision (P f)} (h : nat -> nat),
      vsum_over n (fun f => if decide (P f) then vsub (F (h f)) (G (h f)) else vzero) =
      vsub (vsum_over n (fun f => if decide (P f) then F (h f) else vzero)) (vsum_over n (fun f => if decide (P f) then G (h f) else vzero))).
    { intros n P ? h. unfold vsub at 2. rewrite <- vsum_over_neg, <- vsum_over_add. apply vsum_over_ext. intros f _.
      destruct (decide (P f)); [done|ring]. }
    rewrite (E (nInternalFaces m) (fun f => atn (faceOwner m) f = c) _ (fun f => f)).
    rewrite (E (nInternalFaces m) (fun f => atn (faceNeighbour m) f = c) _ (fun f => f)).
    rewrite (E (nBoundaryFaces m) (fun b => atn (bFaceCells (bmesh m)) b = c) _ (fun b => nInternalFaces m + b)). ring.
  Qed.
  Lemma sub_zero (a b : V) : a = b <-> vsub a b = vzero.
  Proof using HL HUL. split; [intros ->; ring|]. intros E. transitivity (vadd (vsub a b) b); [ring|]. rewrite E. ring. Qed.
End lin.
Theorem C78_agree_exactly : forall {V} `{ValueLaws V} `{!ValueUnit V} `{!UnitLaws V} m p,
  valid_topology m -> pattern_rows m p -> pattern_located m p ->
  forall e dc gamma (phi : volField V) junk scaling values rhs explicit c, no_boundary_race e m ->
  field_ok m phi -> length junk = nFaces m ->
  length dc = nFaces m -> length gamma = nFaces m -> length (magFaceAreas m) = nFaces m ->
  boundary_ok m phi -> coeff_ok scaling (nCells m) -> mixed_boundary m dc phi ->
  computeLaplacianImpl e m p (sp_rowPtrs p) dc gamma phi scaling (zero_system m p) (Some [values; rhs]) ->
  laplacian_explicitOperation e m dc gamma phi junk scaling (replicate (nCells m) vzero) (Some explicit) ->
  c < nCells m -> coeff_val scaling c <> 0%Qc ->
  (residual p values rhs (vf_int phi) c = vscale (at0 (cellVolumes m) c) (atV explicit c) <->
   cell_balance m (fun f => vscale ((at0 gamma f - 1) * at0 (magFaceAreas m) f)%Qc (normal_gradient m phi dc f)) c = vzero).
Proof.
  intros V ? ? ? ? m p Hm Hp Hpl e dc gamma phi junk scaling values rhs explicit c Hr Hf Hj Hdc Hg Hmag Hb Hsc Hmix E1 E2 Hc Hs.
  destruct (C36_matches_laplacian m p Hm Hp Hpl e dc gamma phi scaling) as (v' & r' & H1 & H3); try done.
  apply H1 in E1. injection E1 as -> ->. rewrite H3 by done.
  apply (laplacian_add_spec m Hm) in E2; try done; [|by rewrite replicate_length]. injection E2 as ->.
  rewrite atV_seq, atV_zero, vadd_0_l by done. unfold laplacian_gamma_spec, laplacian_spec. rewrite !volume_cancel by done.
  rewrite sub_zero. unfold vsub at 1. rewrite <- vscale_neg, <- vscale_add. rewrite scale_zero by done.
  change (vadd ?a (vneg ?b)) with (vsub a b). rewrite <- balance_sub.
  rewrite (cell_balance_ext m Hm _ (fun f => vscale ((at0 gamma f - 1) * at0 (magFaceAreas m) f)%Qc (normal_gradient m phi dc f)) c); [done|].
  intros f _. unfold vsub. rewrite <- vscale_opp, <- vscale_add_l. f_equal. ring.
Qed.
Print Assumptions C78_agree_exactly.

(** Non-vacuity: gamma = 2 on a single cell. *)
Example C78_instance : exists values rhs explicit,
  valid_topology cell1 /\ pattern_rows cell1 pat1 /\ pattern_located cell1 pat1 /\ no_boundary_race SerialExecutor cell1 /\
  field_ok cell1 phi1d /\ boundary_ok cell1 phi1d /\ mixed_boundary cell1 [1; 1]%Qc phi1d /\
  coeff_ok coeff_default (nCells cell1) /\ coeff_val coeff_default 0 <> 0%Qc /\
  computeLaplacianImpl SerialExecutor cell1 pat1 (sp_rowPtrs pat1) [1; 1]%Qc [Q2Qc 2; Q2Qc 2] phi1d coeff_default (zero_system cell1 pat1) (Some [values; rhs]) /\
  laplacian_explicitOperation SerialExecutor cell1 [1; 1]%Qc [Q2Qc 2; Q2Qc 2] phi1d [0; 0]%Qc coeff_default (replicate (nCells cell1) vzero) (Some explicit).
Proof.
  destruct pat1_ok as [Hp Hpl].
  assert (Hmix : mixed_boundary cell1 [1; 1]%Qc phi1d).
  { intros [|[|b]] Hb; simpl in Hb; try lia; (split; [done|apply Qc_is_canon; reflexivity]). }
  destruct (C36_matches_laplacian cell1 pat1 cell1_topology Hp Hpl SerialExecutor [1; 1]%Qc [Q2Qc 2; Q2Qc 2] phi1d coeff_default)
    as (v & r & Hv & Hres); try done; [by left|].
  pose proof (laplacian_add_spec cell1 cell1_topology SerialExecutor phi1d [1; 1]%Qc [Q2Qc 2; Q2Qc 2] [0; 0]%Qc (replicate 1 0%Qc) coeff_default) as He.
  do 6 (specialize (He ltac:(done))). eexists v, r, _.
  split; [apply cell1_topology|]. split; [done|]. split; [done|]. split; [by left|]. do 2 (split; [done|]). split; [done|]. split; [done|].
  split; [intros E; apply (f_equal this) in E; vm_compute in E; discriminate|].
  split; [by apply Hv|]. apply (He _). reflexivity.
Qed.

(** * C79: the explicit time derivative is scaled by its coefficient in a cell if
    and only if the coefficient is 1 there or the field has not changed. *)
Theorem C79_scaling_exactly : forall m e scaling dt (field old source added : list Qc) c,
  valid_topology m -> length field = nCells m -> length old = nCells m -> length source = nCells m ->
  dt <> 0%Qc -> ddt_explicit e m scaling dt field old source (Some [added]) -> c < nCells m ->
  (at0 added c = (at0 source c + coeff_val scaling c * at0 (cellVolumes m) c / dt * (at0 field c - at0 old c))%Qc <->
   coeff_val scaling c = 1%Qc \/ at0 field c = at0 old c).
Proof.
  intros m e scaling dt field old source added c Hm H1 H2 H3 Hdt E Hc.
  apply (C38_ddt_explicit m Hm) in E; try done. injection E as ->.
  change at0 with (@atV Qc Qc_value). rewrite atV_seq by done. cbn.
  pose proof (vol_nz m Hm c Hc) as Hv. change (@atV Qc Qc_value) with at0 in *.
  change (vsub ?a ?b) with (a - b)%Qc.
  generalize dependent (at0 (cellVolumes m) c). intros v Hv. generalize (at0 field c) (at0 old c) (at0 source c) (coeff_val scaling c). intros x y z s.
  split.
  - intros E. apply (f_equal (fun q => (q - z) * dt / v)%Qc) in E.
    replace ((z + v / dt * (x - y) - z) * dt / v)%Qc with (x - y)%Qc in E by (field; done).
    replace ((z + s * v / dt * (x - y) - z) * dt / v)%Qc with (s * (x - y))%Qc in E by (field; done).
    assert (E' : ((s - 1) * (x - y))%Qc = 0%Qc). { replace ((s - 1) * (x - y))%Qc with (s * (x - y) - (x - y))%Qc by ring. rewrite <- E. field. done. }
    apply Qcmult_integral in E' as [E'|E']; [left|right].
    + apply (f_equal (fun q => q + 1)%Qc) in E'. ring_simplify in E'. done.
    + apply (f_equal (fun q => q + y)%Qc) in E'. ring_simplify in E'. done.
  - intros [->| ->]; field; done.
Qed.
Print Assumptions C79_scaling_exactly.

(** Non-vacuity: coefficient 2, a field that changed. *)
Example C79_instance : valid_topology cell1 /\ coeff_val (coeff_scalar (Q2Qc 2)) 0 <> 1%Qc /\
  exists added, ddt_explicit CPUExecutor cell1 (coeff_scalar (Q2Qc 2)) 1%Qc [1%Qc] [0%Qc] [0%Qc] (Some [added]).
Proof.
  split; [apply cell1_topology|]. split; [intros E; apply (f_equal this) in E; vm_compute in E; discriminate|].
  eexists. apply (C38_ddt_explicit cell1 cell1_topology CPUExecutor (coeff_scalar (Q2Qc 2)) 1%Qc [1%Qc] [0%Qc] [0%Qc] eq_refl eq_refl eq_refl). reflexivity.
Qed.
