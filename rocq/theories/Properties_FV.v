(** C32, C33, C37, C40, C42, C44, C52: explicit finite-volume operators,
    interpolation, coefficients, Vector.

    [always op res]: under every schedule of every executor the operation
    terminates without undefined behaviour and yields exactly [res].
    [junk]/[uninit] are arbitrary contents of uninitialised memory. *)
From Verif Require Import Base Par Exec Value Kernel Mesh MeshSpec MeshProofs Coeff FV FVSpec
  FVProofs FVProps ExampleMesh CoeffProofs.

(** * C32 *)
Theorem C32_explicit_div : forall {V} `{ValueLaws V} m, valid_topology m ->
  forall e s (phi : volField V) flux weights junk source scaling,
  field_ok m phi -> length flux = nFaces m -> length weights = nFaces m ->
  length junk = nFaces m -> length source = nCells m -> coeff_ok scaling (nCells m) ->
  always (div_explicitOperation e m flux phi s weights junk scaling source)
    (map (fun c => vadd (atV source c) (div_spec m s flux weights phi scaling c)) (seq 0 (nCells m))).
Proof. intros V HV HL m Hm. exact (div_add_spec m Hm). Qed.
Print Assumptions C32_explicit_div.

(** The serial code path and every run of the atomic code path agree. *)
Theorem C32_paths_agree : forall {V} `{ValueLaws V} m, valid_topology m ->
  forall e s (phi : volField V) flux weights junk junk' target scaling r r',
  field_ok m phi -> length flux = nFaces m -> length weights = nFaces m ->
  length junk = nFaces m -> length junk' = nFaces m ->
  length target = nCells m -> coeff_ok scaling (nCells m) ->
  computeDivExp SerialExecutor m flux phi s weights junk target scaling r ->
  computeDivExp e m flux phi s weights junk' target scaling r' ->
  r = r' /\ r <> None.
Proof.
  intros V HV HL m Hm e s phi flux weights junk junk' target scaling r r' Hp Hf Hw Hj Hj' Ht Hc H1 H2.
  apply (div_target_exact m Hm) in H1; try done. apply (div_target_exact m Hm) in H2; try done.
  subst. done.
Qed.
Print Assumptions C32_paths_agree.

(** Conservation: the volume-weighted sum over all cells is the boundary flux. *)
Theorem C32_conservation : forall {V} `{ValueLaws V} m, valid_topology m ->
  forall s (phi : volField V) flux weights,
  vsum_over (nCells m) (fun c => vscale (at0 (cellVolumes m) c)
     (div_spec m s flux weights phi coeff_default c))
  = vsum_over (nBoundaryFaces m) (fun b =>
      vscale (at0 flux (nInternalFaces m + b))
        (vscale (at0 weights (nInternalFaces m + b)) (atV (vf_value phi) b))).
Proof. intros V HV HL m Hm. exact (div_conservative m Hm). Qed.
Print Assumptions C32_conservation.

(** Concrete case: 2x2 mesh, upwind, parallel executor, non-trivial data. *)
Definition phi22 : volField Qc :=
  VolField [1; Q2Qc 2; Q2Qc 3; Q2Qc 4]%Qc [1; 1; 1; 1; 1; 1; 1; 1]%Qc (replicate 8 0%Qc) (replicate 8 0%Qc) (replicate 8 0%Qc).
Definition flux22 : list Qc := [1; -(1); Q2Qc 2; -Q2Qc 2; Q2Qc 3; 0; 0; 0; 0; 0; 0; 1]%Qc.
Example C32_instance :
  valid_topology mesh22 /\ field_ok mesh22 phi22 /\ length flux22 = nFaces mesh22 /\
  coeff_ok coeff_default (nCells mesh22) /\
  div_spec mesh22 Upwind flux22 (replicate 12 1%Qc) phi22 coeff_default 0 = (Q2Qc 4)%Qc.
Proof.
  split; [apply mesh22_topology|]. split; [done|]. split; [done|]. split; [done|].
  apply (bool_decide_unpack _). vm_compute. reflexivity.
Qed.

(** * C33: what div(result,...) leaves in a result field holding [target] is
    scaling/V * target + div: neither the value nor target + value. *)
Theorem C33_div_target_exact : forall {V} `{ValueLaws V} m, valid_topology m ->
  forall e s (phi : volField V) flux weights junk target scaling,
  field_ok m phi -> length flux = nFaces m -> length weights = nFaces m ->
  length junk = nFaces m -> length target = nCells m -> coeff_ok scaling (nCells m) ->
  always (computeDivExp e m flux phi s weights junk target scaling)
    [map (fun c => vadd (per_volume m scaling c (atV target c)) (div_spec m s flux weights phi scaling c))
         (seq 0 (nCells m))].
Proof. intros V HV HL m Hm. exact (div_target_exact m Hm). Qed.
Print Assumptions C33_div_target_exact.

Theorem C33_grad_target_exact : forall m, valid_topology m ->
  forall e (phi : volField Qc) weights junk (target : list vec),
  field_ok m phi -> length weights = nFaces m -> length junk = nFaces m ->
  length (faceAreas m) = nFaces m -> length target = nCells m ->
  always (computeGrad e m phi weights junk target)
    [map (fun c => vadd (vscale (1 / at0 (cellVolumes m) c)%Qc (atV target c)) (grad_spec m weights phi c))
         (seq 0 (nCells m))].
Proof. exact grad_target_exact. Qed.
Print Assumptions C33_grad_target_exact.

Theorem C33_laplacian_target_exact : forall {V} `{ValueLaws V} m, valid_topology m ->
  forall e (phi : volField V) dc gamma junk target scaling,
  field_ok m phi -> length dc = nFaces m -> length junk = nFaces m ->
  length (magFaceAreas m) = nFaces m -> length target = nCells m -> coeff_ok scaling (nCells m) ->
  always (computeLaplacianExp e m dc gamma phi junk target scaling)
    [map (fun c => vadd (per_volume m scaling c (atV target c)) (laplacian_spec m dc phi scaling c))
         (seq 0 (nCells m))].
Proof. intros V HV HL m Hm. exact (laplacian_target_exact m Hm). Qed.
Print Assumptions C33_laplacian_target_exact.

(** The property, and its refutation: on a mesh whose volumes are not 1 a dirty
    result field gives neither reading. *)
Definition C33_property : Prop :=
  forall m e s (phi : volField Qc) flux weights junk target scaling,
  valid_topology m -> field_ok m phi -> length flux = nFaces m -> length weights = nFaces m ->
  length junk = nFaces m -> length target = nCells m -> coeff_ok scaling (nCells m) ->
  computeDivExp e m flux phi s weights junk target scaling
    (Some [map (div_spec m s flux weights phi scaling) (seq 0 (nCells m))]) \/
  computeDivExp e m flux phi s weights junk target scaling
    (Some [map (fun c => vadd (atV target c) (div_spec m s flux weights phi scaling c)) (seq 0 (nCells m))]).

Theorem C75_dirty_target_refuted : ~ C33_property.
Proof.
  intros HP.
  specialize (HP mesh22 SerialExecutor Linear phi22 (replicate 12 0%Qc) (replicate 12 1%Qc)
    (replicate 12 0%Qc) [1; 1; 1; 1]%Qc coeff_default mesh22_topology).
  assert (field_ok mesh22 phi22) as Hf by done.
  destruct HP as [HP|HP]; try done;
    apply (div_target_exact mesh22 mesh22_topology) in HP; try done; vm_compute in HP; congruence.
Qed.
Print Assumptions C75_dirty_target_refuted.

(** div(...) returning a fresh field never initialises it: two contents of the
    uninitialised memory give two different results. *)
Theorem C75_div_value_uninitialised_refuted :
  exists m e s (phi : volField Qc) flux weights junk uninit uninit' scaling r r',
    valid_topology m /\ field_ok m phi /\
    div_value e m flux phi s weights junk uninit scaling (Some r) /\
    div_value e m flux phi s weights junk uninit' scaling (Some r') /\ r <> r'.
Proof.
  exists mesh22, SerialExecutor, Linear, phi22, (replicate 12 0%Qc), (replicate 12 1%Qc),
    (replicate 12 0%Qc), [1; 1; 1; 1]%Qc, [0; 0; 0; 0]%Qc, coeff_default.
  eexists _, _. split; [apply mesh22_topology|]. split; [done|].
  split; [apply (div_target_exact mesh22 mesh22_topology); done|].
  split; [apply (div_target_exact mesh22 mesh22_topology); done|].
  intros Heq. vm_compute in Heq. congruence.
Qed.
Print Assumptions C75_div_value_uninitialised_refuted.

(** On a zero-filled result field the operators give their value. *)
Theorem C33_zero_target : forall {V} `{ValueLaws V} m, valid_topology m ->
  forall e s (phi : volField V) flux weights junk scaling,
  field_ok m phi -> length flux = nFaces m -> length weights = nFaces m ->
  length junk = nFaces m -> coeff_ok scaling (nCells m) ->
  always (computeDivExp e m flux phi s weights junk (replicate (nCells m) vzero) scaling)
    [map (div_spec m s flux weights phi scaling) (seq 0 (nCells m))].
Proof.
  intros V HV HL m Hm e s phi flux weights junk scaling Hp Hf Hw Hj Hc r.
  etransitivity; [apply (div_target_exact m Hm); try done; apply replicate_length|].
  assert (forall x y : list V, x = y -> (r = Some [x] <-> r = Some [y])) as Hq by (intros ?? ->; done).
  apply Hq, map_ext. intros c. unfold per_volume. by rewrite atV_zero, vscale_0_r, vadd_0_l.
Qed.
Print Assumptions C33_zero_target.

Theorem C33_grad_zero_target : forall m, valid_topology m ->
  forall e (phi : volField Qc) weights junk,
  field_ok m phi -> length weights = nFaces m -> length junk = nFaces m -> length (faceAreas m) = nFaces m ->
  always (computeGrad e m phi weights junk (replicate (nCells m) vzero))
    [map (grad_spec m weights phi) (seq 0 (nCells m))].
Proof.
  intros m Hm e phi weights junk Hp Hw Hj Ha r.
  etransitivity; [apply (C33_grad_target_exact m Hm); try done; apply replicate_length|].
  assert (forall x y : list vec, x = y -> (r = Some [x] <-> r = Some [y])) as Hq by (intros ?? ->; done).
  apply Hq, map_ext. intros c. by rewrite atV_zero, vscale_0_r, vadd_0_l.
Qed.
Print Assumptions C33_grad_zero_target.

Theorem C33_laplacian_zero_target : forall {V} `{ValueLaws V} m, valid_topology m ->
  forall e (phi : volField V) dc gamma junk scaling,
  field_ok m phi -> length dc = nFaces m -> length junk = nFaces m ->
  length (magFaceAreas m) = nFaces m -> coeff_ok scaling (nCells m) ->
  always (computeLaplacianExp e m dc gamma phi junk (replicate (nCells m) vzero) scaling)
    [map (laplacian_spec m dc phi scaling) (seq 0 (nCells m))].
Proof.
  intros V HV HL m Hm e phi dc gamma junk scaling Hp Hd Hj Ha Hc r.
  etransitivity; [apply (C33_laplacian_target_exact m Hm); try done; apply replicate_length|].
  assert (forall x y : list V, x = y -> (r = Some [x] <-> r = Some [y])) as Hq by (intros ?? ->; done).
  apply Hq, map_ext. intros c. unfold per_volume. by rewrite atV_zero, vscale_0_r, vadd_0_l.
Qed.
Print Assumptions C33_laplacian_zero_target.

(** Non-vacuity: all hypotheses at once, and an outcome for each operator on a
    parallel executor. *)
Example C33_instance : let one12 := replicate 12 1%Qc in
  valid_topology mesh22 /\ field_ok mesh22 phi22 /\ length flux22 = nFaces mesh22 /\ length one12 = nFaces mesh22 /\
  length (faceAreas mesh22) = nFaces mesh22 /\ length (magFaceAreas mesh22) = nFaces mesh22 /\
  coeff_ok (coeff_scalar (Q2Qc 2)) (nCells mesh22) /\
  (exists r, computeDivExp CPUExecutor mesh22 flux22 phi22 Upwind one12 one12 [1; 0; 1; 0]%Qc (coeff_scalar (Q2Qc 2)) (Some [r])) /\
  (exists r, computeGrad CPUExecutor mesh22 phi22 one12 one12 (replicate 4 vec_zero) (Some [r])) /\
  (exists r, computeLaplacianExp CPUExecutor mesh22 one12 one12 phi22 one12 [1; 0; 1; 0]%Qc (coeff_scalar (Q2Qc 2)) (Some [r])).
Proof.
  cbv zeta. split; [apply mesh22_topology|]. do 6 (split; [done|]).
  split; [|split]; eexists.
  - apply (C33_div_target_exact mesh22 mesh22_topology); done.
  - apply (C33_grad_target_exact mesh22 mesh22_topology); done.
  - apply (C33_laplacian_target_exact mesh22 mesh22_topology); done.
Qed.

(** * C37 *)
Theorem C37_gradient : forall m, valid_topology m ->
  forall e (phi : volField Qc) weights junk,
  field_ok m phi -> length weights = nFaces m -> length junk = nFaces m ->
  length (faceAreas m) = nFaces m ->
  always (grad_value e m phi weights junk) [map (grad_spec m weights phi) (seq 0 (nCells m))].
Proof. exact grad_value_spec. Qed.
Print Assumptions C37_gradient.

Theorem C37_constant_field : forall m, valid_topology m ->
  forall weights (phi : volField Qc) k c,
  constant_field m phi k ->
  (forall b, b < nBoundaryFaces m -> at0 weights (nInternalFaces m + b) = 1%Qc) ->
  outward_area m c = vec_zero ->
  grad_spec m weights phi c = vec_zero.
Proof. exact grad_constant. Qed.
Print Assumptions C37_constant_field.

Theorem C37_boundary_integral : forall m, valid_topology m ->
  forall weights (phi : volField Qc),
  vsum_over (nCells m) (fun c => vscale (at0 (cellVolumes m) c) (grad_spec m weights phi c))
  = vsum_over (nBoundaryFaces m) (fun b =>
      vscale (at0 weights (nInternalFaces m + b) * at0 (vf_value phi) b)%Qc
        (atv (faceAreas m) (nInternalFaces m + b))).
Proof. exact grad_total. Qed.
Print Assumptions C37_boundary_integral.

Theorem C37_surface_integrate : forall {V} `{ValueLaws V} m, valid_topology m ->
  forall e flux source scaling,
  length flux = nFaces m -> length source = nCells m -> coeff_ok scaling (nCells m) ->
  always (surfaceIntegrate_explicitOperation e m flux scaling source)
    (map (fun c => vadd (atV source c) (surface_integral_spec m flux scaling c)) (seq 0 (nCells m))).
Proof. intros V HV HL m Hm. exact (si_add_spec m Hm). Qed.
Print Assumptions C37_surface_integrate.

Theorem C37_surface_integrate_conservation : forall {V} `{ValueLaws V} m, valid_topology m ->
  forall flux : list V,
  vsum_over (nCells m) (fun c => vscale (at0 (cellVolumes m) c)
     (surface_integral_spec m flux coeff_default c))
  = vsum_over (nBoundaryFaces m) (fun b => atV flux (nInternalFaces m + b)).
Proof. intros V HV HL m Hm. exact (si_conservative m Hm). Qed.
Print Assumptions C37_surface_integrate_conservation.

Example C37_instance :
  valid_topology mesh22 /\ (forall c, c < 4 -> outward_area mesh22 c = vec_zero) /\
  field_ok mesh22 phi22 /\
  grad_spec mesh22 (replicate 12 1%Qc) phi22 3 = Vec (Q2Qc (-4)) (Q2Qc (-2)) 0.
Proof.
  split; [apply mesh22_topology|]. split; [apply mesh22_geometry|]. split; [done|].
  apply (bool_decide_unpack _). vm_compute. reflexivity.
Qed.

(** * C40 *)
Theorem C40_interpolation : forall {V} `{ValueLaws V} m, valid_topology m ->
  forall s e (phi : volField V) flux weights dst,
  field_ok m phi -> length flux = nFaces m -> length weights = nFaces m -> length dst = nFaces m ->
  always (interpolate s e m flux phi weights dst)
    [map (face_value m s phi flux weights) (seq 0 (nFaces m))].
Proof. intros V HV HL m Hm. exact (interpolate_exact m Hm). Qed.
Print Assumptions C40_interpolation.

Theorem C40_bounded : forall m (phi : volField Qc) flux weights f lo hi s,
  f < nInternalFaces m -> (0 <= at0 weights f)%Qc -> (at0 weights f <= 1)%Qc ->
  (lo <= at_owner m phi f)%Qc -> (lo <= at_neighbour m phi f)%Qc ->
  (at_owner m phi f <= hi)%Qc -> (at_neighbour m phi f <= hi)%Qc ->
  (lo <= face_value m s phi flux weights f)%Qc /\ (face_value m s phi flux weights f <= hi)%Qc.
Proof.
  intros m phi flux weights f lo hi s Hf H0 H1 Ha Hb Ha' Hb'. unfold face_value.
  rewrite decide_True by done. destruct s.
  - by apply linear_between'.
  - destruct (Qclt_le_dec _ _); done.
Qed.
Print Assumptions C40_bounded.

Theorem C40_constant : forall {V} `{ValueLaws V} m, valid_topology m ->
  forall s (phi : volField V) flux weights k f,
  constant_field m phi k ->
  (forall b, b < nBoundaryFaces m -> at0 weights (nInternalFaces m + b) = 1%Qc) ->
  f < nFaces m -> face_value m s phi flux weights f = k.
Proof. intros V HV HL m Hm. exact (face_value_constant m Hm). Qed.
Print Assumptions C40_constant.

Example C40_instance :
  face_value mesh22 Linear phi22 flux22 (replicate 12 half) 2 = Q2Qc 3 /\
  face_value mesh22 Upwind phi22 flux22 (replicate 12 half) 3 = Q2Qc 4 /\
  constant_field mesh22 (VolField (replicate 4 half) (replicate 8 half) [] [] []) half.
Proof.
  split; [apply (bool_decide_unpack _); vm_compute; reflexivity|].
  split; [apply (bool_decide_unpack _); vm_compute; reflexivity|].
  split; intros i Hi; unfold atV; cbn [vf_int vf_value]; rewrite lookup_replicate_2; done.
Qed.

(** * C42 *)
Theorem C42_face_normal_gradient : forall {V} `{ValueLaws V} m, valid_topology m ->
  forall e (phi : volField V) dc dst,
  field_ok m phi -> length dc = nFaces m -> length dst = nFaces m ->
  always (computeFaceNormalGrad e m phi dc dst) [map (normal_gradient m phi dc) (seq 0 (nFaces m))].
Proof. intros V HV HL m Hm. exact (fng_exact m Hm). Qed.
Print Assumptions C42_face_normal_gradient.

Theorem C42_constant : forall {V} `{ValueLaws V} m, valid_topology m ->
  forall (phi : volField V) dc k f,
  constant_field m phi k -> f < nFaces m -> normal_gradient m phi dc f = vzero.
Proof. intros V HV HL m Hm. exact (normal_gradient_constant m Hm). Qed.
Print Assumptions C42_constant.

(** Exact for a linear field a.x + b0 wherever the delta coefficients turn the
    centre-to-centre vectors into unit normals [n] (orthogonal faces). *)
Theorem C42_linear_exact : forall (m : mesh) (a : vec) (b0 : Qc) (phi : volField Qc) (dc : list Qc)
  (n : nat -> vec) f,
  valid_topology m ->
  (forall c, c < nCells m -> at0 (vf_int phi) c = (vec_dot a (atv (cellCentres m) c) + b0)%Qc) ->
  (forall b, b < nBoundaryFaces m ->
     at0 (vf_value phi) b = (vec_dot a (atv (faceCentres m) (nInternalFaces m + b)) + b0)%Qc) ->
  (forall f, f < nInternalFaces m ->
     vec_scale (at0 dc f) (vec_sub (atv (cellCentres m) (atn (faceNeighbour m) f))
                                   (atv (cellCentres m) (atn (faceOwner m) f))) = n f) ->
  (forall b, b < nBoundaryFaces m ->
     vec_scale (at0 dc (nInternalFaces m + b))
       (vec_sub (atv (faceCentres m) (nInternalFaces m + b))
                (atv (cellCentres m) (atn (bFaceCells (bmesh m)) b))) = n (nInternalFaces m + b)) ->
  f < nFaces m ->
  normal_gradient m phi dc f = vec_dot a (n f).
Proof. exact normal_gradient_linear. Qed.
Print Assumptions C42_linear_exact.

(** On the uniform 1D mesh with inverse-distance delta coefficients the hypotheses
    hold with the outward unit normals. *)
Theorem C42_linear_exact_1d : forall e N ownJunk neiJunk m (a : vec) (b0 : Qc) (phi : volField Qc) dc f,
  1 <= N -> length ownJunk = N + 1 -> length neiJunk = N - 1 ->
  create1DUniformMesh e N ownJunk neiJunk (Some m) ->
  (forall c, c < nCells m -> at0 (vf_int phi) c = (vec_dot a (atv (cellCentres m) c) + b0)%Qc) ->
  (forall b, b < nBoundaryFaces m ->
     at0 (vf_value phi) b = (vec_dot a (atv (faceCentres m) (nInternalFaces m + b)) + b0)%Qc) ->
  (forall f, f < nInternalFaces m -> at0 dc f = Qc_of_nat N) ->
  (forall b, b < nBoundaryFaces m -> at0 dc (nInternalFaces m + b) = ((1 + 1) * Qc_of_nat N)%Qc) ->
  f < nFaces m ->
  normal_gradient m phi dc f = vec_dot a (atv (faceAreas m) f).
Proof. exact normal_gradient_1d. Qed.
Print Assumptions C42_linear_exact_1d.

(** Non-vacuity: the field 2x + 1 on three cells. *)
Example C42_instance : let a := Vec (Q2Qc 2) 0%Qc 0%Qc in exists m (phi : volField Qc) dc,
  create1DUniformMesh CPUExecutor 3 (replicate 4 0) (replicate 2 0) (Some m) /\ valid_topology m /\ field_ok m phi /\ length dc = nFaces m /\
  (forall c, c < nCells m -> at0 (vf_int phi) c = (vec_dot a (atv (cellCentres m) c) + 1)%Qc) /\
  (forall b, b < nBoundaryFaces m ->
     at0 (vf_value phi) b = (vec_dot a (atv (faceCentres m) (nInternalFaces m + b)) + 1)%Qc) /\
  (forall f, f < nInternalFaces m -> at0 dc f = Qc_of_nat 3) /\
  (forall b, b < nBoundaryFaces m -> at0 dc (nInternalFaces m + b) = ((1 + 1) * Qc_of_nat 3)%Qc).
Proof.
  cbv zeta. destruct (create1D_defined CPUExecutor 3 (replicate 4 0) (replicate 2 0)) as (m & Hm); [lia|done|done|].
  destruct (create1D_spec CPUExecutor 3 (replicate 4 0) (replicate 2 0) (Some m) ltac:(lia) ltac:(done) ltac:(done) Hm) as (m' & [= <-] & HC & HI & HB & _ & Ht & _).
  pose proof (vt_faces _ Ht) as HF. rewrite HI, HB in HF. simpl in HF, HI.
  exists m, (VolField (map (fun c => (vec_dot (Vec (Q2Qc 2) 0 0) (atv (cellCentres m) c) + 1)%Qc) (seq 0 3))
               (map (fun b => (vec_dot (Vec (Q2Qc 2) 0 0) (atv (faceCentres m) (nInternalFaces m + b)) + 1)%Qc) (seq 0 2)) [] [] []),
    [Qc_of_nat 3; Qc_of_nat 3; ((1 + 1) * Qc_of_nat 3)%Qc; ((1 + 1) * Qc_of_nat 3)%Qc].
  split; [done|]. split; [done|]. split; [split; simpl; lia|]. split; [simpl; lia|]. rewrite HC, HB, HI.
  split; [intros [|[|[|c]]] Hc; [reflexivity..|lia]|]. split; [intros [|[|b]] Hb; [reflexivity..|lia]|].
  split; [intros [|[|f]] Hf; [reflexivity..|lia]|]. intros [|[|b]] Hb; [reflexivity..|lia].
Qed.

(** * C44 *)
Theorem C44_value : forall c (l : list Qc) i x,
  coeff_at coeff_default i = Some 1%Qc /\
  coeff_at (coeff_scalar c) i = Some c /\
  (l !! i = Some x -> coeff_at (coeff_field l) i = Some x /\
                      coeff_at (coeff_scalar_field c l) i = Some (c * x)%Qc) /\
  (l !! i = None -> coeff_at (coeff_field l) i = None /\ coeff_at (coeff_scalar_field c l) i = None).
Proof. exact coeff_values. Qed.
Print Assumptions C44_value.

(** Multiplication is pointwise, and refused exactly when both carry a field. *)
Theorem C44_multiplication : forall a b,
  (coeff_mul a b = Exit <-> (is_Some (view_ a) /\ is_Some (view_ b))) /\
  (forall i x y, coeff_at a i = Some x -> coeff_at b i = Some y ->
     ~ (is_Some (view_ a) /\ is_Some (view_ b)) ->
     exists c, coeff_mul a b = Ok c /\ coeff_at c i = Some (x * y)%Qc) /\
  (coeff_mul a b = Exit \/ exists c, coeff_mul a b = Ok c).
Proof. exact coeff_mul_spec. Qed.
Print Assumptions C44_multiplication.

Theorem C44_scalar_multiplication : forall a k i x,
  coeff_at a i = Some x -> coeff_at (coeff_mul_scalar a k) i = Some (k * x)%Qc.
Proof. exact coeff_mul_scalar_spec. Qed.
Print Assumptions C44_scalar_multiplication.

Theorem C44_toField : forall c l,
  view_ c = Some l ->
  exists f, coeff_toField c = Some f /\ length f = length l /\
    forall i x, l !! i = Some x -> f !! i = Some (coeff_ c * x)%Qc.
Proof. exact coeff_toField_spec. Qed.
Print Assumptions C44_toField.

Example C44_instance :
  coeff_mul (coeff_scalar_field half [1; half]%Qc) (coeff_scalar (1 + 1)%Qc)
    = Ok (MkCoeff (half * (1 + 1)) (Some [1; half]%Qc)) /\
  coeff_mul (coeff_field [1]%Qc) (coeff_field [1]%Qc) = Exit.
Proof. done. Qed.

(** * C52 *)
Theorem C52_vector_space : forall (a b c : vec) (k l : Qc),
  vec_add a b = vec_add b a /\ vec_add a (vec_add b c) = vec_add (vec_add a b) c /\
  vec_add vec_zero a = a /\ vec_add a (vec_sub b a) = b /\ vec_sub a a = vec_zero /\
  vec_scale 1 a = a /\ vec_scale k (vec_scale l a) = vec_scale (k * l) a /\
  vec_scale k (vec_add a b) = vec_add (vec_scale k a) (vec_scale k b) /\
  vec_scale (k + l) a = vec_add (vec_scale k a) (vec_scale l a).
Proof. exact vec_space. Qed.
Print Assumptions C52_vector_space.

Theorem C52_inner_product : forall (a b c : vec) (k : Qc),
  vec_dot a b = vec_dot b a /\
  vec_dot (vec_add a b) c = (vec_dot a c + vec_dot b c)%Qc /\
  vec_dot (vec_scale k a) b = (k * vec_dot a b)%Qc /\
  (0 <= vec_dot a a)%Qc /\ (vec_dot a a = 0%Qc -> a = vec_zero) /\
  (vec_dot a b * vec_dot a b <= vec_dot a a * vec_dot b b)%Qc.
Proof. exact vec_inner. Qed.
Print Assumptions C52_inner_product.

Theorem C52_equality : forall a b, vec_eqb a b = true <-> a = b.
Proof. exact vec_eqb_spec. Qed.
Print Assumptions C52_equality.

Theorem C52_componentwise : forall a b k,
  vec_add a b = Vec (vx a + vx b) (vy a + vy b) (vz a + vz b) /\
  vec_sub a b = Vec (vx a - vx b) (vy a - vy b) (vz a - vz b) /\
  vec_scale k a = Vec (k * vx a) (k * vy a) (k * vz a).
Proof. intros a b k. unfold vec_add, vec_sub, vec_scale. split; [done|]. split; [done|]. f_equal; ring. Qed.
Print Assumptions C52_componentwise.

Example C52_instance : vec_dot (Vec 1 half 0) (Vec half 1 (-(1))) = 1%Qc.
Proof. apply Qc_is_canon. reflexivity. Qed.
