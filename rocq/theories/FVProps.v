(** Property-level facts about the explicit operators. *)
From Verif Require Import Base Par ParProofs Exec ExecProofs Value Kernel KernelProofs
  Mesh MeshSpec MeshProofs Coeff FV FVSpec FVProofs ExampleMesh.

Section generic.
  Context {V : Type} `{HL : ValueLaws V}.
  Context (m : mesh) (Hm : valid_topology m).

  Lemma list_by_atV (l : list V) n (g : nat -> V) :
    length l = n -> (forall c, c < n -> l !! c = Some (g c)) -> l = map g (seq 0 n).
  Proof.
    intros Hl Hc. apply list_eq. intros i. destruct (decide (i < n)).
    - rewrite Hc by done. change (map g (seq 0 n)) with (g <$> seq 0 n).
      by rewrite list_lookup_fmap, lookup_seq_lt.
    - rewrite !lookup_ge_None_2; [done| |lia]. rewrite map_length, seq_length. lia.
  Qed.

  (** *** Divergence *)
  Lemma div_add_spec e s (phi : volField V) flux weights junk source scaling :
    field_ok m phi -> length flux = nFaces m -> length weights = nFaces m ->
    length junk = nFaces m -> length source = nCells m -> coeff_ok scaling (nCells m) ->
    always (div_explicitOperation e m flux phi s weights junk scaling source)
      (map (fun c => vadd (atV source c) (div_spec m s flux weights phi scaling c)) (seq 0 (nCells m))).
  Proof.
    intros Hphi Hfl Hw Hj Hs Hco.
    destruct (add_tmp_result m (fun t => computeDivExp e m flux phi s weights junk t scaling)
      (div_spec m s flux weights phi scaling) source Hs) as (s' & Hr & Hl & Hc).
    - destruct (divExp_result m Hm s e phi flux weights junk (replicate (nCells m) vzero) scaling)
        as (t & Ht & Htl & Htc); try done. { apply replicate_length. }
      exists t. split; [done|]. split; [done|]. intros c Hc. rewrite (Htc c Hc), atV_zero, vadd_0_l. done.
    - intros r. rewrite (Hr r), (list_by_atV s' (nCells m) _ Hl Hc). done.
  Qed.

  Lemma div_target_exact e s (phi : volField V) flux weights junk target scaling :
    field_ok m phi -> length flux = nFaces m -> length weights = nFaces m ->
    length junk = nFaces m -> length target = nCells m -> coeff_ok scaling (nCells m) ->
    always (computeDivExp e m flux phi s weights junk target scaling)
      [map (fun c => vadd (per_volume m scaling c (atV target c)) (div_spec m s flux weights phi scaling c))
           (seq 0 (nCells m))].
  Proof.
    intros Hphi Hfl Hw Hj Hs Hco.
    destruct (divExp_result m Hm s e phi flux weights junk target scaling)
        as (t & Ht & Htl & Htc); try done.
    intros r. rewrite (Ht r). rewrite (list_by_atV t (nCells m) (fun c => vadd (per_volume m scaling c (atV target c)) (div_spec m s flux weights phi scaling c)) Htl).
    - done.
    - intros c Hc. rewrite (Htc c Hc). unfold div_spec, per_volume. by rewrite vscale_add.
  Qed.

  Lemma weighted_total (scaling : Coeff) (x : nat -> V) :
    coeff_val scaling = (fun _ => 1%Qc) ->
    vsum_over (nCells m) (fun c => vscale (at0 (cellVolumes m) c)
       (per_volume m scaling c (cell_balance m x c)))
    = vsum_over (nBoundaryFaces m) (fun b => x (nInternalFaces m + b)).
  Proof.
    intros Hc. rewrite <- (balance_total m Hm). apply vsum_over_ext. intros c Hcc.
    unfold per_volume. rewrite Hc, <- vscale_mul.
    pose proof (vol_nz m Hm c Hcc) as Hnz.
    replace (at0 (cellVolumes m) c * (1 / at0 (cellVolumes m) c))%Qc with 1%Qc by (field; done).
    apply vscale_1.
  Qed.

  Lemma div_conservative s (phi : volField V) flux weights :
    vsum_over (nCells m) (fun c => vscale (at0 (cellVolumes m) c)
       (div_spec m s flux weights phi coeff_default c))
    = vsum_over (nBoundaryFaces m) (fun b =>
        vscale (at0 flux (nInternalFaces m + b))
          (vscale (at0 weights (nInternalFaces m + b)) (atV (vf_value phi) b))).
  Proof.
    unfold div_spec. rewrite weighted_total by done.
    apply vsum_over_ext. intros b Hb. unfold face_value. rewrite decide_False by lia.
    do 2 f_equal. f_equal. lia.
  Qed.

  (** *** Laplacian *)
  Lemma laplacian_target_exact e (phi : volField V) dc gamma junk target scaling :
    field_ok m phi -> length dc = nFaces m -> length junk = nFaces m ->
    length (magFaceAreas m) = nFaces m -> length target = nCells m -> coeff_ok scaling (nCells m) ->
    always (computeLaplacianExp e m dc gamma phi junk target scaling)
      [map (fun c => vadd (per_volume m scaling c (atV target c)) (laplacian_spec m dc phi scaling c))
           (seq 0 (nCells m))].
  Proof.
    intros Hphi Hdc Hj Hmag Hs Hco.
    destruct (laplacianExp_result m Hm e phi dc gamma junk target scaling)
        as (t & Ht & Htl & Htc); try done.
    intros r. rewrite (Ht r). rewrite (list_by_atV t (nCells m) (fun c => vadd (per_volume m scaling c (atV target c)) (laplacian_spec m dc phi scaling c)) Htl).
    - done.
    - intros c Hc. rewrite (Htc c Hc). unfold laplacian_spec, per_volume. by rewrite vscale_add.
  Qed.

  Lemma laplacian_add_spec e (phi : volField V) dc gamma junk source scaling :
    field_ok m phi -> length dc = nFaces m -> length junk = nFaces m ->
    length (magFaceAreas m) = nFaces m -> length source = nCells m -> coeff_ok scaling (nCells m) ->
    always (laplacian_explicitOperation e m dc gamma phi junk scaling source)
      (map (fun c => vadd (atV source c) (laplacian_spec m dc phi scaling c)) (seq 0 (nCells m))).
  Proof.
    intros Hphi Hdc Hj Hmag Hs Hco.
    destruct (add_tmp_result m (fun t => computeLaplacianExp e m dc gamma phi junk t scaling)
      (laplacian_spec m dc phi scaling) source Hs) as (s' & Hr & Hl & Hc).
    - destruct (laplacianExp_result m Hm e phi dc gamma junk (replicate (nCells m) vzero) scaling)
        as (t & Ht & Htl & Htc); try done. { apply replicate_length. }
      exists t. split; [done|]. split; [done|]. intros c Hc. rewrite (Htc c Hc), atV_zero, vadd_0_l. done.
    - intros r. rewrite (Hr r), (list_by_atV s' (nCells m) _ Hl Hc). done.
  Qed.

  Lemma laplacian_conservative (phi : volField V) dc :
    vsum_over (nCells m) (fun c => vscale (at0 (cellVolumes m) c)
       (laplacian_spec m dc phi coeff_default c))
    = vsum_over (nBoundaryFaces m) (fun b =>
        vscale (at0 (magFaceAreas m) (nInternalFaces m + b))
          (normal_gradient m phi dc (nInternalFaces m + b))).
  Proof. unfold laplacian_spec. by rewrite weighted_total. Qed.

  (** *** surfaceIntegrate *)
  Lemma si_target_exact e flux target scaling :
    length flux = nFaces m -> length target = nCells m -> coeff_ok scaling (nCells m) ->
    always (surfaceIntegrate e (nInternalFaces m) (faceNeighbour m) (faceOwner m)
              (bFaceCells (bmesh m)) flux (cellVolumes m) target scaling)
      [map (fun c => vadd (per_volume m scaling c (atV target c)) (surface_integral_spec m flux scaling c))
           (seq 0 (nCells m))].
  Proof.
    intros Hfl Hs Hco.
    destruct (surfaceIntegrate_result m Hm e flux target scaling) as (t & Ht & Htl & Htc); try done.
    intros r. rewrite (Ht r). rewrite (list_by_atV t (nCells m) (fun c => vadd (per_volume m scaling c (atV target c)) (surface_integral_spec m flux scaling c)) Htl).
    - done.
    - intros c Hc. rewrite (Htc c Hc). unfold surface_integral_spec, per_volume. by rewrite vscale_add.
  Qed.

  Lemma si_add_spec e flux source scaling :
    length flux = nFaces m -> length source = nCells m -> coeff_ok scaling (nCells m) ->
    always (surfaceIntegrate_explicitOperation e m flux scaling source)
      (map (fun c => vadd (atV source c) (surface_integral_spec m flux scaling c)) (seq 0 (nCells m))).
  Proof.
    intros Hfl Hs Hco.
    destruct (add_tmp_result m (fun t => surfaceIntegrate e (nInternalFaces m) (faceNeighbour m) (faceOwner m)
                        (bFaceCells (bmesh m)) flux (cellVolumes m) t scaling)
      (surface_integral_spec m flux scaling) source Hs) as (s' & Hr & Hl & Hc).
    - destruct (surfaceIntegrate_result m Hm e flux (replicate (nCells m) vzero) scaling)
        as (t & Ht & Htl & Htc); try done. { apply replicate_length. }
      exists t. split; [done|]. split; [done|]. intros c Hc. rewrite (Htc c Hc), atV_zero, vadd_0_l. done.
    - intros r. rewrite (Hr r), (list_by_atV s' (nCells m) _ Hl Hc). done.
  Qed.

  Lemma si_conservative flux :
    vsum_over (nCells m) (fun c => vscale (at0 (cellVolumes m) c)
       (surface_integral_spec m flux coeff_default c))
    = vsum_over (nBoundaryFaces m) (fun b => atV flux (nInternalFaces m + b)).
  Proof. unfold surface_integral_spec. by rewrite weighted_total. Qed.

  (** *** Interpolation and face-normal gradient as whole lists *)
  Lemma interpolate_exact s e (phi : volField V) flux weights dst :
    field_ok m phi -> length flux = nFaces m -> length weights = nFaces m -> length dst = nFaces m ->
    always (interpolate s e m flux phi weights dst)
      [map (face_value m s phi flux weights) (seq 0 (nFaces m))].
  Proof.
    intros Hphi Hfl Hw Hd.
    destruct (interpolate_result m Hm s e phi flux weights dst Hphi Hfl Hw Hd) as (t & Ht & Htl & Htc).
    intros r. rewrite (Ht r). by rewrite (list_by_atV t (nFaces m) _ Htl Htc).
  Qed.

  Lemma fng_exact e (phi : volField V) dc dst :
    field_ok m phi -> length dc = nFaces m -> length dst = nFaces m ->
    always (computeFaceNormalGrad e m phi dc dst)
      [map (normal_gradient m phi dc) (seq 0 (nFaces m))].
  Proof.
    intros Hphi Hw Hd. pose proof (vt_faces _ Hm) as HnF.
    destruct (fng_result m Hm e phi dc dst Hphi Hw Hd) as (t & Ht & Htl & Hti & Htb).
    intros r. rewrite (Ht r). rewrite (list_by_atV t (nFaces m) (normal_gradient m phi dc) Htl); [done|].
    intros f Hf. unfold normal_gradient. destruct (decide (f < nInternalFaces m)).
    - by apply Hti.
    - replace f with (nInternalFaces m + (f - nInternalFaces m)) at 1 by lia.
      rewrite Htb by lia.
      by replace (nInternalFaces m + (f - nInternalFaces m)) with f by lia.
  Qed.

  (** Constant fields. *)
  Definition constant_field (phi : volField V) (k : V) : Prop :=
    (forall c, c < nCells m -> atV (vf_int phi) c = k) /\
    (forall b, b < nBoundaryFaces m -> atV (vf_value phi) b = k).

  Lemma face_value_constant s (phi : volField V) flux weights k f :
    constant_field phi k ->
    (forall b, b < nBoundaryFaces m -> at0 weights (nInternalFaces m + b) = 1%Qc) ->
    f < nFaces m -> face_value m s phi flux weights f = k.
  Proof.
    intros [Hc Hb] Hw Hf. pose proof (vt_faces _ Hm) as HnF. unfold face_value, at_owner, at_neighbour.
    destruct (decide (f < nInternalFaces m)) as [Hi|Hi].
    - rewrite !Hc by first [by apply vt_nei | by apply owner_lt].
      destruct s.
      + rewrite <- vscale_add_l. replace (at0 weights f + (1 - at0 weights f))%Qc with 1%Qc by ring.
        apply vscale_1.
      + by destruct (Qclt_le_dec _ _).
    - rewrite Hb by lia. replace f with (nInternalFaces m + (f - nInternalFaces m)) at 1 by lia.
      rewrite Hw by lia. apply vscale_1.
  Qed.

  Lemma normal_gradient_constant (phi : volField V) dc k f :
    constant_field phi k -> f < nFaces m -> normal_gradient m phi dc f = vzero.
  Proof.
    intros [Hc Hb] Hf. pose proof (vt_faces _ Hm) as HnF.
    unfold normal_gradient, at_owner, at_neighbour, at_face_cell.
    destruct (decide (f < nInternalFaces m)) as [Hi|Hi].
    - rewrite !Hc by first [by apply vt_nei | by apply owner_lt].
      unfold vsub. rewrite vadd_neg. apply vscale_0_r.
    - rewrite Hb by lia. rewrite Hc by (apply vt_fc; [done|lia]).
      unfold vsub. rewrite vadd_neg. apply vscale_0_r.
  Qed.
End generic.

(** *** Gradient *)
Section grad.
  Context (m : mesh) (Hm : valid_topology m).

  Lemma grad_result e (phi : volField Qc) weights junk (target : list vec) :
    field_ok m phi -> length weights = nFaces m -> length junk = nFaces m ->
    length (faceAreas m) = nFaces m -> length target = nCells m ->
    exists res', always (computeGrad e m phi weights junk target) [res'] /\
      length res' = nCells m /\
      forall c, c < nCells m -> res' !! c = Some
        (vadd (vscale (1 / at0 (cellVolumes m) c)%Qc (atV target c)) (grad_spec m weights phi c)).
  Proof.
    intros Hphi Hw Hj Ha Hres. pose proof (vt_faces _ Hm) as HnF.
    destruct (linear_result m Hm e phi weights junk Hphi Hw Hj) as (g & Hg & Hgl & Hgi & Hgb).
    assert (Hgf : forall f, f < nFaces m -> g !! f = Some (face_value m Linear phi [] weights f)).
    { intros f Hf. unfold face_value, at_owner, at_neighbour.
      destruct (decide (f < nInternalFaces m)); [by apply Hgi|].
      replace f with (nInternalFaces m + (f - nInternalFaces m)) at 1 by lia.
      rewrite Hgb by lia. do 3 f_equal. lia. }
    destruct (face_balance m Hm e (grad_internal_kernel m g) (grad_boundary_kernel m g)
      (fun f => vscale (face_value m Linear phi [] weights f) (atv (faceAreas m) f)) target Hres)
      as (res1 & Hl1 & Hq & Hc1).
    { intros f Hf. unfold grad_internal_kernel.
      rewrite (lookup_atv (faceAreas m) f), Hgf, (owner_lookup m Hm), (nei_lookup m Hm) by lia.
      do 2 eexists. split; [reflexivity|].
      split; (split; [done|]; split; [done|]; split; [done|]; by right). }
    { intros b Hb. unfold grad_boundary_kernel.
      replace (nInternalFaces m + b - nInternalFaces m) with b by lia.
      rewrite (fc_lookup m Hm), (lookup_atv (faceAreas m)), Hgf by lia.
      eexists. split; [reflexivity|]. split; [done|]; split; [done|]; split; [done|]; by right. }
    destruct (scale_pass e (nCells m) (grad_normalize_kernel m)
      (fun c => 1 / at0 (cellVolumes m) c)%Qc res1 Hl1) as (res' & Hr & Hl & Hc).
    { intros c Hc. unfold grad_normalize_kernel. by rewrite vol_lookup. }
    exists res'. split; [|split; [done|]].
    - intros r. unfold computeGrad. split.
      + intros [[Hx _]|(g' & Hx & Hx2)]; apply Hg in Hx; [done|]. injection Hx as ->.
        rewrite Hgl, HnF, Hq in Hx2. by apply Hr.
      + intros ->. right. exists g. split; [by apply Hg|]. rewrite Hgl, HnF, Hq. by apply Hr.
    - intros c Hcc. rewrite (Hc c Hcc). unfold atV at 1. rewrite (Hc1 c Hcc).
      unfold default. unfold id. by rewrite vscale_add.
  Qed.

  Lemma grad_target_exact e (phi : volField Qc) weights junk (target : list vec) :
    field_ok m phi -> length weights = nFaces m -> length junk = nFaces m ->
    length (faceAreas m) = nFaces m -> length target = nCells m ->
    always (computeGrad e m phi weights junk target)
      [map (fun c => vadd (vscale (1 / at0 (cellVolumes m) c)%Qc (atV target c)) (grad_spec m weights phi c))
           (seq 0 (nCells m))].
  Proof.
    intros Hphi Hw Hj Ha Hs.
    destruct (grad_result e phi weights junk target) as (t & Ht & Htl & Htc); try done.
    intros r. rewrite (Ht r). by rewrite (list_by_atV t (nCells m) _ Htl Htc).
  Qed.

  Lemma grad_value_spec e (phi : volField Qc) weights junk :
    field_ok m phi -> length weights = nFaces m -> length junk = nFaces m ->
    length (faceAreas m) = nFaces m ->
    always (grad_value e m phi weights junk) [map (grad_spec m weights phi) (seq 0 (nCells m))].
  Proof.
    intros Hphi Hw Hj Ha. unfold grad_value. intros r.
    pose proof (grad_target_exact e phi weights junk (replicate (nCells m) vec_zero) Hphi Hw Hj Ha
      (replicate_length _ _) r) as Hg.
    rewrite Hg. clear Hg.
    assert (forall x y : list vec, x = y -> (r = Some [x] <-> r = Some [y])) as Hq by (intros ?? ->; done).
    apply Hq. apply map_ext. intros c.
    change vec_zero with (vzero : vec). rewrite atV_zero, vscale_0_r. apply vadd_0_l.
  Qed.

  Lemma grad_total weights (phi : volField Qc) :
    vsum_over (nCells m) (fun c => vscale (at0 (cellVolumes m) c) (grad_spec m weights phi c))
    = vsum_over (nBoundaryFaces m) (fun b =>
        vscale (at0 weights (nInternalFaces m + b) * at0 (vf_value phi) b)%Qc
          (atv (faceAreas m) (nInternalFaces m + b))).
  Proof.
    pose proof (weighted_total m Hm coeff_default
      (fun f => vscale (face_value m Linear phi [] weights f) (atv (faceAreas m) f)) eq_refl) as Hw.
    unfold per_volume in Hw. etransitivity; [exact Hw|].
    apply vsum_over_ext. intros b Hb. unfold face_value. rewrite decide_False by lia.
    f_equal. simpl. f_equal. unfold atV, at0. do 2 f_equal. lia.
  Qed.

  Lemma grad_constant weights (phi : volField Qc) k c :
    constant_field m phi k ->
    (forall b, b < nBoundaryFaces m -> at0 weights (nInternalFaces m + b) = 1%Qc) ->
    outward_area m c = vec_zero ->
    grad_spec m weights phi c = vec_zero.
  Proof.
    intros Hphi Hw Hcl. unfold grad_spec.
    rewrite (cell_balance_ext m Hm _ (fun f => vscale k (atv (faceAreas m) f))).
    - rewrite balance_scale. unfold outward_area in Hcl. rewrite Hcl.
      change vec_zero with (vzero : vec). by rewrite !vscale_0_r.
    - intros f Hf. f_equal. by apply face_value_constant.
  Qed.
End grad.

(** *** Boundedness of linear interpolation *)
Lemma linear_between (w a b : Qc) : (0 <= w -> w <= 1 -> a <= b ->
  a <= w * a + (1 - w) * b /\ w * a + (1 - w) * b <= b)%Qc.
Proof.
  intros H0 H1 Hab.
  assert (0 <= (1 - w) * (b - a))%Qc as Hx.
  { replace 0%Qc with (0 * (b - a))%Qc by ring. apply Qcmult_le_compat_r.
    - by apply -> Qcle_minus_iff.
    - by apply -> Qcle_minus_iff. }
  assert (0 <= w * (b - a))%Qc as Hy.
  { replace 0%Qc with (0 * (b - a))%Qc by ring. apply Qcmult_le_compat_r; [done|].
    by apply -> Qcle_minus_iff. }
  split; apply Qcle_minus_iff.
  - replace (w * a + (1 - w) * b + - a)%Qc with ((1 - w) * (b - a))%Qc by ring. done.
  - replace (b + - (w * a + (1 - w) * b))%Qc with (w * (b - a))%Qc by ring. done.
Qed.

Lemma linear_between' (w a b lo hi : Qc) :
  (0 <= w -> w <= 1 -> lo <= a -> lo <= b -> a <= hi -> b <= hi ->
  lo <= w * a + (1 - w) * b /\ w * a + (1 - w) * b <= hi)%Qc.
Proof.
  intros H0 H1 Ha Hb Ha' Hb'. destruct (Qclt_le_dec a b) as [Hlt|Hge].
  - destruct (linear_between w a b) as [Hx Hy]; [done|done|by apply Qclt_le_weak|].
    split; [by apply (Qcle_trans _ a)|by apply (Qcle_trans _ b)].
  - destruct (linear_between (1 - w) b a) as [Hx Hy].
    + by apply -> Qcle_minus_iff.
    + apply Qcle_minus_iff. replace (1 + - (1 - w))%Qc with w by ring. done.
    + done.
    + replace ((1 - w) * b + (1 - (1 - w)) * a)%Qc with (w * a + (1 - w) * b)%Qc in * by ring.
      split; [by apply (Qcle_trans _ b)|by apply (Qcle_trans _ a)].
Qed.

(** *** Exactness of the normal gradient for linear fields on orthogonal faces. *)
Lemma normal_gradient_linear (m : mesh) (a : vec) (b0 : Qc) (phi : volField Qc) (dc : list Qc)
  (n : nat -> vec) f :
  valid_topology m ->
  (forall c, c < nCells m -> at0 (vf_int phi) c = (vec_dot a (atv (cellCentres m) c) + b0)%Qc) ->
  (forall b, b < nBoundaryFaces m ->
     at0 (vf_value phi) b = (vec_dot a (atv (faceCentres m) (nInternalFaces m + b)) + b0)%Qc) ->
  (forall f, f < nInternalFaces m ->
     vec_scale (at0 dc f) (vec_sub (atv (cellCentres m) (atn (faceNeighbour m) f))
                                   (atv (cellCentres m) (atn (faceOwner m) f))) = n f) ->
  (forall b, b < nBoundaryFaces m ->
     vec_scale (at0 dc (nInternalFaces m + b))
       (vec_sub (atv (faceCentres m) (nInternalFaces m + b))
                (atv (cellCentres m) (atn (bFaceCells (bmesh m)) b))) = n (nInternalFaces m + b)) ->
  f < nFaces m ->
  normal_gradient m phi dc f = vec_dot a (n f).
Proof.
  intros Hm Hi Hb Hn Hnb Hf. pose proof (vt_faces _ Hm) as HnF.
  unfold normal_gradient, at_owner, at_neighbour, at_face_cell.
  destruct (decide (f < nInternalFaces m)) as [Hlt|Hge].
  - rewrite <- (Hn f Hlt). change (atV (vf_int phi)) with (at0 (vf_int phi)).
    rewrite !Hi by first [by apply vt_nei | by apply owner_lt].
    unfold vsub, vec_dot, vec_sub, vec_scale. simpl. ring.
  - remember (f - nInternalFaces m) as b. replace f with (nInternalFaces m + b) in * by lia.
    rewrite <- (Hnb b) by lia. change (atV (vf_int phi)) with (at0 (vf_int phi)).
    change (atV (vf_value phi)) with (at0 (vf_value phi)).
    rewrite Hb, Hi by first [apply vt_fc; [done|lia] | lia].
    unfold vsub, vec_dot, vec_sub, vec_scale. simpl. ring.
Qed.
