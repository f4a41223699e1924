(** C97: the explicit operators in floating-point arithmetic. *)
From Coq Require Import Reals Lra Psatz.
From Flocq Require Import Core Plus_error Relative.
From Verif Require Import Base Par ParProofs Exec ExecProofs Value Kernel KernelProofs KernelAnyArith Mesh MeshSpec MeshProofs Coeff FV FVSpec FVProofs FVAnyArith ExampleMesh Properties_AnyArith.

Local Open Scope R_scope.

(** * The arithmetic of [scalar]: IEEE 754 binary32 or binary64, rounding to
    nearest even, without overflow, infinities and NaN (the exponent is not
    bounded above). *)

(** include/NeoFOAM/core/primitives/scalar.hpp:11-15: [NEOFOAM_DP_SCALAR] selects
    double, otherwise scalar is float. *)
Inductive precision := Float | Double.
(** number of binary digits, and exponent of the smallest positive number *)
Definition digits (p : precision) : Z := match p with Float => 24 | Double => 53 end.
Definition emin (p : precision) : Z := match p with Float => -149 | Double => -1074 end.
Definition scalar_format (p : precision) (x : R) : Prop := generic_format radix2 (FLT_exp (emin p) (digits p)) x.
Definition rnd (p : precision) (x : R) : R := round radix2 (FLT_exp (emin p) (digits p)) ZnearestE x.

(** The real number a rational stands for. *)
Definition QcR (q : Qc) : R := IZR (QArith_base.Qnum q) / IZR (Z.pos (QArith_base.Qden q)).
(** The arithmetic of [scalar] fields; a coefficient (a flux, an area, scaling /
    volume) is rounded once before it is used. *)
Definition scalar_value (p : precision) : ValueType R := {|
  vzero := 0;
  vadd := fun a b => rnd p (a + b);
  vneg := Ropp;
  vscale := fun k x => rnd p (rnd p (QcR k) * x)
|}.

(** Half the distance between 1 and the next number; the smallest positive number is twice [eta]. *)
Definition u (p : precision) : R := match p with Float => / 2 ^ 24 | Double => / 2 ^ 53 end.
Definition eta (p : precision) : R := / 2 * bpow radix2 (emin p).
Definition sumR (l : list R) : R := foldr Rplus 0 l.
Definition sumabs (l : list R) : R := foldr (fun x s => Rabs x + s) 0 l.

#[local] Instance prec_pos p : Prec_gt_0 (digits p). Proof. by destruct p. Qed.

Lemma u_ro_p p : u_ro radix2 (digits p) = u p.
Proof.
  unfold u_ro, u. destruct p; cbn [digits].
  - change (bpow radix2 (- (24) + 1)) with (/ IZR (Zpower_pos 2 23)).
    replace (Zpower_pos 2 23) with (2 ^ Z.of_nat 23)%Z by (vm_compute; reflexivity). rewrite <- (pow_IZR 2 23).
    rewrite <- Rinv_mult. f_equal.
  - change (bpow radix2 (- (53) + 1)) with (/ IZR (Zpower_pos 2 52)).
    replace (Zpower_pos 2 52) with (2 ^ Z.of_nat 52)%Z by (vm_compute; reflexivity). rewrite <- (pow_IZR 2 52).
    rewrite <- Rinv_mult. f_equal.
Qed.
Section prec.
Context (p : precision).
Notation u := (u p).
Notation eta := (eta p).
Notation format := (scalar_format p).
Notation rnd := (rnd p).
Lemma u_pos : 0 < u. Proof. unfold Properties_Float.u. destruct p; apply Rinv_0_lt_compat; apply pow_lt; lra. Qed.
Lemma eta_pos : 0 < eta. Proof. unfold Properties_Float.eta. pose proof (bpow_gt_0 radix2 (emin p)). lra. Qed.
Lemma format_rnd x : format (rnd x). Proof. apply generic_format_round; typeclasses eauto. Qed.
Lemma format_opp x : format x -> format (- x). Proof. apply generic_format_opp. Qed.
Lemma format_0 : format 0. Proof. apply generic_format_0. Qed.
Lemma rnd_format x : format x -> rnd x = x. Proof. intros. apply round_generic; [typeclasses eauto|done]. Qed.

Lemma rnd_add x y : format x -> format y -> Rabs (rnd (x + y) - (x + y)) <= u * Rabs (x + y).
Proof.
  intros Hx Hy. destruct (FLT_plus_error_N_ex radix2 (emin p) (digits p) (fun z => negb (Z.even z)) x y Hx Hy) as (eps & He & Hr).
  unfold rnd. change ZnearestE with (Znearest (fun z => negb (Z.even z))). rewrite Hr.
  replace ((x + y) * (1 + eps) - (x + y)) with (eps * (x + y)) by ring. rewrite Rabs_mult.
  apply Rmult_le_compat_r; [apply Rabs_pos|]. rewrite (u_ro_p p) in He. pose proof u_pos.
  eapply Rle_trans; [exact He|]. unfold Rdiv. apply (Rle_trans _ (u * / 1)); [|rewrite Rinv_1; lra].
  apply Rmult_le_compat_l; [lra|]. apply Rinv_le_contravar; lra.
Qed.
Lemma rnd_err x : Rabs (rnd x - x) <= u * Rabs x + eta.
Proof.
  destruct (error_N_FLT radix2 (emin p) (digits p) (prec_pos p) (fun z => negb (Z.even z)) x) as (eps & et & He & Ht & _ & Hr).
  unfold rnd. change ZnearestE with (Znearest (fun z => negb (Z.even z))). rewrite Hr.
  replace (x * (1 + eps) + et - x) with (eps * x + et) by ring.
  eapply Rle_trans; [apply Rabs_triang|]. rewrite Rabs_mult. rewrite <- (u_ro_p p). change (/ 2 * bpow radix2 (emin p)) with eta in Ht.
  apply Rplus_le_compat; [|exact Ht]. apply Rmult_le_compat_r; [apply Rabs_pos|done].
Qed.

Lemma sumabs_nonneg l : 0 <= sumabs l.
Proof. induction l; simpl; [lra|]. pose proof (Rabs_pos a). lra. Qed.
Lemma sumR_abs l : Rabs (sumR l) <= sumabs l.
Proof. induction l; simpl; [rewrite Rabs_R0; lra|]. pose proof (Rabs_triang a (sumR l)). unfold sumR in *. simpl in *. lra. Qed.
Lemma pow1u n : 1 <= (1 + u) ^ n.
Proof. pose proof u_pos. apply pow_R1_Rle. lra. Qed.

(** Adding the numbers of a list one at a time. *)
Lemma foldl_format l : forall x, format x -> Forall format l -> format (foldl (vadd (ValueType := scalar_value p)) x l).
Proof.
  induction l as [|t l IH]; intros x Hx Hl; simpl; [done|]. apply Forall_cons in Hl as [_ Hl]. apply IH; [apply format_rnd|done].
Qed.
Lemma foldl_error l : forall x, format x -> Forall format l ->
  Rabs (foldl (vadd (ValueType := scalar_value p)) x l - (x + sumR l)) <= ((1 + u) ^ length l - 1) * (Rabs x + sumabs l).
Proof.
  induction l as [|t l IH]; intros x Hx Hl.
  - simpl. replace (x - (x + 0)) with 0 by ring. rewrite Rabs_R0. lra.
  - apply Forall_cons in Hl as [Ht Hl]. cbn [foldl length]. cbn [vadd scalar_value].
    specialize (IH (rnd (x + t)) (format_rnd _) Hl). pose proof (rnd_add x t Hx Ht) as He.
    set (F := foldl _ _ l) in *. set (s := rnd (x + t)) in *. cbn [sumR sumabs foldr].
    change (foldr Rplus 0 l) with (sumR l). change (foldr (fun x s => Rabs x + s) 0 l) with (sumabs l).
    pose proof (pow1u (length l)) as Hp. set (q := (1 + u) ^ length l) in *. change ((1 + u) ^ S (length l)) with ((1 + u) * q).
    pose proof u_pos as Hu. pose proof (sumabs_nonneg l) as Hsa. pose proof (Rabs_triang x t) as Hxt.
    assert (Hs : Rabs s <= (1 + u) * (Rabs x + Rabs t)).
    { replace s with ((s - (x + t)) + (x + t)) by ring. eapply Rle_trans; [apply Rabs_triang|]. nra. }
    replace (F - (x + (t + sumR l))) with ((F - (s + sumR l)) + (s - (x + t))) by ring.
    eapply Rle_trans; [apply Rabs_triang|]. pose proof (Rabs_pos x). pose proof (Rabs_pos t).
    assert ((q - 1) * (Rabs s + sumabs l) <= (q - 1) * ((1 + u) * (Rabs x + Rabs t) + sumabs l)) by (apply Rmult_le_compat_l; lra).
    assert (u * Rabs (x + t) <= u * (Rabs x + Rabs t)) by (apply Rmult_le_compat_l; lra).
    assert ((q - 1) * sumabs l <= ((1 + u) * q - 1) * sumabs l) by (apply Rmult_le_compat_r; nra).
    nra.
Qed.

Lemma sumR_app l k : sumR (l ++ k) = sumR l + sumR k.
Proof. unfold sumR. induction l; simpl; [ring|]. rewrite IHl. ring. Qed.
Lemma sumabs_app l k : sumabs (l ++ k) = sumabs l + sumabs k.
Proof. unfold sumabs. induction l; simpl; [ring|]. rewrite IHl. ring. Qed.
Lemma sumR_perm l k : l ≡ₚ k -> sumR l = sumR k.
Proof. induction 1; unfold sumR in *; simpl in *; lra. Qed.
Lemma sumabs_perm l k : l ≡ₚ k -> sumabs l = sumabs k.
Proof. induction 1; unfold sumabs in *; simpl in *; lra. Qed.

(** * Specification *)

(** The contributions of all faces of cell [c], as double-precision numbers. *)
Definition face_terms (m : mesh) (flux : nat -> R) (c : nat) : list R :=
  @internal_terms R (scalar_value p) m flux c ++ boundary_terms m flux c.
(** the factor scaling / volume of cell [c], rounded once *)
Definition volume_factor (m : mesh) (scaling : Coeff) (c : nat) : R :=
  rnd (QcR (coeff_val scaling c / at0 (cellVolumes m) c)%Qc).
(** [x] differs from the exact value of  source + factor * (sum of contributions)
    by no more than a few units in the last place, weighted with the magnitudes
    of what is summed. *)
Definition error_bound (m : mesh) (flux : nat -> R) (scaling : Coeff) (c : nat) (s : R) : R :=
  let n := length (face_terms m flux c) in
  u * Rabs s + ((1 + u) ^ (n + 2) - 1) * (Rabs (volume_factor m scaling c) * sumabs (face_terms m flux c)) + (1 + u) * eta.
Definition within (m : mesh) (flux : nat -> R) (scaling : Coeff) (source res : list R) : Prop :=
  length res = nCells m /\
  forall c, (c < nCells m)%nat ->
    Rabs (default 0 (res !! c) - (default 0 (source !! c) + volume_factor m scaling c * sumR (face_terms m flux c)))
      <= error_bound m flux scaling c (default 0 (source !! c)).

Lemma terms_format m flux c : (forall f, (f < nInternalFaces m + nBoundaryFaces m)%nat -> format (flux f)) ->
  Forall format (@internal_terms R (scalar_value p) m flux c) /\ Forall format (boundary_terms m flux c).
Proof.
  intros Hf. split; unfold internal_terms, boundary_terms; apply Forall_forall; intros x Hx;
    apply elem_of_list_In, in_concat in Hx as (l & Hl & Hxl); apply in_map_iff in Hl as (f & <- & Hi%in_seq).
  - apply in_app_iff in Hxl as [Hxl|Hxl]; case_decide; simpl in Hxl; try done; destruct Hxl as [<-|[]].
    + apply Hf. lia.
    + apply format_opp, Hf. lia.
  - case_decide; simpl in Hxl; try done. destruct Hxl as [<-|[]]. apply Hf. lia.
Qed.

Lemma adds_accumulated_within e m (Hm : valid_topology m) flux scaling source res :
  (forall f, (f < nFaces m)%nat -> format (flux f)) -> Forall format source -> length source = nCells m ->
  @adds_accumulated R (scalar_value p) e m flux scaling source res -> within m flux scaling source res.
Proof.
  intros Hf Hs Hsl [Hl Hc]. split; [done|]. intros c Hcc.
  destruct (Hc c Hcc) as (y & (li & lb & Hli & Hlb & _ & ->) & Hy). unfold atV in Hy. change (@vzero R (scalar_value p)) with 0 in Hy. rewrite Hy. clear Hy Hc.
  pose proof (vt_faces _ Hm) as HnF. destruct (terms_format m flux c) as [F1 F2]; [intros; apply Hf; lia|].
  rewrite <- Hli in F1. rewrite <- Hlb in F2.
  rewrite <- foldl_app. change (@vzero R (scalar_value p)) with 0.
  destruct (lookup_lt_is_Some_2 source c) as [s Es]; [lia|]. rewrite Es. cbn [default].
  pose proof (Forall_lookup_1 _ _ _ _ Hs Es) as Fs.
  assert (Hp : li ++ lb ≡ₚ face_terms m flux c) by (unfold face_terms; by rewrite Hli, Hlb).
  pose proof (foldl_error (li ++ lb) 0 format_0 ltac:(by apply Forall_app)) as He.
  rewrite (sumR_perm _ _ Hp), (sumabs_perm _ _ Hp), (Permutation_length Hp), Rabs_R0, !Rplus_0_l in He.
  unfold error_bound. rewrite Nat.add_comm. change (Datatypes.id s) with s. change ((1 + u) ^ (2 + length (face_terms m flux c))) with ((1 + u) * ((1 + u) * (1 + u) ^ length (face_terms m flux c))).
  set (y := foldl _ _ _) in *. set (T := sumR _) in *. set (W := sumabs _) in *.
  assert (HTS : Rabs T <= W) by apply sumR_abs.
  pose proof (pow1u (length (face_terms m flux c))) as Hq. set (q := (1 + u) ^ _) in *.
  unfold per_volume. cbn [vadd vscale scalar_value]. unfold vadd, vscale, scalar_value. fold (volume_factor m scaling c).
  set (k := volume_factor m scaling c) in *. pose proof (rnd_err (k * y)) as Hz. set (z := rnd (k * y)) in *.
  pose proof (rnd_add s z Fs (format_rnd _)) as Hr. set (r := rnd (s + z)) in *.
  pose proof u_pos as Hu. pose proof eta_pos as Het. pose proof (Rabs_pos k) as Hk. pose proof (sumabs_nonneg (face_terms m flux c)) as HS. fold W in HS.
  assert (Hy : Rabs y <= q * W).
  { replace y with ((y - T) + T) by ring. eapply Rle_trans; [apply Rabs_triang|]. lra. }
  assert (Hz2 : Rabs (z - k * T) <= ((1 + u) * q - 1) * (Rabs k * W) + eta).
  { replace (z - k * T) with ((z - k * y) + k * (y - T)) by ring. eapply Rle_trans; [apply Rabs_triang|].
    rewrite Rabs_mult in *.
    assert (Rabs k * Rabs (y - T) <= Rabs k * ((q - 1) * W)) by (apply Rmult_le_compat_l; lra).
    assert (u * (Rabs k * Rabs y) <= u * (Rabs k * (q * W))) by (apply Rmult_le_compat_l; [lra|]; apply Rmult_le_compat_l; lra).
    lra. }
  assert (Hz3 : Rabs z <= (1 + u) * q * (Rabs k * W) + eta).
  { replace z with ((z - k * T) + k * T) by ring. eapply Rle_trans; [apply Rabs_triang|]. rewrite Rabs_mult.
    assert (Rabs k * Rabs T <= Rabs k * W) by (apply Rmult_le_compat_l; lra). lra. }
  replace (r - (s + k * T)) with ((r - (s + z)) + (z - k * T)) by ring. eapply Rle_trans; [apply Rabs_triang|].
  pose proof (Rabs_triang s z) as Hsz.
  assert (u * Rabs (s + z) <= u * (Rabs s + ((1 + u) * q * (Rabs k * W) + eta))) by (apply Rmult_le_compat_l; lra).
  lra.
Qed.

Lemma every_op_within e m (Hm : valid_topology m) flux scaling source (op : option (list R) -> Prop) :
  (forall f, (f < nFaces m)%nat -> format (flux f)) -> Forall format source -> length source = nCells m ->
  every_outcome op (@adds_accumulated R (scalar_value p) e m flux scaling source) -> every_outcome op (within m flux scaling source).
Proof.
  intros Hf Hs Hl Ho. eapply every_outcome_impl; [exact Ho|]. intros res Hr. by eapply adds_accumulated_within.
Qed.

End prec.

(** * C97 *)

(** The terms of the divergence and the Laplacian are results of a rounded
    product; only the input of surfaceIntegrate has to consist of scalars. *)
Theorem C97_div_error : forall p m, valid_topology m ->
  forall e s (phi : volField R) flux weights junk scaling source,
  field_ok m phi -> length flux = nFaces m -> length weights = nFaces m ->
  length junk = nFaces m -> length source = nCells m -> coeff_ok scaling (nCells m) -> Forall (scalar_format p) source ->
  every_outcome (@div_explicitOperation R (scalar_value p) e m flux phi s weights junk scaling source)
    (within p m (fun f => rnd p (rnd p (QcR (at0 flux f)) * @face_value R (scalar_value p) m s phi flux weights f)) scaling source).
Proof.
  intros p m Hm e s phi flux weights junk scaling source Hphi Hfl Hw Hj Hs Hco Hsf.
  eapply (every_op_within p e m Hm); [intros f _; apply format_rnd|done|done|].
  by apply (@C96_div_any_order R (scalar_value p) m Hm).
Qed.
Theorem C97_laplacian_error : forall p m, valid_topology m ->
  forall e (phi : volField R) dc gamma junk scaling source,
  field_ok m phi -> length dc = nFaces m -> length junk = nFaces m ->
  length (magFaceAreas m) = nFaces m -> length source = nCells m -> coeff_ok scaling (nCells m) -> Forall (scalar_format p) source ->
  every_outcome (@laplacian_explicitOperation R (scalar_value p) e m dc gamma phi junk scaling source)
    (within p m (fun f => rnd p (rnd p (QcR (at0 (magFaceAreas m) f)) * @normal_gradient R (scalar_value p) m phi dc f)) scaling source).
Proof.
  intros p m Hm e phi dc gamma junk scaling source Hphi Hdc Hj Hmag Hs Hco Hsf.
  eapply (every_op_within p e m Hm); [intros f _; apply format_rnd|done|done|].
  by apply (@C96_laplacian_any_order R (scalar_value p) m Hm).
Qed.
Theorem C97_surfaceIntegrate_error : forall p m, valid_topology m ->
  forall e (flux : list R) scaling source,
  length flux = nFaces m -> length source = nCells m -> coeff_ok scaling (nCells m) ->
  Forall (scalar_format p) flux -> Forall (scalar_format p) source ->
  every_outcome (@surfaceIntegrate_explicitOperation R (scalar_value p) e m flux scaling source)
    (within p m (fun f => default 0 (flux !! f)) scaling source).
Proof.
  intros p m Hm e flux scaling source Hfl Hs Hco Hff Hsf.
  eapply (every_op_within p e m Hm); [|done|done|].
  - intros f Hf. destruct (lookup_lt_is_Some_2 flux f) as [x Ex]; [lia|]. rewrite Ex. by apply (Forall_lookup_1 _ _ _ _ Hff Ex).
  - by apply (@C96_surfaceIntegrate_any_order R (scalar_value p) m Hm).
Qed.

(** Two executions, on whatever executors and with whatever interleavings, agree
    up to twice the bound. *)
Theorem C97_executors_agree : forall p m, valid_topology m ->
  forall e e' s (phi : volField R) flux weights junk junk' scaling source res res',
  field_ok m phi -> length flux = nFaces m -> length weights = nFaces m ->
  length junk = nFaces m -> length junk' = nFaces m -> length source = nCells m -> coeff_ok scaling (nCells m) ->
  Forall (scalar_format p) source ->
  @div_explicitOperation R (scalar_value p) e m flux phi s weights junk scaling source (Some res) ->
  @div_explicitOperation R (scalar_value p) e' m flux phi s weights junk' scaling source (Some res') ->
  forall c, (c < nCells m)%nat ->
    Rabs (default 0 (res !! c) - default 0 (res' !! c)) <=
      2 * error_bound p m (fun f => rnd p (rnd p (QcR (at0 flux f)) * @face_value R (scalar_value p) m s phi flux weights f)) scaling c (default 0 (source !! c)).
Proof.
  intros p m Hm e e' s phi flux weights junk junk' scaling source res res' Hphi Hfl Hw Hj Hj' Hs Hco Hsf Hr Hr' c Hc.
  destruct (C97_div_error p m Hm e s phi flux weights junk scaling source Hphi Hfl Hw Hj Hs Hco Hsf) as (_ & _ & Ha).
  destruct (C97_div_error p m Hm e' s phi flux weights junk' scaling source Hphi Hfl Hw Hj' Hs Hco Hsf) as (_ & _ & Ha').
  apply Ha in Hr as [_ Hr]. apply Ha' in Hr' as [_ Hr']. specialize (Hr c Hc). specialize (Hr' c Hc).
  set (E := _ + _ * _) in *. set (B := error_bound _ _ _ _ _) in *.
  replace (default 0 (res !! c) - default 0 (res' !! c)) with ((default 0 (res !! c) - E) - (default 0 (res' !! c) - E)) by ring.
  eapply Rle_trans; [apply Rabs_triang|]. rewrite Rabs_Ropp. lra.
Qed.

(** On a one-dimensional uniform mesh every executor computes the same bits. *)
Lemma faces_1d n m : (1 <= n)%nat ->
  nInternalFaces m = (n - 1)%nat -> nBoundaryFaces m = 2%nat ->
  (forall f, (f < n - 1)%nat -> atn (faceOwner m) f = f /\ atn (faceNeighbour m) f = (f + 1)%nat) ->
  bFaceCells (bmesh m) = [0; n - 1]%nat ->
  forall c, (c < n)%nat -> (faces_of_cell m c <= 2)%nat.
Proof.
  intros Hn HI HB Hown Hfc c Hc. unfold faces_of_cell. rewrite HI, HB.
  assert (H1 : (length (filter (fun f => atn (faceOwner m) f = c \/ atn (faceNeighbour m) f = c) (seq 0 (n - 1))) <=
     length ((if decide (c < n - 1)%nat then [c] else []) ++ (if decide (0 < c)%nat then [(c - 1)%nat] else [])))%nat).
  { apply NoDup_incl_length; [apply NoDup_ListNoDup, NoDup_filter, NoDup_seq|]. intros f Hf%elem_of_list_In.
    apply elem_of_list_filter in Hf as [Hf Hs%elem_of_seq]. destruct (Hown f ltac:(lia)) as [E1 E2]. rewrite E1, E2 in Hf.
    apply in_app_iff. destruct Hf as [<-|<-].
    - left. rewrite decide_True by lia. by left.
    - right. rewrite decide_True by lia. left. lia. }
  assert (H2 : (length (filter (fun b => atn (bFaceCells (bmesh m)) b = c) (seq 0 2)) <=
     length ((if decide (c < n - 1)%nat then [] else [1%nat]) ++ (if decide (0 < c)%nat then [] else [0%nat])))%nat).
  { apply NoDup_incl_length; [apply NoDup_ListNoDup, NoDup_filter, NoDup_seq|]. intros b Hb%elem_of_list_In.
    apply elem_of_list_filter in Hb as [Hb Hs%elem_of_seq]. rewrite Hfc in Hb. unfold atn in Hb. apply in_app_iff.
    destruct b as [|[|b]]; simpl in Hb; [|  |lia]; unfold Datatypes.id in Hb.
    - right. rewrite decide_False by lia. by left.
    - left. rewrite decide_False by lia. by left. }
  destruct (decide (c < n - 1)%nat), (decide (0 < c)%nat); simpl in *; lia.
Qed.

Theorem C97_one_dimension_bitwise : forall p em n ownJunk neiJunk m,
  (1 <= n)%nat -> length ownJunk = (n + 1)%nat -> length neiJunk = (n - 1)%nat ->
  create1DUniformMesh em n ownJunk neiJunk (Some m) ->
  forall e e' s (phi : volField R) flux weights junk junk' scaling source r r',
  field_ok m phi -> length flux = nFaces m -> length weights = nFaces m ->
  length junk = nFaces m -> length junk' = nFaces m -> length source = nCells m -> coeff_ok scaling (nCells m) ->
  @div_explicitOperation R (scalar_value p) e m flux phi s weights junk scaling source r ->
  @div_explicitOperation R (scalar_value p) e' m flux phi s weights junk' scaling source r' -> r = r'.
Proof.
  intros p em n oj nj m Hn Ho Hnj Hm e e' s phi flux weights junk junk' scaling source r r' Hphi Hfl Hw Hj Hj' Hs Hco Hr Hr'.
  destruct (create1D_spec em n oj nj _ Hn Ho Hnj Hm) as (m' & [= <-] & HC & HI & HB & _ & Ht & _ & _ & _ & _ & _ & _ & _ & Hown & Hfc & _).
  eapply (@C96_two_faces_reproducible R (scalar_value p) m Ht e e' s phi flux weights junk junk' scaling source); try eassumption.
  - intros c Hc. apply (faces_1d n); try assumption; [|lia]. intros f Hf. destruct (Hown f Hf) as (E1 & E2 & _). unfold atn.
    by rewrite E1, E2.
  - cbv zeta. set (g := fun f : nat => _). intros c Hc a b Ha Hb.
    destruct (terms_format p m g c) as [F1 F2]; [intros f _; apply format_rnd|].
    pose proof (proj2 (Forall_app _ _ _) (conj F1 F2)) as F. rewrite Forall_forall in F.
    pose proof (F _ Ha) as Fa. pose proof (F _ Hb) as Fb. unfold vadd, vzero, scalar_value. rewrite !Rplus_0_l.
    rewrite (rnd_format p a Fa), (rnd_format p b Fb). by rewrite Rplus_comm.
Qed.

(** The hypotheses are met: three cells, upwind, in both precisions. *)
Example C97_instance : forall p, exists m (phi : volField R) flux,
  create1DUniformMesh CPUExecutor 3 (replicate 4 0%nat) (replicate 2 0%nat) (Some m) /\
  valid_topology m /\ field_ok m phi /\ length flux = nFaces m /\ coeff_ok coeff_default (nCells m) /\
  Forall (scalar_format p) (replicate (nCells m) 0) /\
  exists res, @div_explicitOperation R (scalar_value p) CPUExecutor m flux phi Upwind flux (replicate 4 0) coeff_default (replicate 3 0) (Some res) /\
    within p m (fun f => rnd p (rnd p (QcR (at0 flux f)) * @face_value R (scalar_value p) m Upwind phi flux flux f)) coeff_default (replicate 3 0) res.
Proof.
  intros p. destruct (create1D_defined CPUExecutor 3 (replicate 4 0%nat) (replicate 2 0%nat)) as (m & Hm); [lia|done|done|].
  destruct (create1D_spec CPUExecutor 3 (replicate 4 0%nat) (replicate 2 0%nat) (Some m) ltac:(lia) ltac:(done) ltac:(done) Hm) as (m' & [= <-] & HC & HI & HB & _ & Ht & _).
  pose proof (vt_faces _ Ht) as HF. rewrite HI, HB in HF. simpl in HF.
  exists m, (VolField (replicate 3 1) (replicate 2 1) [] [] []), (replicate 4 1%Qc).
  assert (Hphi : field_ok m (VolField (replicate 3 1) (replicate 2 1) [] [] [])) by (split; simpl; lia).
  assert (Hz : Forall (scalar_format p) (replicate 3 0)) by (apply Forall_replicate, format_0).
  assert (Hco : coeff_ok coeff_default (nCells m)) by (by rewrite HC).
  split; [done|]. split; [done|]. split; [done|]. split; [by rewrite HF|]. split; [done|]. split; [by rewrite HC|].
  destruct (C97_div_error p m Ht CPUExecutor Upwind (VolField (replicate 3 1) (replicate 2 1) [] [] []) (replicate 4 1%Qc)
    (replicate 4 1%Qc) (replicate 4 0) coeff_default (replicate 3 0) Hphi ltac:(by rewrite HF) ltac:(by rewrite HF) ltac:(by rewrite HF)
    ltac:(by rewrite HC) Hco Hz) as (_ & (res & Hres) & Ha).
  exists res. split; [done|by apply Ha].
Qed.
Print Assumptions C97_div_error.
