(** Proofs about explicit diffusion and the growth of perturbations. *)
From Verif Require Import Base Par Exec Value Kernel Mesh MeshSpec Coeff FV FVSpec FVProofs Assembly AssemblySpec Sparsity SparsitySpec AssemblyProps Dict Boundary Properties_Boundary Properties_CoNum Transport TransportProofs Diffusion QcLra.
Local Open Scope Qc_scope.

(** ** Summation by parts *)
Section parts.
  Context (m : mesh) (Hm : valid_topology m).
  Lemma sum_at (g : nat -> nat) (n : nat) (x y : nat -> Qc) : (forall f, (f < n)%nat -> (g f < nCells m)%nat) ->
    vsum_over (nCells m) (fun c => y c * vsum_over n (fun f => if decide (g f = c) then x f else 0)) = vsum_over n (fun f => y (g f) * x f).
  Proof.
    intros Hg. transitivity (vsum_over (nCells m) (fun c => vsum_over n (fun f => if decide (g f = c) then y (g f) * x f else vzero))).
    - apply vsum_over_ext. intros c Hc. change (y c * vsum_over n (fun f => if decide (g f = c) then x f else 0)) with (vscale (y c) (vsum_over n (fun f => if decide (g f = c) then x f else 0))).
      rewrite <- vsum_over_scale. apply vsum_over_ext. intros f Hf. destruct (decide (g f = c)) as [<-|]; cbn [vscale vzero Qc_value]; [done|ring].
    - rewrite vsum_over_exchange. apply vsum_over_ext. intros f Hf.
      etransitivity; [|apply (vsum_over_single (nCells m) (g f) (y (g f) * x f)); by apply Hg].
      apply vsum_over_ext. intros c Hc. destruct (decide (g f = c)), (decide (c = g f)); congruence.
  Qed.
  Lemma by_parts (y g : nat -> Qc) :
    vsum_over (nCells m) (fun c => y c * cell_balance m g c) =
    vsum_over (nInternalFaces m) (fun f => (y (atn (faceOwner m) f) - y (atn (faceNeighbour m) f)) * g f) +
    vsum_over (nBoundaryFaces m) (fun b => y (atn (bFaceCells (bmesh m)) b) * g (nInternalFaces m + b)%nat).
  Proof.
    transitivity (vadd (vadd
      (vsum_over (nCells m) (fun c => y c * vsum_over (nInternalFaces m) (fun f => if decide (atn (faceOwner m) f = c) then g f else 0)))
      (vneg (vsum_over (nCells m) (fun c => y c * vsum_over (nInternalFaces m) (fun f => if decide (atn (faceNeighbour m) f = c) then g f else 0)))))
      (vsum_over (nCells m) (fun c => y c * vsum_over (nBoundaryFaces m) (fun b => if decide (atn (bFaceCells (bmesh m)) b = c) then g (nInternalFaces m + b)%nat else 0)))).
    - rewrite <- vsum_over_neg, <- !vsum_over_add. apply vsum_over_ext. intros c Hc. unfold cell_balance, vsub. cbn [vadd vneg vzero Qc_value]. ring.
    - rewrite !sum_at by (intros; first [by apply owner_lt|by apply vt_nei|by apply vt_fc]).
      rewrite <- vsum_over_neg, <- vsum_over_add. change (@vadd Qc Qc_value) with Qcplus. f_equal. apply vsum_over_ext. intros f Hf. cbn [vneg Qc_value]. ring.
  Qed.
End parts.

Lemma qc_eq_le (a b : Qc) : a = b -> a <= b.
Proof. intros ->. apply Qcle_refl. Qed.
Lemma sq_nonneg (a : Qc) : 0 <= a * a.
Proof. qc_nra. Qed.
Lemma sum_le n (f g : nat -> Qc) : (forall i, (i < n)%nat -> f i <= g i) -> vsum_over n f <= vsum_over n g.
Proof.
  intros H. pose proof (sum_nonneg n (fun i => g i - f i)) as P.
  assert (E : vsum_over n (fun i => g i - f i) = vsum_over n g - vsum_over n f).
  { transitivity (vadd (vsum_over n g) (vneg (vsum_over n f))); [|done]. rewrite <- vsum_over_neg, <- vsum_over_add. done. }
  rewrite E in P. assert (Q : 0 <= vsum_over n g - vsum_over n f).
  { apply P. intros i Hi. specialize (H i Hi). revert H. generalize (f i) (g i). qc_lra. }
  revert Q. generalize (vsum_over n f) (vsum_over n g). qc_lra.
Qed.

(** ** Perturbations of implicit transport *)
Section perturbation.
  Context (m : mesh) (Hm : valid_topology m) (flux gamma dc : list Qc).
  Notation transported := (transported m flux gamma dc).

  (** *** Maximum norm *)
  Definition raised (eps : Qc) (phi : volField Qc) : volField Qc :=
    VolField (vf_int phi) (vf_value phi) (map (fun v => v + eps) (vf_refValue phi ++ replicate (nBoundaryFaces m) 0)) (vf_valueFraction phi) (vf_refGrad phi).
  Lemma at0_raised eps l k i : (i < k)%nat -> at0 (map (fun v => v + eps) (l ++ replicate k 0)) i = at0 l i + eps.
  Proof.
    intros Hi. unfold at0. change (map (fun v => v + eps) (l ++ replicate k 0)) with ((fun v => v + eps) <$> (l ++ replicate k 0)).
    rewrite list_lookup_fmap. destruct (l !! i) as [v|] eqn:E.
    - by rewrite (lookup_app_l_Some _ _ _ _ E).
    - apply lookup_ge_None in E. rewrite lookup_app_r by done. rewrite lookup_replicate_2 by lia. done.
  Qed.
  Lemma transported_raised dt phi old x eps : divergence_free m flux -> length old = nCells m -> transported dt phi old x ->
    transported dt (raised eps phi) (map (fun v => v + eps) old) (map (fun v => v + eps) x).
  Proof.
    intros Hdiv Hlo [Hl Hx]. split; [by rewrite map_length|]. intros c Hc. specialize (Hx c Hc). unfold cell_law in *.
    assert (Hk : forall l d, length l = nCells m -> (d < nCells m)%nat -> at0 (map (fun v => v + eps) l) d = at0 l d + eps).
    { intros l d E Hd. unfold at0. change (map (fun v => v + eps) l) with ((fun v => v + eps) <$> l). rewrite list_lookup_fmap.
      destruct (lookup_lt_is_Some_2 l d ltac:(lia)) as [v Ev]. by rewrite Ev. }
    pose proof (vt_faces m Hm) as HF.
    rewrite (balance_congr m Hm (convected m flux (raised eps phi) (map (fun v => v + eps) x)) (fun f => convected m flux phi x f + eps * at0 flux f)).
    2:{ intros f Hf. unfold convected, implicit_face_value. destruct (decide (f < nInternalFaces m)%nat) as [Hi|Hi].
        - unfold at_neighbour, at_owner. cbn [with_int vf_int]. change (@atV Qc Qc_value) with at0.
          rewrite (Hk _ _ Hl (vt_nei m Hm f Hi)), (Hk _ _ Hl (owner_lt m Hm f Hi)). destruct (Qclt_le_dec _ _); ring.
        - unfold at_face_cell. cbn [with_int vf_int vf_valueFraction vf_refValue raised]. change (@atV Qc Qc_value) with at0.
          rewrite (Hk _ _ Hl (vt_fc m Hm (f - nInternalFaces m)%nat ltac:(lia))). rewrite at0_raised by lia. cbn [vadd vscale Qc_value]. ring. }
    rewrite (balance_congr m Hm (diffused m gamma dc (raised eps phi) (map (fun v => v + eps) x)) (diffused m gamma dc phi x)).
    2:{ intros f Hf. unfold diffused, implicit_normal_gradient. destruct (decide (f < nInternalFaces m)%nat) as [Hi|Hi].
        - unfold at_neighbour, at_owner. cbn [with_int vf_int]. change (@atV Qc Qc_value) with at0.
          rewrite (Hk _ _ Hl (vt_nei m Hm f Hi)), (Hk _ _ Hl (owner_lt m Hm f Hi)). vring.
        - unfold at_face_cell. cbn [with_int vf_int vf_valueFraction vf_refValue vf_refGrad raised]. change (@atV Qc Qc_value) with at0.
          rewrite (Hk _ _ Hl (vt_fc m Hm (f - nInternalFaces m)%nat ltac:(lia))). rewrite at0_raised by lia. vring. }
    rewrite balance_add, balance_scaled, (Hdiv c Hc), !Hk by done. etransitivity; [|exact Hx]. ring.
  Qed.
  Lemma transported_one_sided (Hdiff : diffusive m gamma dc) dt phi psi old1 old2 x y eps : 0 < dt -> divergence_free m flux -> inflow_boundary m flux phi ->
    length old2 = nCells m ->
    (forall b, (b < nBoundaryFaces m)%nat -> at0 (vf_valueFraction phi) b = at0 (vf_valueFraction psi) b /\
       (at0 (vf_valueFraction phi) b = 0 \/ at0 (vf_refValue phi) b - at0 (vf_refValue psi) b <= eps) /\
       (1 - at0 (vf_valueFraction phi) b) * at0 (vf_refGrad phi) b = (1 - at0 (vf_valueFraction psi) b) * at0 (vf_refGrad psi) b) ->
    (forall c, (c < nCells m)%nat -> at0 old1 c - at0 old2 c <= eps) ->
    transported dt phi old1 x -> transported dt psi old2 y ->
    forall c, (c < nCells m)%nat -> at0 x c - at0 y c <= eps.
  Proof.
    intros Hdt Hdiv Hin Hl2 Hb Ho Hx Hy c Hc.
    assert (Hk : forall l d, length l = nCells m -> (d < nCells m)%nat -> at0 (map (fun v => v + eps) l) d = at0 l d + eps).
    { intros l d E Hd. unfold at0. change (map (fun v => v + eps) l) with ((fun v => v + eps) <$> l). rewrite list_lookup_fmap.
      destruct (lookup_lt_is_Some_2 l d ltac:(lia)) as [v Ev]. by rewrite Ev. }
    assert (Hout : forall c, (c < nCells m)%nat -> 0 <= cell_balance m (at0 flux) c) by (intros d Hd; rewrite Hdiv by done; apply Qcle_refl).
    pose proof (transported_comparison m Hm flux gamma dc Hdiff Hout dt phi (raised eps psi) old1 (map (fun v => v + eps) old2) x (map (fun v => v + eps) y) Hdt Hin) as H.
    assert (P : at0 x c <= at0 (map (fun v => v + eps) y) c).
    { apply H; [| |done|by apply transported_raised|done].
      - intros b Hbb. destruct (Hb b Hbb) as (B1 & B2 & B3). cbn [raised vf_valueFraction vf_refValue vf_refGrad]. split; [done|]. split.
        + destruct B2 as [B2|B2]; [by left|]. right. rewrite at0_raised by done. revert B2. generalize (at0 (vf_refValue phi) b) (at0 (vf_refValue psi) b). qc_lra.
        + rewrite B3. apply Qcle_refl.
      - intros d Hd. rewrite Hk by done. specialize (Ho d Hd). revert Ho. generalize (at0 old1 d) (at0 old2 d). qc_lra. }
    rewrite Hk in P by (done || apply Hy). revert P. generalize (at0 x c) (at0 y c). qc_lra.
  Qed.

  (** *** Squared distance *)
  Section energy.
    Context (Hdiff : diffusive m gamma dc) (Hdiv : divergence_free m flux).
    Context (phi psi : volField Qc) (Hin : inflow_boundary m flux phi) (Hiv : inflow_values m flux phi)
      (Hb : forall b, (b < nBoundaryFaces m)%nat -> at0 (vf_valueFraction phi) b = at0 (vf_valueFraction psi) b /\
         (at0 (vf_valueFraction phi) b = 0 \/ at0 (vf_refValue phi) b = at0 (vf_refValue psi) b) /\
         (1 - at0 (vf_valueFraction phi) b) * at0 (vf_refGrad phi) b = (1 - at0 (vf_valueFraction psi) b) * at0 (vf_refGrad psi) b).
    Context (dt : Qc) (Hdt : 0 < dt) (old1 old2 x y : list Qc) (Hx : transported dt phi old1 x) (Hy : transported dt psi old2 y).
    Let d (c : nat) : Qc := at0 x c - at0 y c.
    Let G (f : nat) : Qc := convected m flux phi x f + - (1) * diffused m gamma dc phi x f + - (1) * (convected m flux psi y f + - (1) * diffused m gamma dc psi y f).

    Lemma halved (a b : Qc) : (1 + 1) * a <= (1 + 1) * b -> a <= b.
    Proof. qc_lra. Qed.
    (** What a face dissipates. *)
    Lemma internal_dissipates f : (f < nInternalFaces m)%nat ->
      at0 flux f * (d (atn (faceOwner m) f) * d (atn (faceOwner m) f)) - at0 flux f * (d (atn (faceNeighbour m) f) * d (atn (faceNeighbour m) f)) <=
      (1 + 1) * ((d (atn (faceOwner m) f) - d (atn (faceNeighbour m) f)) * G f).
    Proof.
      intros Hf. destruct (Hdiff f ltac:(rewrite (vt_faces m Hm); lia)) as (G1 & G2 & G3).
      pose proof (qc_mul_nonneg _ _ (qc_mul_nonneg _ _ G1 G2) G3) as Hg.
      unfold G, d, convected, diffused, implicit_face_value, implicit_normal_gradient. rewrite !decide_True by done.
      unfold at_neighbour, at_owner. cbn [with_int vf_int]. change (@atV Qc Qc_value) with at0. unfold vsub. cbn [vscale vadd vneg vzero Qc_value].
      revert Hg. generalize (at0 gamma f) (at0 (magFaceAreas m) f) (at0 dc f). intros g A k Hg.
      generalize (at0 x (atn (faceOwner m) f)) (at0 y (atn (faceOwner m) f)) (at0 x (atn (faceNeighbour m) f)) (at0 y (atn (faceNeighbour m) f)). intros xo yo xn yn.
      pose proof (qc_mul_nonneg _ _ Hg (sq_nonneg ((xo - yo) - (xn - yn)))) as P.
      destruct (Qclt_le_dec (at0 flux f) 0) as [Hs|Hs].
      - assert (Q : 0 <= (- at0 flux f) * (((xo - yo) - (xn - yn)) * ((xo - yo) - (xn - yn)))) by (apply qc_mul_nonneg; [revert Hs; generalize (at0 flux f); qc_lra|apply sq_nonneg]).
        revert P Q. generalize (at0 flux f). intros F P Q.
        match goal with |- ?a <= ?b => assert (E : b - a = (1 + 1) * (g * A * k * (((xo - yo) - (xn - yn)) * ((xo - yo) - (xn - yn)))) + (- F) * (((xo - yo) - (xn - yn)) * ((xo - yo) - (xn - yn)))) by ring; revert E; generalize a b end.
        revert P Q. generalize (g * A * k * (((xo - yo) - (xn - yn)) * ((xo - yo) - (xn - yn)))) ((- F) * (((xo - yo) - (xn - yn)) * ((xo - yo) - (xn - yn)))). qc_lra.
      - assert (Q : 0 <= at0 flux f * (((xo - yo) - (xn - yn)) * ((xo - yo) - (xn - yn)))) by (apply qc_mul_nonneg; [done|apply sq_nonneg]).
        revert P Q. generalize (at0 flux f). intros F P Q.
        match goal with |- ?a <= ?b => assert (E : b - a = (1 + 1) * (g * A * k * (((xo - yo) - (xn - yn)) * ((xo - yo) - (xn - yn)))) + F * (((xo - yo) - (xn - yn)) * ((xo - yo) - (xn - yn)))) by ring; revert E; generalize a b end.
        revert P Q. generalize (g * A * k * (((xo - yo) - (xn - yn)) * ((xo - yo) - (xn - yn)))) (F * (((xo - yo) - (xn - yn)) * ((xo - yo) - (xn - yn)))). qc_lra.
    Qed.
    Lemma boundary_dissipates b : (b < nBoundaryFaces m)%nat ->
      at0 flux (nInternalFaces m + b)%nat * (d (atn (bFaceCells (bmesh m)) b) * d (atn (bFaceCells (bmesh m)) b)) <=
      (1 + 1) * (d (atn (bFaceCells (bmesh m)) b) * G (nInternalFaces m + b)%nat).
    Proof.
      intros Hbb. destruct (Hdiff (nInternalFaces m + b)%nat ltac:(rewrite (vt_faces m Hm); lia)) as (G1 & G2 & G3).
      pose proof (qc_mul_nonneg _ _ (qc_mul_nonneg _ _ G1 G2) G3) as Hg.
      destruct (Hin b Hbb) as (V1 & V2 & V3). pose proof (Hiv b Hbb) as V4. destruct (Hb b Hbb) as (B1 & B2 & B3).
      unfold G, d, convected, diffused, implicit_face_value, implicit_normal_gradient. rewrite !decide_False by lia.
      replace (nInternalFaces m + b - nInternalFaces m)%nat with b by lia.
      unfold at_face_cell. cbn [with_int vf_int vf_valueFraction vf_refValue vf_refGrad]. change (@atV Qc Qc_value) with at0. unfold vsub. cbn [vscale vadd vneg vzero Qc_value].
      rewrite <- B1 in *. clear B1 Hx Hy G d.
      revert Hg V1 V2 V3 V4 B2 B3. generalize (at0 gamma (nInternalFaces m + b)) (at0 (magFaceAreas m) (nInternalFaces m + b)) (at0 dc (nInternalFaces m + b)) (at0 flux (nInternalFaces m + b))
        (at0 (vf_valueFraction phi) b) (at0 (vf_refValue phi) b) (at0 (vf_refValue psi) b) (at0 (vf_refGrad phi) b) (at0 (vf_refGrad psi) b)
        (at0 x (atn (bFaceCells (bmesh m)) b)) (at0 y (atn (bFaceCells (bmesh m)) b)).
      intros g A k F v r1 r2 h1 h2 a c Hg V1 V2 V3 V4 B2 B3.
      pose proof (qc_mul_nonneg _ _ (qc_mul_nonneg _ _ V1 Hg) (sq_nonneg (a - c))) as P.
      assert (Q : 0 <= (F - (1 + 1) * F * v) * ((a - c) * (a - c))).
      { apply qc_mul_nonneg; [|apply sq_nonneg]. destruct (Qclt_le_dec F 0) as [Hs|Hs].
        - rewrite (V4 Hs). revert Hs. qc_lra.
        - destruct V3 as [->|V3]; [revert Hs; qc_lra|]. assert (F = 0) as -> by (by apply Qcle_antisym). qc_lra. }
      assert (Hr : v * r1 = v * r2) by (destruct B2 as [->| ->]; ring).
      match goal with |- ?l <= ?r => assert (E : r - l = (F - (1 + 1) * F * v) * ((a - c) * (a - c)) + (1 + 1) * (v * (g * A * k) * ((a - c) * (a - c)))
         + (1 + 1) * (a - c) * (F - g * A * k) * (v * r1 - v * r2) - (1 + 1) * (a - c) * (g * A) * ((1 - v) * h1 - (1 - v) * h2)) by ring; revert E; generalize l r end.
      revert P Q. generalize (v * (g * A * k) * ((a - c) * (a - c))) ((F - (1 + 1) * F * v) * ((a - c) * (a - c))). intros p q P Q l r E. rewrite Hr, B3 in E.
      replace (q + (1 + 1) * p + (1 + 1) * (a - c) * (F - g * A * k) * (v * r2 - v * r2) - (1 + 1) * (a - c) * (g * A) * ((1 - v) * h2 - (1 - v) * h2)) with (q + (1 + 1) * p) in E by ring.
      clear - P Q E. revert P Q E. qc_lra.
    Qed.
    Lemma transported_distance : square_distance m x y <= square_distance m old1 old2.
    Proof.
      destruct Hx as [Hlx Lx], Hy as [Hly Ly]. unfold cell_law in Lx, Ly.
      (* 2 dt sum d_c balance(G)_c >= 0 *)
      assert (HG : 0 <= (1 + 1) * vsum_over (nCells m) (fun c => d c * cell_balance m G c)).
      { assert (Hz : vsum_over (nCells m) (fun c => d c * d c * cell_balance m (at0 flux) c) = 0).
        { transitivity (vsum_over (nCells m) (fun _ => vzero : Qc)); [|by rewrite vsum_over_zero]. apply vsum_over_ext. intros c Hc. rewrite (Hdiv c Hc). cbn [vzero Qc_value]. ring. }
        rewrite (by_parts m Hm) in Hz. rewrite (by_parts m Hm).
        pose proof (sum_le (nInternalFaces m) (fun f => (d (atn (faceOwner m) f) * d (atn (faceOwner m) f) - d (atn (faceNeighbour m) f) * d (atn (faceNeighbour m) f)) * at0 flux f)
          (fun f => vscale (1 + 1) ((d (atn (faceOwner m) f) - d (atn (faceNeighbour m) f)) * G f))) as P1.
        pose proof (sum_le (nBoundaryFaces m) (fun b => d (atn (bFaceCells (bmesh m)) b) * d (atn (bFaceCells (bmesh m)) b) * at0 flux (nInternalFaces m + b))
          (fun b => vscale (1 + 1) (d (atn (bFaceCells (bmesh m)) b) * G (nInternalFaces m + b)%nat))) as P2.
        rewrite vsum_over_scale in P1, P2. cbn [vscale Qc_value] in P1, P2.
        match type of P1 with _ -> ?a <= _ * ?b => match type of P2 with _ -> ?c <= _ * ?e => assert (R1 : a <= (1 + 1) * b); [|assert (R2 : c <= (1 + 1) * e); [|revert Hz R1 R2; generalize a b c e; qc_lra]] end end.
        - apply P1. intros f Hf. eapply Qcle_trans; [|by apply internal_dissipates]. apply (qc_eq_le _ _); ring.
        - apply P2. intros b Hbb. eapply Qcle_trans; [|by apply boundary_dissipates]. apply (qc_eq_le _ _); ring. }
      unfold square_distance. apply Qcle_minus_iff.
      (* V/dt (d - e) + balance G = 0 *)
      assert (Ed : forall c, (c < nCells m)%nat -> at0 (cellVolumes m) c * (d c - (at0 old1 c - at0 old2 c)) = - dt * cell_balance m G c).
      { intros c Hc. unfold G. rewrite !balance_add, !balance_scaled, !balance_add, !balance_scaled. specialize (Lx c Hc). specialize (Ly c Hc). unfold d.
        revert Lx Ly. generalize (cell_balance m (convected m flux phi x) c) (cell_balance m (diffused m gamma dc phi x) c) (cell_balance m (convected m flux psi y) c) (cell_balance m (diffused m gamma dc psi y) c)
          (at0 (cellVolumes m) c) (at0 x c) (at0 y c) (at0 old1 c) (at0 old2 c). intros a1 b1 a2 b2 V xc yc o1 o2 E1 E2.
        assert (Hdt0 : dt <> 0) by (intros ->; by apply Qclt_not_eq in Hdt).
        apply (law_rearranged V dt xc o1 a1 b1 Hdt0) in E1. apply (law_rearranged V dt yc o2 a2 b2 Hdt0) in E2.
        transitivity (V * xc - V * yc - V * o1 + V * o2); [ring|]. rewrite E1, E2. ring. }
      pose proof (sum_nonneg (nCells m) (fun c => at0 (cellVolumes m) c * ((d c - (at0 old1 c - at0 old2 c)) * (d c - (at0 old1 c - at0 old2 c))))) as PS.
      assert (PN : 0 <= vsum_over (nCells m) (fun c => at0 (cellVolumes m) c * ((d c - (at0 old1 c - at0 old2 c)) * (d c - (at0 old1 c - at0 old2 c))))).
      { apply PS. intros c Hc. apply qc_mul_nonneg; [by apply Qclt_le_weak, (vt_vol m Hm)|apply sq_nonneg]. }
      assert (EE : vsum_over (nCells m) (fun c => at0 (cellVolumes m) c * ((at0 old1 c - at0 old2 c) * (at0 old1 c - at0 old2 c))) =
        vsum_over (nCells m) (fun c => at0 (cellVolumes m) c * (d c * d c)) +
        (vsum_over (nCells m) (fun c => at0 (cellVolumes m) c * ((d c - (at0 old1 c - at0 old2 c)) * (d c - (at0 old1 c - at0 old2 c)))) +
         dt * ((1 + 1) * vsum_over (nCells m) (fun c => d c * cell_balance m G c)))).
      { transitivity (vadd (vsum_over (nCells m) (fun c => at0 (cellVolumes m) c * (d c * d c)))
          (vadd (vsum_over (nCells m) (fun c => at0 (cellVolumes m) c * ((d c - (at0 old1 c - at0 old2 c)) * (d c - (at0 old1 c - at0 old2 c)))))
           (vscale (dt * (1 + 1)) (vsum_over (nCells m) (fun c => d c * cell_balance m G c))))); [|cbn [vadd vscale Qc_value]; ring].
        rewrite <- vsum_over_scale, <- !vsum_over_add. apply vsum_over_ext. intros c Hc. cbn [vadd vscale Qc_value].
        transitivity (at0 (cellVolumes m) c * (d c * d c) + (at0 (cellVolumes m) c * ((d c - (at0 old1 c - at0 old2 c)) * (d c - (at0 old1 c - at0 old2 c)))
          - (1 + 1) * d c * (- dt * cell_balance m G c))); [|ring]. rewrite <- (Ed c Hc). ring. }
      rewrite EE. change (at0 x) with (fun c => at0 x c). pose proof (qc_mul_nonneg _ _ (Qclt_le_weak _ _ Hdt) HG) as P. revert PN P. unfold d.
      match goal with |- 0 <= ?a -> 0 <= ?b -> 0 <= (?e + (?a + ?b)) + - ?e2 => change e2 with e; generalize a b e end. qc_lra.
    Qed.
  End energy.
End perturbation.

(** ** Explicit diffusion *)
Section explicit.
  Context (m : mesh) (Hm : valid_topology m) (dc : list Qc).

  Lemma step_content dt phi x : diffused_step m dc dt phi x ->
    content m x = content m (vf_int phi) + dt * boundary_influx m dc phi.
  Proof.
    intros [_ Hx]. unfold content, boundary_influx.
    pose proof (balance_total m Hm (V := Qc) (fun f => at0 (magFaceAreas m) f * normal_gradient m phi dc f)) as Ht.
    transitivity (vadd (vsum_over (nCells m) (fun c => at0 (cellVolumes m) c * at0 (vf_int phi) c))
        (vscale dt (vsum_over (nCells m) (cell_balance m (fun f => at0 (magFaceAreas m) f * normal_gradient m phi dc f))))).
    - rewrite <- vsum_over_scale, <- vsum_over_add. apply vsum_over_ext. intros c Hc. cbn [vadd vscale Qc_value]. rewrite <- (Hx c Hc). ring.
    - rewrite Ht. cbn [vadd vscale Qc_value]. do 2 f_equal. apply vsum_over_ext. intros b Hb. unfold normal_gradient. rewrite decide_False by lia.
      replace (nInternalFaces m + b - nInternalFaces m)%nat with b by lia. unfold at_face_cell. vring.
  Qed.

  Lemma conductance_balance c : conductance m dc c =
    cell_balance m (fun f => if decide (f < nInternalFaces m /\ atn (faceOwner m) f <> c)%nat then - (1) * (at0 (magFaceAreas m) f * at0 dc f) else at0 (magFaceAreas m) f * at0 dc f) c.
  Proof.
    unfold conductance, cell_balance, vsub. rewrite <- vsum_over_neg. cbn [vadd Qc_value].
    f_equal; [f_equal|]; apply vsum_over_ext; intros f Hf; cbn [vneg vzero Qc_value].
    - destruct (decide (atn (faceOwner m) f = c)); [|done]. by rewrite decide_False by lia.
    - destruct (decide (atn (faceNeighbour m) f = c)) as [E|]; [|symmetry; apply Qc_is_canon; reflexivity].
      pose proof (vt_owner m Hm f Hf). rewrite decide_True by lia. ring.
    - destruct (decide (atn (bFaceCells (bmesh m)) f = c)); [|done]. by rewrite decide_False by lia.
  Qed.
  Lemma step_arith (V dt S K a xc hi : Qc) : 0 < V -> 0 <= dt -> V * (xc - a) = dt * S -> 0 <= (hi - a) * K - S -> dt * K / V <= 1 -> a <= hi -> xc <= hi.
  Proof.
    intros HV Hdt Hx HF HK Ha.
    assert (P1 : 0 <= dt * ((hi - a) * K - S)) by (by apply qc_mul_nonneg).
    assert (P2 : 0 <= V * (hi - a) * (1 - dt * K / V)).
    { apply qc_mul_nonneg; [apply qc_mul_nonneg; [by apply Qclt_le_weak|revert Ha; qc_lra]|]. revert HK. generalize (dt * K / V). qc_lra. }
    assert (E : dt * ((hi - a) * K - S) + V * (hi - a) * (1 - dt * K / V) = V * (hi - xc)).
    { transitivity (V * (hi - a) - dt * S); [field; intros ->; by apply Qclt_not_eq in HV|]. rewrite <- Hx. ring. }
    assert (P : 0 <= V * (hi - xc)) by (rewrite <- E; revert P1 P2; generalize (dt * ((hi - a) * K - S)) (V * (hi - a) * (1 - dt * K / V)); qc_lra).
    destruct (Qclt_le_dec hi xc) as [Hn|]; [|done]. exfalso.
    assert (N : 0 < V * (xc - hi)) by (apply qc_mul_pos; [done|revert Hn; qc_lra]).
    replace (V * (hi - xc)) with (- (V * (xc - hi))) in P by ring. revert P N. generalize (V * (xc - hi)). qc_lra.
  Qed.
  Lemma step_upper dt phi x lo hi : 0 <= dt -> face_positive m dc ->
    (forall c, (c < nCells m)%nat -> diffusion_number m dc dt c <= 1) ->
    cells_between m lo hi (vf_int phi) -> boundary_within m lo hi phi -> diffused_step m dc dt phi x ->
    forall c, (c < nCells m)%nat -> at0 x c <= hi.
  Proof.
    intros Hdt Hpos Hnum Hcb Hbv [_ Hx] c Hc. specialize (Hx c Hc). specialize (Hnum c Hc). unfold diffusion_number in Hnum.
    destruct (Hcb c Hc) as [_ Ua]. apply (step_arith _ dt _ (conductance m dc c) _ _ hi (vt_vol m Hm c Hc) Hdt Hx); [|exact Hnum|exact Ua].
    rewrite conductance_balance. set (a := at0 (vf_int phi) c) in *.
    eapply (nonneg_eq (cell_balance m (fun f => (hi - a) * (if decide (f < nInternalFaces m /\ atn (faceOwner m) f <> c)%nat then - (1) * (at0 (magFaceAreas m) f * at0 dc f) else at0 (magFaceAreas m) f * at0 dc f)
       + - (1) * (at0 (magFaceAreas m) f * normal_gradient m phi dc f)) c)); [|rewrite balance_add, !balance_scaled; ring].
    apply balance_nonneg.
    - intros f Hf Ho. rewrite decide_False by lia. unfold normal_gradient. rewrite decide_True by done. unfold at_neighbour, at_owner. rewrite Ho.
      destruct (Hpos f ltac:(rewrite (vt_faces m Hm); lia)) as [G1 G2]. pose proof (qc_mul_nonneg _ _ G1 G2) as G. destruct (Hcb _ (vt_nei m Hm f Hf)) as [_ U].
      eapply (nonneg_eq (at0 (magFaceAreas m) f * at0 dc f * (hi - at0 (vf_int phi) (atn (faceNeighbour m) f)))); [apply qc_mul_nonneg; [done|]|unfold a; vring].
      revert U. generalize (at0 (vf_int phi) (atn (faceNeighbour m) f)). qc_lra.
    - intros f Hf Hn. pose proof (vt_owner m Hm f Hf) as Hon. rewrite decide_True by lia. unfold normal_gradient. rewrite decide_True by done. unfold at_neighbour, at_owner. rewrite Hn.
      destruct (Hpos f ltac:(rewrite (vt_faces m Hm); lia)) as [G1 G2]. pose proof (qc_mul_nonneg _ _ G1 G2) as G. destruct (Hcb _ (owner_lt m Hm f Hf)) as [_ U].
      eapply (nonpos_eq (at0 (magFaceAreas m) f * at0 dc f * (at0 (vf_int phi) (atn (faceOwner m) f) - hi))); [apply qc_mul_pn; [done|]|unfold a; vring].
      revert U. generalize (at0 (vf_int phi) (atn (faceOwner m) f)). qc_lra.
    - intros b Hb Hbc. rewrite decide_False by lia. unfold normal_gradient. rewrite decide_False by lia.
      replace (nInternalFaces m + b - nInternalFaces m)%nat with b by lia. unfold at_face_cell. rewrite Hbc.
      destruct (Hpos (nInternalFaces m + b)%nat ltac:(rewrite (vt_faces m Hm); lia)) as [G1 G2]. pose proof (qc_mul_nonneg _ _ G1 G2) as G. destruct (Hbv b Hb) as [_ U].
      eapply (nonneg_eq (at0 (magFaceAreas m) (nInternalFaces m + b)%nat * at0 dc (nInternalFaces m + b)%nat * (hi - at0 (vf_value phi) b))); [apply qc_mul_nonneg; [done|]|unfold a; vring].
      revert U. generalize (at0 (vf_value phi) b). qc_lra.
  Qed.
  Lemma normal_gradient_neg phi f : normal_gradient m (neg_field phi) dc f = - normal_gradient m phi dc f.
  Proof.
    unfold normal_gradient, at_neighbour, at_owner, at_face_cell, neg_field. cbn [vf_int vf_value]. change (@atV Qc Qc_value) with at0. unfold vsub. cbn [vscale vadd vneg Qc_value].
    rewrite !at0_neg. destruct (decide _); ring.
  Qed.
  Lemma step_lower dt phi x lo hi : 0 <= dt -> face_positive m dc ->
    (forall c, (c < nCells m)%nat -> diffusion_number m dc dt c <= 1) ->
    cells_between m lo hi (vf_int phi) -> boundary_within m lo hi phi -> diffused_step m dc dt phi x ->
    forall c, (c < nCells m)%nat -> lo <= at0 x c.
  Proof.
    intros Hdt Hpos Hnum Hcb Hbv [Hl Hx] c Hc. apply opp_le. rewrite <- at0_neg.
    apply (step_upper dt (neg_field phi) (neg_list x) (- hi) (- lo)); try done.
    - intros d Hd. cbn [neg_field vf_int]. rewrite at0_neg. destruct (Hcb d Hd). by split; apply (proj1 (opp_le _ _)).
    - intros b Hb. cbn [neg_field vf_value]. rewrite !at0_neg. destruct (Hbv b Hb). by split; apply (proj1 (opp_le _ _)).
    - split; [unfold neg_list; by rewrite map_length|]. intros d Hd. cbn [neg_field vf_int]. rewrite !at0_neg.
      transitivity (- (1) * (at0 (cellVolumes m) d * (at0 x d - at0 (vf_int phi) d))); [ring|]. rewrite (Hx d Hd).
      rewrite (balance_congr m Hm (fun f => at0 (magFaceAreas m) f * normal_gradient m (neg_field phi) dc f) (fun f => - (1) * (at0 (magFaceAreas m) f * normal_gradient m phi dc f)))
        by (intros f Hf; rewrite normal_gradient_neg; ring).
      rewrite balance_scaled. ring.
  Qed.
  (** Where the number exceeds 1, a field that is 1 in that cell and 0 elsewhere
      becomes negative there. *)
  Lemma spike_step dt c phi x : (c < nCells m)%nat ->
    (forall d, (d < nCells m)%nat -> at0 (vf_int phi) d = if decide (d = c) then 1 else 0) ->
    (forall b, (b < nBoundaryFaces m)%nat -> at0 (vf_value phi) b = 0) ->
    diffused_step m dc dt phi x -> at0 x c = 1 - diffusion_number m dc dt c.
  Proof.
    intros Hc Hi Hb [_ Hx]. specialize (Hx c Hc). unfold diffusion_number. rewrite conductance_balance.
    pose proof (vt_vol m Hm c Hc) as HV. assert (HV0 : at0 (cellVolumes m) c <> 0) by (intros E; rewrite E in HV; by apply Qclt_not_eq in HV).
    rewrite (Hi c Hc) in Hx. rewrite decide_True in Hx by done.
    assert (E : cell_balance m (fun f => at0 (magFaceAreas m) f * normal_gradient m phi dc f) c =
      - (1) * cell_balance m (fun f => if decide (f < nInternalFaces m /\ atn (faceOwner m) f <> c)%nat then - (1) * (at0 (magFaceAreas m) f * at0 dc f) else at0 (magFaceAreas m) f * at0 dc f) c).
    { rewrite <- balance_scaled. unfold cell_balance. cbn [vzero Qc_value]. f_equal; [f_equal|]; apply vsum_over_ext; intros f Hf; (destruct (decide _) as [Ec|]; [|done]).
      - rewrite decide_False by lia. unfold normal_gradient. rewrite decide_True by done. unfold at_neighbour, at_owner. change (@atV Qc Qc_value) with at0. rewrite Ec.
        pose proof (vt_owner m Hm f Hf). rewrite (Hi _ (vt_nei m Hm f Hf)), (Hi c Hc), decide_False, decide_True by lia. vring.
      - pose proof (vt_owner m Hm f Hf). rewrite decide_True by lia. unfold normal_gradient. rewrite decide_True by done. unfold at_neighbour, at_owner. change (@atV Qc Qc_value) with at0. rewrite Ec.
        rewrite (Hi _ (owner_lt m Hm f Hf)), (Hi c Hc), decide_True, decide_False by lia. vring.
      - rewrite decide_False by lia. unfold normal_gradient. rewrite decide_False by lia. replace (nInternalFaces m + f - nInternalFaces m)%nat with f by lia.
        unfold at_face_cell. change (@atV Qc Qc_value) with at0. rewrite Ec, (Hb f Hf), (Hi c Hc), decide_True by done. vring. }
    rewrite E in Hx. revert Hx. generalize (cell_balance m (fun f => if decide (f < nInternalFaces m /\ atn (faceOwner m) f <> c)%nat then - (1) * (at0 (magFaceAreas m) f * at0 dc f) else at0 (magFaceAreas m) f * at0 dc f) c).
    revert HV0. generalize (at0 (cellVolumes m) c) (at0 x c). intros V xc HV0 K Hx.
    transitivity (1 + (V * (xc - 1)) / V); [field; done|]. rewrite Hx. field. done.
  Qed.
  Lemma step_exists dt phi : exists x, diffused_step m dc dt phi x.
  Proof.
    exists (map (fun c => at0 (vf_int phi) c + dt * cell_balance m (fun f => at0 (magFaceAreas m) f * normal_gradient m phi dc f) c / at0 (cellVolumes m) c) (seq 0 (nCells m))).
    split; [by rewrite map_length, seq_length|]. intros c Hc.
    assert (E : at0 (map (fun c => at0 (vf_int phi) c + dt * cell_balance m (fun f => at0 (magFaceAreas m) f * normal_gradient m phi dc f) c / at0 (cellVolumes m) c) (seq 0 (nCells m))) c =
      at0 (vf_int phi) c + dt * cell_balance m (fun f => at0 (magFaceAreas m) f * normal_gradient m phi dc f) c / at0 (cellVolumes m) c).
    { unfold at0 at 1. change (map ?f ?l) with (f <$> l). rewrite list_lookup_fmap, lookup_seq_lt by done. done. }
    rewrite E. pose proof (vt_vol m Hm c Hc) as HV. field. intros E0. rewrite E0 in HV. by apply Qclt_not_eq in HV.
  Qed.
End explicit.
