(** Proofs about the discrete transport equation. *)
From Coq Require Import Lqa.
From Verif Require Import Base Par Exec Value Kernel Mesh MeshSpec Coeff FV FVSpec FVProofs Assembly AssemblySpec Sparsity SparsitySpec AssemblyProps Dict Boundary Properties_Boundary Properties_CoNum Transport QcLra.
From Coq Require Import QArith.Qcabs.
Local Open Scope Qc_scope.

(** A finite set of values has a largest. *)
Lemma arg_max (n : nat) (f : nat -> Qc) : (0 < n)%nat -> exists k, (k < n)%nat /\ forall i, (i < n)%nat -> f i <= f k.
Proof.
  induction n as [|n IH]; intros Hn; [lia|].
  destruct (decide (n = 0)%nat) as [->|Hz].
  - exists 0%nat. split; [lia|]. intros i Hi. replace i with 0%nat by lia. apply Qcle_refl.
  - destruct IH as (k & Hk & Hm); [lia|]. destruct (Qclt_le_dec (f k) (f n)) as [Hlt|Hle].
    + exists n. split; [lia|]. intros i Hi. destruct (decide (i = n)) as [->|]; [apply Qcle_refl|].
      apply Qclt_le_weak. eapply Qcle_lt_trans; [apply (Hm i); lia|done].
    + exists k. split; [lia|]. intros i Hi. destruct (decide (i = n)) as [->|]; [done|]. apply Hm. lia.
Qed.
Lemma sum_nonneg n (f : nat -> Qc) : (forall i, (i < n)%nat -> 0 <= f i) -> 0 <= vsum_over n f.
Proof.
  induction n as [|n IH]; intros Hf.
  - apply Qcle_refl.
  - rewrite vsum_over_S. change (0 <= vsum_over n f + f n). pose proof (IH (fun i Hi => Hf i ltac:(lia))). pose proof (Hf n ltac:(lia)). revert H H0. generalize (vsum_over n f) (f n). qc_lra.
Qed.

Lemma three_nonneg (a b c : Qc) : 0 <= a -> 0 <= b -> 0 <= c -> 0 <= vadd (vadd a b) c.
Proof. change (0 <= a -> 0 <= b -> 0 <= c -> 0 <= a + b + c). qc_lra. Qed.

(** Identities between expressions with the operations of ValueType. *)
Ltac vring := change (@atV Qc Qc_value) with at0; unfold vsub; cbn [vscale vadd vneg vzero Qc_value]; ring.
Lemma nonneg_eq (a b : Qc) : 0 <= a -> a = b -> 0 <= b.
Proof. by intros ? <-. Qed.
Lemma nonpos_eq (a b : Qc) : a <= 0 -> a = b -> b <= 0.
Proof. by intros ? <-. Qed.

Section balance.
  Context (m : mesh) (Hm : valid_topology m).

  Lemma balance_add (f g : nat -> Qc) c : cell_balance m (fun i => f i + g i) c = cell_balance m f c + cell_balance m g c.
  Proof.
    unfold cell_balance.
    rewrite (vsum_over_ext (nInternalFaces m) _ (fun i => vadd (if decide (atn (faceOwner m) i = c) then f i else vzero) (if decide (atn (faceOwner m) i = c) then g i else vzero)))
      by (intros i _; destruct (decide _); [done|symmetry; apply Qcplus_0_l]).
    rewrite (vsum_over_ext (nInternalFaces m) (fun i => if decide (atn (faceNeighbour m) i = c) then f i + g i else vzero) (fun i => vadd (if decide (atn (faceNeighbour m) i = c) then f i else vzero) (if decide (atn (faceNeighbour m) i = c) then g i else vzero)))
      by (intros i _; destruct (decide _); [done|symmetry; apply Qcplus_0_l]).
    rewrite (vsum_over_ext (nBoundaryFaces m) _ (fun i => vadd (if decide (atn (bFaceCells (bmesh m)) i = c) then f (nInternalFaces m + i)%nat else vzero) (if decide (atn (bFaceCells (bmesh m)) i = c) then g (nInternalFaces m + i)%nat else vzero)))
      by (intros i _; destruct (decide _); [done|symmetry; apply Qcplus_0_l]).
    rewrite !vsum_over_add. unfold vsub. cbn. ring.
  Qed.
  Lemma balance_scaled k (f : nat -> Qc) c : cell_balance m (fun i => k * f i) c = k * cell_balance m f c.
  Proof. exact (balance_scale (V := Qc) m k f c). Qed.
  Lemma balance_congr (f g : nat -> Qc) c : (forall i, (i < nFaces m)%nat -> f i = g i) -> cell_balance m f c = cell_balance m g c.
  Proof. intros H. by apply cell_balance_ext. Qed.
  (** What leaves: outward through owned and boundary faces, inward through the
      others. *)
  Lemma balance_nonneg (f : nat -> Qc) c :
    (forall i, (i < nInternalFaces m)%nat -> atn (faceOwner m) i = c -> 0 <= f i) ->
    (forall i, (i < nInternalFaces m)%nat -> atn (faceNeighbour m) i = c -> f i <= 0) ->
    (forall b, (b < nBoundaryFaces m)%nat -> atn (bFaceCells (bmesh m)) b = c -> 0 <= f (nInternalFaces m + b)%nat) ->
    0 <= cell_balance m f c.
  Proof.
    intros H1 H2 H3. unfold cell_balance, vsub. rewrite <- vsum_over_neg.
    apply three_nonneg; apply sum_nonneg; intros i Hi; destruct (decide _) as [E|];
      [by apply H1|apply Qcle_refl| |apply Qcle_refl|by apply H3|apply Qcle_refl].
    pose proof (H2 i Hi E) as Hn. cbn. revert Hn. generalize (f i). qc_lra.
  Qed.
End balance.

Lemma law_rearranged (V dt x old A B : Qc) : dt <> 0 -> V / dt * (x - old) + A - B = 0 ->
  V * x = V * old + - dt * (A + - (1) * B).
Proof.
  intros Hdt Hx. assert (H : dt * (V / dt * (x - old) + A - B) = 0) by (rewrite Hx; ring).
  replace (dt * (V / dt * (x - old) + A - B)) with (V * x - (V * old + - dt * (A + - (1) * B))) in H by (field; done).
  revert H. generalize (V * x) (V * old + - dt * (A + - (1) * B)). qc_lra.
Qed.

Section transport.
  Context (m : mesh) (Hm : valid_topology m) (flux gamma dc : list Qc).
  Notation transported := (transported m flux gamma dc).

  (** Conservation. *)
  Lemma transported_content dt phi old x : dt <> 0 -> transported dt phi old x ->
    content m x = content m old - dt * outflow m flux gamma dc phi x.
  Proof.
    intros Hdt [_ Hx]. unfold content, outflow.
    pose proof (balance_total m Hm (V := Qc) (fun f => convected m flux phi x f + - (1) * diffused m gamma dc phi x f)) as Ht.
    transitivity (vadd (vsum_over (nCells m) (fun c => at0 (cellVolumes m) c * at0 old c))
        (vscale (- dt) (vsum_over (nCells m) (cell_balance m (fun f => convected m flux phi x f + - (1) * diffused m gamma dc phi x f))))).
    { rewrite <- vsum_over_scale, <- vsum_over_add. apply vsum_over_ext. intros c Hc.
      rewrite balance_add, balance_scaled. apply law_rearranged; [done|]. exact (Hx c Hc). }
    rewrite Ht. rewrite (vsum_over_ext (nBoundaryFaces m) (fun b => convected m flux phi x (nInternalFaces m + b)%nat + - (1) * diffused m gamma dc phi x (nInternalFaces m + b)%nat)
      (fun b => convected m flux phi x (nInternalFaces m + b)%nat - diffused m gamma dc phi x (nInternalFaces m + b)%nat)) by (intros; ring).
    change (forall a b : Qc, vadd a (vscale (- dt) b) = a + - dt * b) with (forall a b : Qc, a + - dt * b = a + - dt * b).
    match goal with |- vadd ?a (vscale _ ?b) = _ => change (a + - dt * b = a - dt * b) end. ring.
  Qed.

  (** ** Comparison: larger data, larger solution. *)
  Context (Hdiff : diffusive m gamma dc) (Hout : forall c, (c < nCells m)%nat -> 0 <= cell_balance m (at0 flux) c).

  Lemma transported_comparison dt phi psi old1 old2 x y : 0 < dt ->
    inflow_boundary m flux phi -> boundary_below m phi psi ->
    (forall c, (c < nCells m)%nat -> at0 old1 c <= at0 old2 c) ->
    transported dt phi old1 x -> transported dt psi old2 y ->
    forall c, (c < nCells m)%nat -> at0 x c <= at0 y c.
  Proof.
    intros Hdt Hin Hb Hold [_ Hx] [_ Hy].
    destruct (decide (nCells m = 0)%nat) as [Hz|Hz]; [intros c Hc; lia|].
    destruct (arg_max (nCells m) (fun c => at0 x c - at0 y c) ltac:(lia)) as (k & Hk & Hmax).
    set (M := at0 x k - at0 y k). assert (HM : forall c, (c < nCells m)%nat -> at0 x c - at0 y c <= M) by exact Hmax.
    destruct (Qclt_le_dec 0 M) as [HM0|HM0].
    2:{ intros c Hc. specialize (HM c Hc). revert HM HM0. generalize (at0 x c) (at0 y c) M. qc_lra. }
    exfalso.
    pose proof (Hx k Hk) as Lx. pose proof (Hy k Hk) as Ly. unfold cell_law in Lx, Ly.
    assert (HF : 0 <= cell_balance m (fun f => convected m flux phi x f + - (1) * diffused m gamma dc phi x f
        + (- (1) * (convected m flux psi y f + - (1) * diffused m gamma dc psi y f) + - M * at0 flux f)) k).
    { apply balance_nonneg.
      - intros f Hf Ho. pose proof (vt_nei m Hm f Hf) as Hn. specialize (HM _ Hn).
        destruct (Hdiff f ltac:(rewrite (vt_faces m Hm); lia)) as (G1 & G2 & G3).
        unfold convected, diffused, implicit_face_value, implicit_normal_gradient. rewrite !decide_True by done.
        unfold at_neighbour, at_owner. cbn [with_int vf_int]. rewrite Ho.
        assert (Hsgn : forall A, A <= 0 -> 0 <= A * ((at0 x (atn (faceNeighbour m) f) - at0 y (atn (faceNeighbour m) f)) - M)).
        { intros A HA. apply qc_mul_np; [done|]. revert HM. generalize (at0 x (atn (faceNeighbour m) f) - at0 y (atn (faceNeighbour m) f)) M. qc_lra. }
        pose proof (qc_mul_nonneg _ _ (qc_mul_nonneg _ _ G1 G2) G3) as G.
        destruct (Qclt_le_dec (at0 flux f) 0) as [Hs|Hs].
        + eapply nonneg_eq; [apply (Hsgn (at0 flux f - at0 gamma f * at0 (magFaceAreas m) f * at0 dc f))|].
          * revert G Hs. generalize (at0 flux f) (at0 gamma f * at0 (magFaceAreas m) f * at0 dc f). qc_lra.
          * unfold M. vring.
        + eapply nonneg_eq; [apply (Hsgn (- (at0 gamma f * at0 (magFaceAreas m) f * at0 dc f)))|].
          * revert G Hs. generalize (at0 flux f) (at0 gamma f * at0 (magFaceAreas m) f * at0 dc f). qc_lra.
          * unfold M. vring.
      - intros f Hf Hnk. pose proof (owner_lt m Hm f Hf) as Hn. specialize (HM _ Hn).
        destruct (Hdiff f ltac:(rewrite (vt_faces m Hm); lia)) as (G1 & G2 & G3).
        unfold convected, diffused, implicit_face_value, implicit_normal_gradient. rewrite !decide_True by done.
        unfold at_neighbour, at_owner. cbn [with_int vf_int]. rewrite Hnk.
        assert (Hsgn : forall A, 0 <= A -> A * ((at0 x (atn (faceOwner m) f) - at0 y (atn (faceOwner m) f)) - M) <= 0).
        { intros A HA. apply qc_mul_pn; [done|]. revert HM. generalize (at0 x (atn (faceOwner m) f) - at0 y (atn (faceOwner m) f)) M. qc_lra. }
        pose proof (qc_mul_nonneg _ _ (qc_mul_nonneg _ _ G1 G2) G3) as G.
        destruct (Qclt_le_dec (at0 flux f) 0) as [Hs|Hs].
        + eapply nonpos_eq; [apply (Hsgn (at0 gamma f * at0 (magFaceAreas m) f * at0 dc f) G)|].
          unfold M. vring.
        + eapply nonpos_eq; [apply (Hsgn (at0 flux f + at0 gamma f * at0 (magFaceAreas m) f * at0 dc f))|].
          * revert G Hs. generalize (at0 flux f) (at0 gamma f * at0 (magFaceAreas m) f * at0 dc f). qc_lra.
          * unfold M. vring.
      - intros b Hbb Hc. destruct (Hdiff (nInternalFaces m + b)%nat ltac:(rewrite (vt_faces m Hm); lia)) as (G1 & G2 & G3).
        destruct (Hin b Hbb) as (V1 & V2 & V3). destruct (Hb b Hbb) as (B1 & B2 & B3).
        unfold convected, diffused, implicit_face_value, implicit_normal_gradient. rewrite !decide_False by lia.
        replace (nInternalFaces m + b - nInternalFaces m)%nat with b by lia.
        unfold at_face_cell. cbn [with_int vf_int vf_valueFraction vf_refValue vf_refGrad]. rewrite Hc, <- B1. rewrite <- B1 in B3.
        pose proof (qc_mul_nonneg _ _ G1 G2) as G12. pose proof (qc_mul_nonneg _ _ G12 G3) as G.
        set (F := at0 flux (nInternalFaces m + b)%nat) in *. set (g := at0 gamma (nInternalFaces m + b)%nat * at0 (magFaceAreas m) (nInternalFaces m + b)%nat) in *.
        set (d := at0 dc (nInternalFaces m + b)%nat) in *. set (v := at0 (vf_valueFraction phi) b) in *.
        set (r1 := at0 (vf_refValue phi) b) in *. set (r2 := at0 (vf_refValue psi) b) in *.
        eapply (nonneg_eq (v * ((F - g * d) * (r1 - r2 - M)) + g * ((1 - v) * at0 (vf_refGrad psi) b - (1 - v) * at0 (vf_refGrad phi) b))).
        + assert (P2 : 0 <= g * ((1 - v) * at0 (vf_refGrad psi) b - (1 - v) * at0 (vf_refGrad phi) b)).
          { apply qc_mul_nonneg; [done|]. revert B3. generalize ((1 - v) * at0 (vf_refGrad psi) b) ((1 - v) * at0 (vf_refGrad phi) b). qc_lra. }
          assert (P1 : 0 <= v * ((F - g * d) * (r1 - r2 - M))).
          { destruct (Qc_eq_dec v 0) as [Hv|Hv]; [rewrite Hv, Qcmult_0_l; apply Qcle_refl|].
            destruct V3 as [?|V3]; [done|]. destruct B2 as [?|B2]; [done|].
            apply qc_mul_nonneg; [done|]. apply qc_mul_np.
            - revert V3 G. generalize (g * d). qc_lra.
            - revert B2 HM0. generalize M. qc_lra. }
          revert P1 P2. generalize (v * ((F - g * d) * (r1 - r2 - M))) (g * ((1 - v) * at0 (vf_refGrad psi) b - (1 - v) * at0 (vf_refGrad phi) b)). qc_lra.
        + unfold r1, r2, M, g. vring. }
    rewrite !balance_add, !balance_scaled in HF. rewrite balance_add, balance_scaled in HF.
    pose proof (Hout k Hk) as HO. pose proof (Hold k Hk) as HL. pose proof (qc_div_pos _ _ (vt_vol m Hm k Hk) Hdt) as HV.
    revert Lx Ly HF HO HL HV HM0. unfold M.
    generalize (cell_balance m (convected m flux phi x) k) (cell_balance m (diffused m gamma dc phi x) k)
      (cell_balance m (convected m flux psi y) k) (cell_balance m (diffused m gamma dc psi y) k) (cell_balance m (at0 flux) k)
      (at0 (cellVolumes m) k / dt) (at0 x k) (at0 y k) (at0 old1 k) (at0 old2 k).
    intros cx dx cy dy S w xk yk o1 o2 Lx Ly HF HO HL HV HM0.
    assert (P1 : 0 < w * (xk - yk)) by (apply qc_mul_pos; [done|]; revert HM0; generalize (xk - yk); qc_lra).
    assert (P2 : 0 <= w * (o2 - o1)) by (apply qc_mul_nonneg; [by apply Qclt_le_weak|]; revert HL; qc_lra).
    assert (P3 : 0 <= (xk - yk) * S) by (apply qc_mul_nonneg; [by apply Qclt_le_weak|done]).
    assert (E : w * (xk - yk) + w * (o2 - o1) + (cx + - (1) * dx + (- (1) * (cy + - (1) * dy) + - (xk - yk) * S)) + (xk - yk) * S = 0).
    { transitivity ((w * (xk - o1) + cx - dx) - (w * (yk - o2) + cy - dy)); [ring|]. rewrite Lx, Ly. ring. }
    revert P1 P2 P3 HF E. generalize (w * (xk - yk)) (w * (o2 - o1)) (cx + - (1) * dx + (- (1) * (cy + - (1) * dy) + - (xk - yk) * S)) ((xk - yk) * S).
    qc_lra.
  Qed.
End transport.

Lemma half_two : Q2Qc (1 # 2) * Q2Qc 2 = 1.
Proof. apply Qc_is_canon. reflexivity. Qed.
Lemma half_sum (a : Qc) : Q2Qc (1 # 2) * a + Q2Qc (1 # 2) * a = a.
Proof. rewrite <- Qcmult_plus_distr_l. replace (Q2Qc (1 # 2) + Q2Qc (1 # 2)) with 1 by (apply Qc_is_canon; reflexivity). ring. Qed.
(** Identities with halves. *)
Ltac field_half := replace (Q2Qc (1 # 2)) with (1 / (1 + 1)) by (apply Qc_is_canon; reflexivity); field; discriminate.
Lemma upper_arith a hi dt S ft V xc : 0 < dt -> 0 <= S + (hi - a) * Q2Qc (1 # 2) * ft -> V * (xc - a) = - dt * S ->
  dt / Q2Qc 2 * (ft / V) <= 1 -> 0 < V -> a <= hi -> xc <= hi.
Proof.
  intros Hdt HF Hx Hco HV HU.
  assert (P1 : 0 <= dt * (S + (hi - a) * Q2Qc (1 # 2) * ft)) by (apply qc_mul_nonneg; [by apply Qclt_le_weak|done]).
  assert (P2 : 0 <= V * (hi - a) * (1 - dt / Q2Qc 2 * (ft / V))).
  { apply qc_mul_nonneg; [apply qc_mul_nonneg; [by apply Qclt_le_weak|revert HU; qc_lra]|]. revert Hco. generalize (dt / Q2Qc 2 * (ft / V)). qc_lra. }
  assert (E : dt * (S + (hi - a) * Q2Qc (1 # 2) * ft) + V * (hi - a) * (1 - dt / Q2Qc 2 * (ft / V)) = V * (hi - xc)).
  { transitivity (dt * S + V * (hi - a)).
    - replace (Q2Qc (1 # 2)) with (1 / (1 + 1)) by (apply Qc_is_canon; reflexivity). replace (Q2Qc 2) with (1 + 1) by (apply Qc_is_canon; reflexivity).
      field. split; [intros ->; by apply Qclt_not_eq in HV|discriminate].
    - replace (dt * S) with (- (V * (xc - a))) by (rewrite Hx; ring). ring. }
  assert (P : 0 <= V * (hi - xc)) by (rewrite <- E; revert P1 P2; generalize (dt * (S + (hi - a) * Q2Qc (1 # 2) * ft)) (V * (hi - a) * (1 - dt / Q2Qc 2 * (ft / V))); qc_lra).
  destruct (Qclt_le_dec hi xc) as [Hn|]; [|done]. exfalso.
  assert (N : 0 < V * (xc - hi)) by (apply qc_mul_pos; [done|revert Hn; qc_lra]).
  replace (V * (hi - xc)) with (- (V * (xc - hi))) in P by ring. revert P N. generalize (V * (xc - hi)). qc_lra.
Qed.

Section bounds.
  Context (m : mesh) (Hm : valid_topology m) (flux : list Qc).

  Section implicit.
    Context (gamma dc : list Qc) (Hdiff : diffusive m gamma dc).
    Lemma boundary_below_refl phi : boundary_below m phi phi.
    Proof. intros b Hb. split; [done|]. split; [right|]; apply Qcle_refl. Qed.
    (** One solution at most. *)
    Lemma transported_unique dt phi old x y : 0 < dt -> (forall c, (c < nCells m)%nat -> 0 <= cell_balance m (at0 flux) c) ->
      inflow_boundary m flux phi -> transported m flux gamma dc dt phi old x -> transported m flux gamma dc dt phi old y -> x = y.
    Proof.
      intros Hdt Hout Hin Hx Hy. apply list_eq_same_length with (n := nCells m); [apply Hy|apply Hx|].
      intros i u v Hi Eu Ev.
      pose proof (transported_comparison m Hm flux gamma dc Hdiff Hout dt phi phi old old x y Hdt Hin (boundary_below_refl phi) (fun c _ => Qcle_refl _) Hx Hy i Hi) as H1.
      pose proof (transported_comparison m Hm flux gamma dc Hdiff Hout dt phi phi old old y x Hdt Hin (boundary_below_refl phi) (fun c _ => Qcle_refl _) Hy Hx i Hi) as H2.
      unfold at0 in H1, H2. rewrite Eu, Ev in H1, H2. cbn in H1, H2. by apply Qcle_antisym.
    Qed.
    (** A constant is transported to itself. *)
    Lemma constant_transported dt phi k : divergence_free m flux -> no_gradient m phi ->
      (forall b, (b < nBoundaryFaces m)%nat -> at0 (vf_valueFraction phi) b = 0 \/ at0 (vf_refValue phi) b = k) ->
      transported m flux gamma dc dt phi (replicate (nCells m) k) (replicate (nCells m) k).
    Proof.
      intros Hdiv Hng Hb. split; [apply replicate_length|]. intros c Hc. unfold cell_law.
      assert (Hk : forall c, (c < nCells m)%nat -> at0 (replicate (nCells m) k) c = k) by (intros d Hd; unfold at0; by rewrite lookup_replicate_2).
      rewrite (balance_congr m Hm (convected m flux phi (replicate (nCells m) k)) (fun f => k * at0 flux f)).
      2:{ intros f Hf. unfold convected, implicit_face_value. destruct (decide (f < nInternalFaces m)%nat) as [Hi|Hi].
          - unfold at_neighbour, at_owner. cbn [with_int vf_int]. change (@atV Qc Qc_value) with at0.
            rewrite (Hk _ (vt_nei m Hm f Hi)), (Hk _ (owner_lt m Hm f Hi)). destruct (Qclt_le_dec _ _); ring.
          - pose proof (vt_faces m Hm) as HF. unfold at_face_cell. cbn [with_int vf_int vf_valueFraction vf_refValue]. change (@atV Qc Qc_value) with at0.
            rewrite (Hk _ (vt_fc m Hm (f - nInternalFaces m)%nat ltac:(lia))).
            destruct (Hb (f - nInternalFaces m)%nat ltac:(lia)) as [E|E]; rewrite E; cbn [vadd vscale Qc_value]; ring. }
      rewrite (balance_congr m Hm (diffused m gamma dc phi (replicate (nCells m) k)) (fun f => 0 * at0 flux f)).
      2:{ intros f Hf. unfold diffused, implicit_normal_gradient. destruct (decide (f < nInternalFaces m)%nat) as [Hi|Hi].
          - unfold at_neighbour, at_owner. cbn [with_int vf_int]. change (@atV Qc Qc_value) with at0.
            rewrite (Hk _ (vt_nei m Hm f Hi)), (Hk _ (owner_lt m Hm f Hi)). vring.
          - pose proof (vt_faces m Hm) as HF. unfold at_face_cell. cbn [with_int vf_int vf_valueFraction vf_refValue vf_refGrad]. change (@atV Qc Qc_value) with at0.
            rewrite (Hk _ (vt_fc m Hm (f - nInternalFaces m)%nat ltac:(lia))).
            pose proof (Hng (f - nInternalFaces m)%nat ltac:(lia)) as G. unfold vsub. cbn [vadd vneg vscale Qc_value]. rewrite G.
            destruct (Hb (f - nInternalFaces m)%nat ltac:(lia)) as [E|E]; rewrite E; ring. }
      rewrite !balance_scaled, (Hdiv c Hc), Hk by done. ring.
    Qed.
    (** The maximum principle. *)
    Lemma transported_between dt phi old x lo hi : 0 < dt -> divergence_free m flux ->
      inflow_boundary m flux phi -> no_gradient m phi -> boundary_between m lo hi phi -> cells_between m lo hi old ->
      transported m flux gamma dc dt phi old x -> cells_between m lo hi x.
    Proof.
      intros Hdt Hdiv Hin Hng Hbb Hcb Hx.
      assert (Hout : forall c, (c < nCells m)%nat -> 0 <= cell_balance m (at0 flux) c) by (intros c Hc; rewrite Hdiv by done; apply Qcle_refl).
      pose (with_ref k := VolField (vf_int phi) (vf_value phi) (replicate (nBoundaryFaces m) k) (vf_valueFraction phi) (replicate (nBoundaryFaces m) 0)).
      assert (Hr : forall k b, (b < nBoundaryFaces m)%nat -> at0 (replicate (nBoundaryFaces m) k) b = k) by (intros k b Hb; unfold at0; by rewrite lookup_replicate_2).
      assert (Hk : forall k c, (c < nCells m)%nat -> at0 (replicate (nCells m) k) c = k) by (intros k d Hd; unfold at0; by rewrite lookup_replicate_2).
      assert (Hconst : forall k, transported m flux gamma dc dt (with_ref k) (replicate (nCells m) k) (replicate (nCells m) k)).
      { intros k. apply constant_transported; [done| |].
        - intros b Hb. cbn. rewrite Hr by done. ring.
        - intros b Hb. right. cbn. by apply Hr. }
      assert (Hin' : forall k, inflow_boundary m flux (with_ref k)) by (intros k; exact Hin).
      intros c Hc. split.
      - rewrite <- (Hk lo c Hc).
        apply (transported_comparison m Hm flux gamma dc Hdiff Hout dt (with_ref lo) phi (replicate (nCells m) lo) old _ x Hdt (Hin' lo)); [| |apply Hconst|done|done].
        + intros b Hb. cbn. rewrite !Hr by done. split; [done|]. split; [destruct (Hbb b Hb) as [?|[? _]]; auto|]. rewrite (Hng b Hb). rewrite Qcmult_0_r. apply Qcle_refl.
        + intros d Hd. rewrite Hk by done. by apply Hcb.
      - rewrite <- (Hk hi c Hc).
        apply (transported_comparison m Hm flux gamma dc Hdiff Hout dt phi (with_ref hi) old (replicate (nCells m) hi) x _ Hdt Hin); [| |done|apply Hconst|done].
        + intros b Hb. cbn. rewrite !Hr by done. split; [done|]. split; [destruct (Hbb b Hb) as [?|[_ ?]]; auto|]. rewrite (Hng b Hb). rewrite Qcmult_0_r. apply Qcle_refl.
        + intros d Hd. rewrite Hk by done. by apply Hcb.
    Qed.
  End implicit.

  (** ** Explicit upwind steps *)
  Lemma flux_through_balance c : flux_through m flux c =
    cell_balance m (fun f => if decide (f < nInternalFaces m /\ atn (faceOwner m) f <> c)%nat then - (1) * Qcabs (at0 flux f) else Qcabs (at0 flux f)) c.
  Proof.
    unfold flux_through, cell_balance, vsub. rewrite <- vsum_over_neg. cbn [vadd Qc_value].
    f_equal; [f_equal|]; apply vsum_over_ext; intros f Hf; cbn [vneg vzero Qc_value].
    - destruct (decide (atn (faceOwner m) f = c)); [|done]. by rewrite decide_False by lia.
    - destruct (decide (atn (faceNeighbour m) f = c)) as [E|]; [|symmetry; apply Qc_is_canon; reflexivity].
      pose proof (vt_owner m Hm f Hf). rewrite decide_True by lia. ring.
    - destruct (decide (atn (bFaceCells (bmesh m)) f = c)); [|done]. by rewrite decide_False by lia.
  Qed.
  Lemma advanced_upper weights dt phi x lo hi : 0 < dt -> divergence_free m flux ->
    (forall b, (b < nBoundaryFaces m)%nat -> at0 weights (nInternalFaces m + b) = 1) ->
    (forall c, (c < nCells m)%nat -> cell_courant m flux dt c <= 1) ->
    cells_between m lo hi (vf_int phi) -> boundary_values m flux lo hi phi -> advanced m flux weights dt phi x ->
    forall c, (c < nCells m)%nat -> at0 x c <= hi.
  Proof.
    intros Hdt Hdiv Hw Hco Hcb Hbv [_ Hx] c Hc.
    set (a := at0 (vf_int phi) c). set (h2 := (hi - a) * Q2Qc (1 # 2)).
    assert (HF : 0 <= cell_balance m (fun f => at0 flux f * face_value m Upwind phi flux weights f +
        (- a * at0 flux f + (h2 * (if decide (f < nInternalFaces m /\ atn (faceOwner m) f <> c)%nat then - (1) * Qcabs (at0 flux f) else Qcabs (at0 flux f)) + - h2 * at0 flux f))) c).
    { apply balance_nonneg.
      - intros f Hf Ho. rewrite decide_False by lia. unfold face_value. rewrite decide_True by done.
        unfold at_neighbour, at_owner. rewrite Ho. pose proof (vt_nei m Hm f Hf) as Hn. destruct (Hcb _ Hn) as [L U].
        destruct (Qclt_le_dec (at0 flux f) 0) as [Hs|Hs].
        + rewrite Qcabs_neg by (by apply Qclt_le_weak).
          eapply (nonneg_eq (- at0 flux f * (hi - at0 (vf_int phi) (atn (faceNeighbour m) f)))); [apply qc_mul_nonneg|].
          * revert Hs. generalize (at0 flux f). qc_lra.
          * revert U. generalize (at0 (vf_int phi) (atn (faceNeighbour m) f)). qc_lra.
          * unfold h2. change (@atV Qc Qc_value) with at0. field_half.
        + rewrite Qcabs_pos by done. eapply (nonneg_eq 0); [apply Qcle_refl|]. unfold h2, a. change (@atV Qc Qc_value) with at0. field_half.
      - intros f Hf Hn. pose proof (vt_owner m Hm f Hf) as Hon. rewrite decide_True by lia. unfold face_value. rewrite decide_True by done.
        unfold at_neighbour, at_owner. rewrite Hn. pose proof (owner_lt m Hm f Hf) as Ho. destruct (Hcb _ Ho) as [L U].
        destruct (Qclt_le_dec (at0 flux f) 0) as [Hs|Hs].
        + rewrite Qcabs_neg by (by apply Qclt_le_weak). eapply (nonpos_eq 0); [apply Qcle_refl|]. unfold h2, a. change (@atV Qc Qc_value) with at0. field_half.
        + rewrite Qcabs_pos by done. eapply (nonpos_eq (at0 flux f * (at0 (vf_int phi) (atn (faceOwner m) f) - hi))); [apply qc_mul_pn; [done|]|].
          * revert U. generalize (at0 (vf_int phi) (atn (faceOwner m) f)). qc_lra.
          * unfold h2. change (@atV Qc Qc_value) with at0. field_half.
      - intros b Hb Hbc. rewrite decide_False by lia. unfold face_value. rewrite decide_False by lia. rewrite Hw by done.
        replace (nInternalFaces m + b - nInternalFaces m)%nat with b by lia. destruct (Hbv b Hb) as [B1 B2].
        destruct (Qclt_le_dec (at0 flux (nInternalFaces m + b)) 0) as [Hs|Hs].
        + rewrite Qcabs_neg by (by apply Qclt_le_weak). destruct (B1 Hs) as [L U].
          eapply (nonneg_eq (- at0 flux (nInternalFaces m + b)%nat * (hi - at0 (vf_value phi) b))); [apply qc_mul_nonneg|].
          * revert Hs. generalize (at0 flux (nInternalFaces m + b)%nat). qc_lra.
          * revert U. generalize (at0 (vf_value phi) b). qc_lra.
          * unfold h2. change (@atV Qc Qc_value) with at0. cbn [vscale Qc_value]. field_half.
        + rewrite Qcabs_pos by done. change (@atV Qc Qc_value) with at0. cbn [vscale Qc_value].
          destruct (Qcle_lt_or_eq _ _ Hs) as [Hp|He].
          * rewrite (B2 Hp), Hbc. fold a. eapply (nonneg_eq 0); [apply Qcle_refl|]. field_half.
          * rewrite <- He. eapply (nonneg_eq 0); [apply Qcle_refl|]. field_half. }
    rewrite balance_add, balance_add, balance_add, !balance_scaled in HF. rewrite (Hdiv c Hc) in HF.
    rewrite <- (flux_through_balance c) in HF.
    specialize (Hx c Hc). specialize (Hco c Hc). unfold cell_courant in Hco. pose proof (vt_vol m Hm c Hc) as HV. destruct (Hcb c Hc) as [L U]. fold a in Hx, L, U. unfold h2 in HF.
    revert HF Hx Hco HV L U. generalize (cell_balance m (fun f => at0 flux f * face_value m Upwind phi flux weights f) c) (flux_through m flux c) (at0 (cellVolumes m) c) (at0 x c).
    intros S ft V xc HF Hx Hco HV L U. clear - HF Hx Hco HV L U Hdt.
    apply (upper_arith a hi dt S ft V xc); try done. eapply nonneg_eq; [exact HF|ring].
  Qed.

  Definition neg_list (l : list Qc) : list Qc := map Qcopp l.
  Lemma at0_neg l i : at0 (neg_list l) i = - at0 l i.
  Proof.
    unfold at0, neg_list. change (map Qcopp l) with (Qcopp <$> l). rewrite list_lookup_fmap. destruct (l !! i); cbn; [done|]. apply Qc_is_canon. reflexivity.
  Qed.
  Definition neg_field (phi : volField Qc) : volField Qc :=
    VolField (neg_list (vf_int phi)) (neg_list (vf_value phi)) (vf_refValue phi) (vf_valueFraction phi) (vf_refGrad phi).
  Lemma face_value_neg phi weights f : face_value m Upwind (neg_field phi) flux weights f = - face_value m Upwind phi flux weights f.
  Proof.
    unfold face_value, at_neighbour, at_owner, neg_field. cbn [vf_int vf_value]. change (@atV Qc Qc_value) with at0. cbn [vscale Qc_value].
    rewrite !at0_neg. destruct (decide _); [destruct (Qclt_le_dec _ _); done|ring].
  Qed.
  Lemma opp_le (a b : Qc) : a <= b <-> - b <= - a.
  Proof. split; qc_lra. Qed.
  Lemma advanced_lower weights dt phi x lo hi : 0 < dt -> divergence_free m flux ->
    (forall b, (b < nBoundaryFaces m)%nat -> at0 weights (nInternalFaces m + b) = 1) ->
    (forall c, (c < nCells m)%nat -> cell_courant m flux dt c <= 1) ->
    cells_between m lo hi (vf_int phi) -> boundary_values m flux lo hi phi -> advanced m flux weights dt phi x ->
    forall c, (c < nCells m)%nat -> lo <= at0 x c.
  Proof.
    intros Hdt Hdiv Hw Hco Hcb Hbv [Hl Hx] c Hc. apply opp_le. rewrite <- at0_neg.
    apply (advanced_upper weights dt (neg_field phi) (neg_list x) (- hi) (- lo)); try done.
    - intros d Hd. cbn [neg_field vf_int]. rewrite at0_neg. destruct (Hcb d Hd). by split; apply (proj1 (opp_le _ _)).
    - intros b Hb. cbn [neg_field vf_int vf_value]. rewrite !at0_neg. destruct (Hbv b Hb) as [B1 B2]. split.
      + intros Hn. destruct (B1 Hn). by split; apply (proj1 (opp_le _ _)).
      + intros Hp. by rewrite B2.
    - split; [unfold neg_list; by rewrite map_length|]. intros d Hd. cbn [neg_field vf_int]. rewrite !at0_neg.
      transitivity (- (1) * (at0 (cellVolumes m) d * (at0 x d - at0 (vf_int phi) d))); [ring|]. rewrite (Hx d Hd).
      rewrite (balance_congr m Hm (fun f => at0 flux f * face_value m Upwind (neg_field phi) flux weights f) (fun f => - (1) * (at0 flux f * face_value m Upwind phi flux weights f)))
        by (intros f Hf; rewrite face_value_neg; ring).
      rewrite balance_scaled. ring.
  Qed.
End bounds.
