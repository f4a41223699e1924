(** Steady transport: when the discrete equations determine the field.
    Specification first (mesh, fluxes and boundary data only), then proofs. *)
From Coq Require Import Lqa.
From Verif Require Import Base Par Exec Value Kernel Mesh MeshSpec Coeff FV FVSpec FVProofs Assembly AssemblySpec Sparsity SparsitySpec AssemblyProps Dict Boundary Properties_Boundary Properties_CoNum Transport TransportProofs QcLra.
Local Open Scope Qc_scope.

Section spec.
  Context (m : mesh) (flux gamma dc : list Qc).
  (** In every cell, what leaves by convection minus what enters by diffusion is
      the given source. *)
  Definition balanced (phi : volField Qc) (s : nat -> Qc) (x : list Qc) : Prop :=
    length x = nCells m /\ forall c, (c < nCells m)%nat ->
      cell_balance m (convected m flux phi x) c - cell_balance m (diffused m gamma dc phi x) c = s c.

  Definition face_conductance (f : nat) : Qc := at0 gamma f * at0 (magFaceAreas m) f * at0 dc f.
  (** Cell [c] feels cell [c'] across internal face [f]: the face conducts, or fluid
      comes from [c'] into [c]. *)
  Definition feels (c c' f : nat) : Prop :=
    atn (faceOwner m) f = c /\ atn (faceNeighbour m) f = c' /\ (0 < face_conductance f \/ at0 flux f < 0) \/
    atn (faceNeighbour m) f = c /\ atn (faceOwner m) f = c' /\ (0 < face_conductance f \/ 0 < at0 flux f).
  (** Cell [c] feels a prescribed value across boundary face [b]. *)
  Definition feels_boundary (phi : volField Qc) (c b : nat) : Prop :=
    atn (bFaceCells (bmesh m)) b = c /\ 0 < at0 (vf_valueFraction phi) b /\
    (0 < face_conductance (nInternalFaces m + b) \/ at0 flux (nInternalFaces m + b) < 0).
  (** A group of cells that feels nothing but itself. *)
  Definition cut_off (phi : volField Qc) (U : nat -> bool) : Prop :=
    (exists c, (c < nCells m)%nat /\ U c = true) /\
    (forall c c' f, (c < nCells m)%nat -> (f < nInternalFaces m)%nat -> U c = true -> feels c c' f -> U c' = true) /\
    (forall c b, (c < nCells m)%nat -> (b < nBoundaryFaces m)%nat -> U c = true -> ~ feels_boundary phi c b).
  (** A path of cells, each feeling the next, to one that feels a prescribed value. *)
  Inductive supplied (phi : volField Qc) : nat -> Prop :=
  | supplied_here c b : (b < nBoundaryFaces m)%nat -> feels_boundary phi c b -> supplied phi c
  | supplied_via c c' f : (f < nInternalFaces m)%nat -> feels c c' f -> (c' < nCells m)%nat -> supplied phi c' -> supplied phi c.
  (** Every cell feels every other one, directly or through others. *)
  Inductive linked (c : nat) : nat -> Prop :=
  | linked_refl : linked c c
  | linked_via c1 c2 f : linked c c1 -> (f < nInternalFaces m)%nat -> feels c1 c2 f -> (c2 < nCells m)%nat -> linked c c2.
End spec.

Lemma supplied_not_cut_off m flux gamma dc phi :
  (forall c, (c < nCells m)%nat -> supplied m flux gamma dc phi c) -> forall U, ~ cut_off m flux gamma dc phi U.
Proof.
  intros Hs U ((c & Hc & Hu) & H1 & H2). pose proof (Hs c Hc) as Hc'. induction Hc' as [c b Hb Hf|c c' f Hf Hfe Hlt Hc' IH].
  - exact (H2 c b Hc Hb Hu Hf).
  - apply IH; [done|]. exact (H1 c c' f Hc Hf Hu Hfe).
Qed.

Lemma sum_nonneg_zero n (f : nat -> Qc) : (forall i, (i < n)%nat -> 0 <= f i) -> vsum_over n f <= 0 ->
  forall i, (i < n)%nat -> f i = 0.
Proof.
  induction n as [|n IH]; intros Hf Hs i Hi; [lia|].
  rewrite vsum_over_S in Hs. change (vsum_over n f + f n <= 0) in Hs.
  pose proof (sum_nonneg n f (fun i Hi => Hf i ltac:(lia))) as H0. pose proof (Hf n ltac:(lia)) as H1.
  destruct (decide (i = n)) as [->|Hn].
  - revert Hs H0 H1. generalize (vsum_over n f) (f n). qc_lra.
  - apply IH; [intros j Hj; apply Hf; lia| |lia]. revert Hs H0 H1. generalize (vsum_over n f) (f n). qc_lra.
Qed.
Lemma three_zero (a b c : Qc) : 0 <= a -> 0 <= b -> 0 <= c -> vadd (vadd a b) c <= 0 -> a <= 0 /\ b <= 0 /\ c <= 0.
Proof. change (0 <= a -> 0 <= b -> 0 <= c -> a + b + c <= 0 -> a <= 0 /\ b <= 0 /\ c <= 0). intros. split; [|split]; qc_lra. Qed.
Lemma prod_zero_l (a b : Qc) : a < 0 -> a * b = 0 -> b = 0.
Proof. intros Ha H. destruct (Qcmult_integral _ _ H) as [E|E]; [|done]. rewrite E in Ha. by apply Qclt_not_eq in Ha. Qed.
Lemma prod_zero_l' (a b : Qc) : 0 < a -> a * b = 0 -> b = 0.
Proof. intros Ha H. destruct (Qcmult_integral _ _ H) as [E|E]; [|done]. rewrite E in Ha. by apply Qclt_not_eq in Ha. Qed.

Section balance_zero.
  Context (m : mesh).
  Lemma balance_zero (f : nat -> Qc) c :
    (forall i, (i < nInternalFaces m)%nat -> atn (faceOwner m) i = c -> 0 <= f i) ->
    (forall i, (i < nInternalFaces m)%nat -> atn (faceNeighbour m) i = c -> f i <= 0) ->
    (forall b, (b < nBoundaryFaces m)%nat -> atn (bFaceCells (bmesh m)) b = c -> 0 <= f (nInternalFaces m + b)%nat) ->
    cell_balance m f c <= 0 ->
    (forall i, (i < nInternalFaces m)%nat -> atn (faceOwner m) i = c \/ atn (faceNeighbour m) i = c -> f i = 0) /\
    (forall b, (b < nBoundaryFaces m)%nat -> atn (bFaceCells (bmesh m)) b = c -> f (nInternalFaces m + b)%nat = 0).
  Proof.
    intros H1 H2 H3 Hb. unfold cell_balance, vsub in Hb. rewrite <- vsum_over_neg in Hb.
    assert (N1 : forall i, (i < nInternalFaces m)%nat -> 0 <= (if decide (atn (faceOwner m) i = c) then f i else vzero : Qc)).
    { intros i Hi. destruct (decide _); [by apply H1|apply Qcle_refl]. }
    assert (N2 : forall i, (i < nInternalFaces m)%nat -> 0 <= (vneg (if decide (atn (faceNeighbour m) i = c) then f i else vzero) : Qc)).
    { intros i Hi. destruct (decide _) as [E|]; [|apply Qcle_refl]. pose proof (H2 i Hi E) as Hn. cbn. revert Hn. generalize (f i). qc_lra. }
    assert (N3 : forall b, (b < nBoundaryFaces m)%nat -> 0 <= (if decide (atn (bFaceCells (bmesh m)) b = c) then f (nInternalFaces m + b)%nat else vzero : Qc)).
    { intros b Hbb. destruct (decide _); [by apply H3|apply Qcle_refl]. }
    destruct (three_zero _ _ _ (sum_nonneg _ _ N1) (sum_nonneg _ _ N2) (sum_nonneg _ _ N3) Hb) as (Z1 & Z2 & Z3).
    split.
    - intros i Hi [E|E].
      + pose proof (sum_nonneg_zero _ _ N1 Z1 i Hi) as Z. cbn beta in Z. by rewrite decide_True in Z.
      + pose proof (sum_nonneg_zero _ _ N2 Z2 i Hi) as Z. cbn beta in Z. rewrite decide_True in Z by done. cbn in Z.
        revert Z. generalize (f i). qc_lra.
    - intros b Hbb E. pose proof (sum_nonneg_zero _ _ N3 Z3 b Hbb) as Z. cbn beta in Z. by rewrite decide_True in Z.
  Qed.
End balance_zero.

Section steady.
  Context (m : mesh) (Hm : valid_topology m) (flux gamma dc : list Qc).
  Context (Hdiff : diffusive m gamma dc) (Hout : forall c, (c < nCells m)%nat -> 0 <= cell_balance m (at0 flux) c).
  Notation balanced := (balanced m flux gamma dc).
  Notation cond := (face_conductance m gamma dc).

  Lemma cond_nonneg f : (f < nFaces m)%nat -> 0 <= cond f.
  Proof. intros Hf. destruct (Hdiff f Hf) as (G1 & G2 & G3). exact (qc_mul_nonneg _ _ (qc_mul_nonneg _ _ G1 G2) G3). Qed.

  (** At a cell where the difference of two fields is largest, and positive, it is
      the same in every cell felt there, and no prescribed value is felt. *)
  Lemma largest_difference phi psi s1 s2 x y M c :
    inflow_boundary m flux phi -> boundary_below m phi psi ->
    (forall c, (c < nCells m)%nat -> s1 c <= s2 c) ->
    balanced phi s1 x -> balanced psi s2 y -> 0 < M ->
    (forall d, (d < nCells m)%nat -> at0 x d - at0 y d <= M) ->
    (c < nCells m)%nat -> at0 x c - at0 y c = M ->
    (forall c' f, (f < nInternalFaces m)%nat -> feels m flux gamma dc c c' f -> at0 x c' - at0 y c' = M) /\
    (forall b, (b < nBoundaryFaces m)%nat -> ~ feels_boundary m flux gamma dc phi c b).
  Proof.
    intros Hin Hb Hs [_ Hx] [_ Hy] HM0 HM Hc HMc.
    set (F := fun f => convected m flux phi x f + - (1) * diffused m gamma dc phi x f
        + (- (1) * (convected m flux psi y f + - (1) * diffused m gamma dc psi y f) + - M * at0 flux f)).
    (* what F is on the faces of c *)
    assert (Fown : forall f, (f < nInternalFaces m)%nat -> atn (faceOwner m) f = c ->
      F f = ((if Qclt_le_dec (at0 flux f) 0 then at0 flux f else 0) - cond f) * (at0 x (atn (faceNeighbour m) f) - at0 y (atn (faceNeighbour m) f) - M)).
    { intros f Hf Ho. unfold F, convected, diffused, implicit_face_value, implicit_normal_gradient, face_conductance. rewrite !decide_True by done.
      unfold at_neighbour, at_owner. cbn [with_int vf_int]. rewrite Ho, <- HMc. destruct (Qclt_le_dec (at0 flux f) 0); vring. }
    assert (Fnei : forall f, (f < nInternalFaces m)%nat -> atn (faceNeighbour m) f = c ->
      F f = ((if Qclt_le_dec (at0 flux f) 0 then 0 else at0 flux f) + cond f) * (at0 x (atn (faceOwner m) f) - at0 y (atn (faceOwner m) f) - M)).
    { intros f Hf Ho. unfold F, convected, diffused, implicit_face_value, implicit_normal_gradient, face_conductance. rewrite !decide_True by done.
      unfold at_neighbour, at_owner. cbn [with_int vf_int]. rewrite Ho, <- HMc. destruct (Qclt_le_dec (at0 flux f) 0); vring. }
    assert (Fbnd : forall b, (b < nBoundaryFaces m)%nat -> atn (bFaceCells (bmesh m)) b = c ->
      let f := (nInternalFaces m + b)%nat in let v := at0 (vf_valueFraction phi) b in
      F f = v * ((at0 flux f - cond f) * (at0 (vf_refValue phi) b - at0 (vf_refValue psi) b - M)) +
            at0 gamma f * at0 (magFaceAreas m) f * ((1 - v) * at0 (vf_refGrad psi) b - (1 - v) * at0 (vf_refGrad phi) b)).
    { intros b Hbb Ho f v. unfold F, convected, diffused, implicit_face_value, implicit_normal_gradient, face_conductance. rewrite !decide_False by (unfold f; lia).
      replace (f - nInternalFaces m)%nat with b by (unfold f; lia). destruct (Hb b Hbb) as (B1 & _).
      unfold at_face_cell. cbn [with_int vf_int vf_valueFraction vf_refValue vf_refGrad]. rewrite Ho, <- B1, <- HMc. unfold v. vring. }
    assert (Hsum : cell_balance m F c <= 0).
    { unfold F. rewrite !balance_add, !balance_scaled, balance_add, balance_scaled.
      pose proof (Hx c Hc) as Lx. pose proof (Hy c Hc) as Ly. pose proof (Hs c Hc) as Ls.
      pose proof (qc_mul_nonneg _ _ (Qclt_le_weak _ _ HM0) (Hout c Hc)) as HO. revert Lx Ly Ls HO.
      generalize (cell_balance m (convected m flux phi x) c) (cell_balance m (diffused m gamma dc phi x) c)
        (cell_balance m (convected m flux psi y) c) (cell_balance m (diffused m gamma dc psi y) c) (cell_balance m (at0 flux) c) (s1 c) (s2 c).
      clear. intros a b d e S t u Lx Ly Ls HO.
      replace (a + - (1) * b + (- (1) * (d + - (1) * e) + - M * S)) with ((a - b) - (d - e) - M * S) by ring.
      rewrite Lx, Ly. revert Ls HO. generalize (M * S). qc_lra. }
    clearbody F.
    assert (HMle : forall d, (d < nCells m)%nat -> at0 x d - at0 y d - M <= 0).
    { intros d Hd. pose proof (HM d Hd) as H. revert H. generalize (at0 x d - at0 y d). qc_lra. }
    assert (Aown : forall f, (f < nInternalFaces m)%nat -> (if Qclt_le_dec (at0 flux f) 0 then at0 flux f else 0) - cond f <= 0).
    { intros f Hf. pose proof (cond_nonneg f ltac:(rewrite (vt_faces m Hm); lia)) as G. revert G. generalize (cond f).
      destruct (Qclt_le_dec (at0 flux f) 0) as [H|H]; revert H; generalize (at0 flux f); qc_lra. }
    assert (Anei : forall f, (f < nInternalFaces m)%nat -> 0 <= (if Qclt_le_dec (at0 flux f) 0 then 0 else at0 flux f) + cond f).
    { intros f Hf. pose proof (cond_nonneg f ltac:(rewrite (vt_faces m Hm); lia)) as G. revert G. generalize (cond f).
      destruct (Qclt_le_dec (at0 flux f) 0) as [H|H]; revert H; generalize (at0 flux f); qc_lra. }
    assert (Pbnd : forall b, (b < nBoundaryFaces m)%nat ->
      let f := (nInternalFaces m + b)%nat in let v := at0 (vf_valueFraction phi) b in
      0 <= v * ((at0 flux f - cond f) * (at0 (vf_refValue phi) b - at0 (vf_refValue psi) b - M)) /\
      0 <= at0 gamma f * at0 (magFaceAreas m) f * ((1 - v) * at0 (vf_refGrad psi) b - (1 - v) * at0 (vf_refGrad phi) b)).
    { intros b Hbb f v. assert (Hff : (f < nFaces m)%nat) by (unfold f; rewrite (vt_faces m Hm); lia).
      pose proof (cond_nonneg f Hff) as G. destruct (Hdiff f Hff) as (G1 & G2 & G3).
      destruct (Hin b Hbb) as (V1 & V2 & V3). destruct (Hb b Hbb) as (B1 & B2 & B3). rewrite <- B1 in B3. fold v in V1, V2, V3, B2, B3. fold f in V3.
      split.
      - destruct (Qc_eq_dec v 0) as [Hv|Hv]; [rewrite Hv, Qcmult_0_l; apply Qcle_refl|].
        destruct V3 as [?|V3]; [done|]. destruct B2 as [?|B2]; [done|].
        apply qc_mul_nonneg; [done|]. apply qc_mul_np.
        + revert V3 G. generalize (cond f) (at0 flux f). qc_lra.
        + revert B2 HM0. generalize (at0 (vf_refValue phi) b) (at0 (vf_refValue psi) b) M. qc_lra.
      - apply qc_mul_nonneg; [by apply qc_mul_nonneg|]. revert B3.
        generalize ((1 - v) * at0 (vf_refGrad psi) b) ((1 - v) * at0 (vf_refGrad phi) b). qc_lra. }
    destruct (balance_zero m F c) as [Z1 Z2]; [| | |exact Hsum|].
    - intros f Hf Ho. rewrite (Fown f Hf Ho). apply qc_mul_np; [by apply Aown|]. apply HMle. exact (vt_nei m Hm f Hf).
    - intros f Hf Ho. rewrite (Fnei f Hf Ho). apply qc_mul_pn; [by apply Anei|]. apply HMle. exact (owner_lt m Hm f Hf).
    - intros b Hbb Ho. rewrite (Fbnd b Hbb Ho). destruct (Pbnd b Hbb) as [P1 P2]. revert P1 P2.
      generalize (at0 (vf_valueFraction phi) b * ((at0 flux (nInternalFaces m + b)%nat - cond (nInternalFaces m + b)%nat) * (at0 (vf_refValue phi) b - at0 (vf_refValue psi) b - M))).
      intros q. cbv zeta. match goal with |- _ -> _ <= ?t -> _ => generalize t end. qc_lra.
    - split.
      + intros c' f Hf [(Ho & Hn & Hfe)|(Ho & Hn & Hfe)].
        * pose proof (Z1 f Hf (or_introl Ho)) as Z. rewrite (Fown f Hf Ho), Hn in Z. apply prod_zero_l in Z.
          -- revert Z. generalize (at0 x c' - at0 y c'). qc_lra.
          -- pose proof (cond_nonneg f ltac:(rewrite (vt_faces m Hm); lia)) as G. revert G Hfe. generalize (cond f).
             destruct (Qclt_le_dec (at0 flux f) 0) as [H|H]; revert H; generalize (at0 flux f); intros u H v G [Hv|Hv]; revert H G Hv; qc_lra.
        * pose proof (Z1 f Hf (or_intror Ho)) as Z. rewrite (Fnei f Hf Ho), Hn in Z. apply prod_zero_l' in Z.
          -- revert Z. generalize (at0 x c' - at0 y c'). qc_lra.
          -- pose proof (cond_nonneg f ltac:(rewrite (vt_faces m Hm); lia)) as G. revert G Hfe. generalize (cond f).
             destruct (Qclt_le_dec (at0 flux f) 0) as [H|H]; revert H; generalize (at0 flux f); intros u H v G [Hv|Hv]; revert H G Hv; qc_lra.
      + intros b Hbb (Ho & Hv & Hfe). pose proof (Z2 b Hbb Ho) as Z. rewrite (Fbnd b Hbb Ho) in Z. destruct (Pbnd b Hbb) as [P1 P2]. cbv zeta in Z, P1, P2.
        set (f := (nInternalFaces m + b)%nat) in *. set (v := at0 (vf_valueFraction phi) b) in *.
        assert (Z' : v * ((at0 flux f - cond f) * (at0 (vf_refValue phi) b - at0 (vf_refValue psi) b - M)) = 0).
        { revert Z P1 P2. generalize (v * ((at0 flux f - cond f) * (at0 (vf_refValue phi) b - at0 (vf_refValue psi) b - M))).
          intros q. match goal with |- _ -> _ -> _ <= ?t -> _ => generalize t end. qc_lra. }
        apply prod_zero_l' in Z'; [|done]. destruct (Hin b Hbb) as (_ & _ & V3). destruct (Hb b Hbb) as (_ & B2 & _). fold v in V3, B2. fold f in V3.
        assert (Hvn : v <> 0) by (intros E; rewrite E in Hv; by apply Qclt_not_eq in Hv).
        destruct V3 as [?|V3]; [done|]. destruct B2 as [?|B2]; [done|].
        apply prod_zero_l in Z'.
        * revert B2 HM0 Z'. generalize (at0 (vf_refValue phi) b) (at0 (vf_refValue psi) b). qc_lra.
        * pose proof (cond_nonneg f ltac:(unfold f; rewrite (vt_faces m Hm); lia)) as G. revert G V3 Hfe. generalize (cond f) (at0 flux f).
          intros u w G V3 [H|H]; revert G V3 H; qc_lra.
  Qed.

  (** Larger data, larger field. *)
  Lemma balanced_comparison phi psi s1 s2 x y :
    inflow_boundary m flux phi -> boundary_below m phi psi -> (forall U, ~ cut_off m flux gamma dc phi U) ->
    (forall c, (c < nCells m)%nat -> s1 c <= s2 c) ->
    balanced phi s1 x -> balanced psi s2 y ->
    forall c, (c < nCells m)%nat -> at0 x c <= at0 y c.
  Proof.
    intros Hin Hb Hcut Hs Hx Hy c0 Hc0.
    destruct (arg_max (nCells m) (fun c => at0 x c - at0 y c) ltac:(lia)) as (k & Hk & Hmax).
    set (M := at0 x k - at0 y k) in *. assert (HM : forall c, (c < nCells m)%nat -> at0 x c - at0 y c <= M) by exact Hmax.
    destruct (Qclt_le_dec 0 M) as [HM0|HM0].
    2:{ specialize (HM c0 Hc0). revert HM HM0. generalize (at0 x c0) (at0 y c0) M. qc_lra. }
    exfalso. apply (Hcut (fun c => bool_decide (at0 x c - at0 y c = M))). split; [|split].
    - exists k. split; [done|]. by apply bool_decide_eq_true_2.
    - intros c c' f Hc Hf Hu Hfe. apply bool_decide_eq_true in Hu. apply bool_decide_eq_true_2.
      exact (proj1 (largest_difference phi psi s1 s2 x y M c Hin Hb Hs Hx Hy HM0 HM Hc Hu) c' f Hf Hfe).
    - intros c b Hc Hbb Hu. apply bool_decide_eq_true in Hu.
      exact (proj2 (largest_difference phi psi s1 s2 x y M c Hin Hb Hs Hx Hy HM0 HM Hc Hu) b Hbb).
  Qed.

  Lemma balanced_unique phi s x y :
    inflow_boundary m flux phi -> (forall U, ~ cut_off m flux gamma dc phi U) ->
    balanced phi s x -> balanced phi s y -> x = y.
  Proof.
    intros Hin Hcut Hx Hy. apply list_eq_same_length with (n := nCells m); [apply Hy|apply Hx|].
    intros i u v Hi Eu Ev.
    pose proof (balanced_comparison phi phi s s x y Hin (boundary_below_refl m phi) Hcut (fun c _ => Qcle_refl _) Hx Hy i Hi) as H1.
    pose proof (balanced_comparison phi phi s s y x Hin (boundary_below_refl m phi) Hcut (fun c _ => Qcle_refl _) Hy Hx i Hi) as H2.
    unfold at0 in H1, H2. rewrite Eu, Ev in H1, H2. cbn in H1, H2. by apply Qcle_antisym.
  Qed.

  (** If all cells are linked, two fields differ by a constant. *)
  Lemma balanced_difference phi s x y :
    inflow_boundary m flux phi -> (forall c c', (c < nCells m)%nat -> (c' < nCells m)%nat -> linked m flux gamma dc c c') ->
    balanced phi s x -> balanced phi s y ->
    exists k, forall c, (c < nCells m)%nat -> at0 x c = k + at0 y c.
  Proof.
    intros Hin Hl Hx Hy. destruct (decide (nCells m = 0)%nat) as [Hz|Hz]; [exists 0; intros c Hc; lia|].
    assert (Hone : forall x y, balanced phi s x -> balanced phi s y ->
      (exists M, forall c, (c < nCells m)%nat -> at0 x c - at0 y c = M) \/ (forall c, (c < nCells m)%nat -> at0 x c <= at0 y c)).
    { clear x y Hx Hy. intros x y Hx Hy. destruct (arg_max (nCells m) (fun c => at0 x c - at0 y c) ltac:(lia)) as (k & Hk & Hmax).
      set (M := at0 x k - at0 y k) in *. assert (HM : forall c, (c < nCells m)%nat -> at0 x c - at0 y c <= M) by exact Hmax.
      destruct (Qclt_le_dec 0 M) as [HM0|HM0].
      - left. exists M. intros c Hc. pose proof (Hl k c Hk Hc) as Hkc. clear Hc.
        assert (Hboth : (c < nCells m)%nat /\ at0 x c - at0 y c = M); [|apply Hboth].
        induction Hkc as [|c1 c2 f Hkc IH Hf Hfe Hc2]; [done|]. destruct IH as [Hc1 E1]. split; [done|].
        exact (proj1 (largest_difference phi phi s s x y M c1 Hin (boundary_below_refl m phi) (fun _ _ => Qcle_refl _) Hx Hy HM0 HM Hc1 E1) c2 f Hf Hfe).
      - right. intros c Hc. specialize (HM c Hc). revert HM HM0. generalize (at0 x c) (at0 y c) M. qc_lra. }
    destruct (Hone x y Hx Hy) as [[M H]|H1].
    - exists M. intros c Hc. rewrite <- (H c Hc). ring.
    - destruct (Hone y x Hy Hx) as [[M H]|H2].
      + exists (- M). intros c Hc. rewrite <- (H c Hc). ring.
      + exists 0. intros c Hc. rewrite (Qcle_antisym _ _ (H1 c Hc) (H2 c Hc)). ring.
  Qed.
End steady.

Section steady_bounds.
  Context (m : mesh) (Hm : valid_topology m) (flux gamma dc : list Qc) (Hdiff : diffusive m gamma dc).
  Lemma constant_balanced phi k : divergence_free m flux -> no_gradient m phi ->
    (forall b, (b < nBoundaryFaces m)%nat -> at0 (vf_valueFraction phi) b = 0 \/ at0 (vf_refValue phi) b = k) ->
    balanced m flux gamma dc phi (fun _ => 0) (replicate (nCells m) k).
  Proof.
    intros Hdiv Hng Hb. destruct (constant_transported m Hm flux gamma dc 1 phi k Hdiv Hng Hb) as [L H].
    split; [done|]. intros c Hc. pose proof (H c Hc) as E. unfold cell_law in E. revert E.
    generalize (cell_balance m (convected m flux phi (replicate (nCells m) k)) c) (cell_balance m (diffused m gamma dc phi (replicate (nCells m) k)) c).
    intros A B E. rewrite <- E. ring.
  Qed.
  Lemma balanced_between phi x lo hi : divergence_free m flux ->
    inflow_boundary m flux phi -> no_gradient m phi -> boundary_between m lo hi phi ->
    (forall U, ~ cut_off m flux gamma dc phi U) ->
    balanced m flux gamma dc phi (fun _ => 0) x -> cells_between m lo hi x.
  Proof.
    intros Hdiv Hin Hng Hbb Hcut Hx.
    assert (Hout : forall c, (c < nCells m)%nat -> 0 <= cell_balance m (at0 flux) c) by (intros c Hc; rewrite Hdiv by done; apply Qcle_refl).
    pose (with_ref k := VolField (vf_int phi) (vf_value phi) (replicate (nBoundaryFaces m) k) (vf_valueFraction phi) (replicate (nBoundaryFaces m) 0)).
    assert (Hr : forall k b, (b < nBoundaryFaces m)%nat -> at0 (replicate (nBoundaryFaces m) k) b = k) by (intros k b Hb; unfold at0; by rewrite lookup_replicate_2).
    assert (Hk : forall k c, (c < nCells m)%nat -> at0 (replicate (nCells m) k) c = k) by (intros k d Hd; unfold at0; by rewrite lookup_replicate_2).
    assert (Hconst : forall k, balanced m flux gamma dc (with_ref k) (fun _ => 0) (replicate (nCells m) k)).
    { intros k. apply constant_balanced; [done| |].
      - intros b Hb. cbn. rewrite Hr by done. ring.
      - intros b Hb. right. cbn. by apply Hr. }
    assert (Hin' : forall k, inflow_boundary m flux (with_ref k)) by (intros k; exact Hin).
    assert (Hcut' : forall k U, ~ cut_off m flux gamma dc (with_ref k) U) by (intros k; exact Hcut).
    intros c Hc. split.
    - rewrite <- (Hk lo c Hc).
      apply (balanced_comparison m Hm flux gamma dc Hdiff Hout (with_ref lo) phi (fun _ => 0) (fun _ => 0) _ x (Hin' lo)); [|apply Hcut'| |apply Hconst|done|done].
      + intros b Hb. cbn. rewrite !Hr by done. split; [done|]. split; [destruct (Hbb b Hb) as [?|[? _]]; auto|]. rewrite (Hng b Hb). rewrite Qcmult_0_r. apply Qcle_refl.
      + intros d Hd. apply Qcle_refl.
    - rewrite <- (Hk hi c Hc).
      apply (balanced_comparison m Hm flux gamma dc Hdiff Hout phi (with_ref hi) (fun _ => 0) (fun _ => 0) x _ Hin); [|done| |done|apply Hconst|done].
      + intros b Hb. cbn. rewrite !Hr by done. split; [done|]. split; [destruct (Hbb b Hb) as [?|[_ ?]]; auto|]. rewrite (Hng b Hb). rewrite Qcmult_0_r. apply Qcle_refl.
      + intros d Hd. apply Qcle_refl.
  Qed.
End steady_bounds.

(** Pure diffusion: raising a cut-off group of cells by a constant changes no flux. *)
Section raise.
  Context (m : mesh) (Hm : valid_topology m) (gamma dc : list Qc) (Hdiff : diffusive m gamma dc).
  Definition raised (U : nat -> bool) (k : Qc) (x : list Qc) : list Qc := imap (fun c v => if U c then k + v else v) x.
  Lemma at0_raised U k x c : (c < length x)%nat -> at0 (raised U k x) c = (if U c then k else 0) + at0 x c.
  Proof.
    intros Hc. unfold at0, raised. rewrite list_lookup_imap. destruct (lookup_lt_is_Some_2 x c Hc) as [v ->]. cbn. destruct (U c); ring.
  Qed.
  Lemma raised_flux phi U k x : length x = nCells m ->
    (forall b, (b < nBoundaryFaces m)%nat -> 0 <= at0 (vf_valueFraction phi) b) ->
    cut_off m [] gamma dc phi U ->
    forall f, (f < nFaces m)%nat -> diffused m gamma dc phi (raised U k x) f = diffused m gamma dc phi x f.
  Proof.
    intros L Hv (_ & H1 & H2) f Hf. destruct (Hdiff f Hf) as (G1 & G2 & G3).
    pose proof (qc_mul_nonneg _ _ (qc_mul_nonneg _ _ G1 G2) G3) as G.
    unfold diffused, implicit_normal_gradient. destruct (decide (f < nInternalFaces m)%nat) as [Hi|Hi].
    - pose proof (vt_nei m Hm f Hi) as Hn. pose proof (owner_lt m Hm f Hi) as Ho.
      unfold at_neighbour, at_owner. cbn [with_int vf_int]. change (@atV Qc Qc_value) with at0. rewrite !at0_raised by (by rewrite L).
      set (g := at0 gamma f * at0 (magFaceAreas m) f * at0 dc f) in *.
      destruct (Qc_eq_dec g 0) as [Hg|Hg].
      + unfold vsub. cbn [vscale vadd vneg Qc_value]. rewrite !Qcmult_assoc. fold g. rewrite Hg. ring.
      + assert (Hpos : 0 < face_conductance m gamma dc f).
        { unfold face_conductance. fold g. destruct (Qcle_lt_or_eq _ _ G) as [H|H]; [done|]. by rewrite <- H in Hg. }
        assert (HU : U (atn (faceNeighbour m) f) = U (atn (faceOwner m) f)).
        { destruct (U (atn (faceOwner m) f)) eqn:E1.
          - apply (H1 (atn (faceOwner m) f) _ f Ho Hi E1). left. auto.
          - destruct (U (atn (faceNeighbour m) f)) eqn:E2; [|done].
            rewrite <- E1. symmetry. apply (H1 (atn (faceNeighbour m) f) _ f Hn Hi E2). right. auto. }
        rewrite HU. vring.
    - pose proof (vt_faces m Hm) as HF. set (b := (f - nInternalFaces m)%nat). assert (Hb : (b < nBoundaryFaces m)%nat) by (unfold b; lia).
      pose proof (vt_fc m Hm b Hb) as Hfc. unfold at_face_cell. cbn [with_int vf_int vf_valueFraction vf_refValue vf_refGrad].
      change (@atV Qc Qc_value) with at0. rewrite at0_raised by (by rewrite L).
      destruct (U (atn (bFaceCells (bmesh m)) b)) eqn:E; [|by rewrite Qcplus_0_l].
      set (g := at0 gamma f * at0 (magFaceAreas m) f * at0 dc f) in *.
      assert (Hz : at0 (vf_valueFraction phi) b * g = 0).
      { destruct (Qc_eq_dec (at0 (vf_valueFraction phi) b) 0) as [Hv0|Hv0]; [rewrite Hv0; ring|].
        destruct (Qc_eq_dec g 0) as [Hg|Hg]; [rewrite Hg; ring|]. exfalso.
        apply (H2 (atn (bFaceCells (bmesh m)) b) b Hfc Hb E). split; [done|]. split.
        - destruct (Qcle_lt_or_eq _ _ (Hv b Hb)) as [H|H]; [done|]. by rewrite <- H in Hv0.
        - left. replace (nInternalFaces m + b)%nat with f by (unfold b; lia). unfold face_conductance. fold g.
          destruct (Qcle_lt_or_eq _ _ G) as [H|H]; [done|]. by rewrite <- H in Hg. }
      unfold vsub. cbn [vscale vadd vneg Qc_value].
      set (v := at0 (vf_valueFraction phi) b) in *. set (xc := at0 x (atn (bFaceCells (bmesh m)) b)). set (r := at0 (vf_refValue phi) b). set (q := (1 - v) * at0 (vf_refGrad phi) b).
      transitivity (v * g * (r + - (k + xc)) + at0 gamma f * at0 (magFaceAreas m) f * q); [unfold g; ring|]. rewrite Hz.
      transitivity (v * g * (r + - xc) + at0 gamma f * at0 (magFaceAreas m) f * q); [rewrite Hz; ring|unfold g; ring].
  Qed.
End raise.
