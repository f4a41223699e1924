(** Coefficients and Vector. *)
From Verif Require Import Base Value Mesh MeshSpec MeshProofs Coeff FV FVSpec FVProofs FVProps.
From Verif Require Import Par Exec.

Lemma coeff_values c (l : list Qc) i x :
  coeff_at coeff_default i = Some 1%Qc /\
  coeff_at (coeff_scalar c) i = Some c /\
  (l !! i = Some x -> coeff_at (coeff_field l) i = Some x /\
                      coeff_at (coeff_scalar_field c l) i = Some (c * x)%Qc) /\
  (l !! i = None -> coeff_at (coeff_field l) i = None /\ coeff_at (coeff_scalar_field c l) i = None).
Proof.
  split; [done|]. split; [done|]. split.
  - intros Hx. unfold coeff_at. simpl. rewrite Hx. split; f_equal; ring.
  - intros Hx. unfold coeff_at. simpl. by rewrite Hx.
Qed.

Lemma coeff_mul_spec a b :
  (coeff_mul a b = Exit <-> (is_Some (view_ a) /\ is_Some (view_ b))) /\
  (forall i x y, coeff_at a i = Some x -> coeff_at b i = Some y ->
     ~ (is_Some (view_ a) /\ is_Some (view_ b)) ->
     exists c, coeff_mul a b = Ok c /\ coeff_at c i = Some (x * y)%Qc) /\
  (coeff_mul a b = Exit \/ exists c, coeff_mul a b = Ok c).
Proof.
  destruct a as [ca [la|]], b as [cb [lb|]]; unfold coeff_mul, coeff_mul_assign, coeff_at; simpl.
  - split; [split; [intros _; split; eauto|done]|]. split; [|eauto].
    intros i x y _ _ Hn. destruct Hn. split; eauto.
  - split; [split; [done|intros [_ [? ?]]; done]|]. split; [|eauto].
    intros i x y Hx Hy _. eexists. split; [reflexivity|]. simpl.
    destruct (la !! i); simplify_eq. f_equal. ring.
  - split; [split; [done|intros [[? ?] _]; done]|]. split; [|eauto].
    intros i x y Hx Hy _. eexists. split; [reflexivity|]. simpl.
    destruct (lb !! i); simplify_eq. f_equal. ring.
  - split; [split; [done|intros [[? ?] _]; done]|]. split; [|eauto].
    intros i x y Hx Hy _. eexists. split; [reflexivity|]. simpl. by simplify_eq.
Qed.

Lemma coeff_mul_scalar_spec a k i x :
  coeff_at a i = Some x -> coeff_at (coeff_mul_scalar a k) i = Some (k * x)%Qc.
Proof.
  destruct a as [ca [la|]]; unfold coeff_at; simpl.
  - destruct (la !! i); [|done]. intros [= <-]. f_equal. ring.
  - intros [= <-]. f_equal. ring.
Qed.

Lemma coeff_toField_spec c l :
  view_ c = Some l ->
  exists f, coeff_toField c = Some f /\ length f = length l /\
    forall i x, l !! i = Some x -> f !! i = Some (coeff_ c * x)%Qc.
Proof.
  intros Hl. destruct c as [k v]. simpl in *. subst v.
  assert (forall j n, j + n <= length l ->
    mapM (fun i => match coeff_at (MkCoeff k (Some l)) i with Some x => Some (1 * x)%Qc | None => None end)
         (seq j n) = Some (map (fun i => (k * at0 l i)%Qc) (seq j n))) as Hm.
  { intros j n. revert j. induction n as [|n IH]; intros j Hj; [done|].
    cbn [seq mapM map]. rewrite IH by lia.
    assert (coeff_at (MkCoeff k (Some l)) j = Some (at0 l j * k)%Qc) as ->.
    { unfold coeff_at. cbn [view_]. by rewrite (lookup_at0 l j) by lia. }
    simpl. do 2 f_equal. ring. }
  unfold coeff_toField. simpl. rewrite Hm by lia.
  eexists. split; [done|]. split; [by rewrite map_length, seq_length|].
  intros i x Hx. pose proof (lookup_lt_Some _ _ _ Hx).
  change (map (fun i => (k * at0 l i)%Qc) (seq 0 (length l)))
    with ((fun i => (k * at0 l i)%Qc) <$> seq 0 (length l)).
  rewrite list_lookup_fmap, lookup_seq_lt by done. simpl. f_equal. unfold at0. by rewrite Hx.
Qed.

Lemma vec_space (a b c : vec) (k l : Qc) :
  vec_add a b = vec_add b a /\ vec_add a (vec_add b c) = vec_add (vec_add a b) c /\
  vec_add vec_zero a = a /\ vec_add a (vec_sub b a) = b /\ vec_sub a a = vec_zero /\
  vec_scale 1 a = a /\ vec_scale k (vec_scale l a) = vec_scale (k * l) a /\
  vec_scale k (vec_add a b) = vec_add (vec_scale k a) (vec_scale k b) /\
  vec_scale (k + l) a = vec_add (vec_scale k a) (vec_scale l a).
Proof.
  destruct a, b, c. unfold vec_add, vec_sub, vec_scale, vec_zero. simpl.
  repeat match goal with |- _ /\ _ => split end; f_equal; ring.
Qed.

Lemma Qc_square_nonneg (a : Qc) : (0 <= a * a)%Qc.
Proof.
  destruct (Qclt_le_dec a 0) as [Hn|Hp].
  - assert (0 <= - a)%Qc. { apply Qclt_le_weak in Hn. apply Qcle_minus_iff in Hn.
      by replace (0 + - a)%Qc with (-a)%Qc in Hn by ring. }
    replace (a * a)%Qc with (- a * - a)%Qc by ring.
    replace 0%Qc with (0 * - a)%Qc by ring. by apply Qcmult_le_compat_r.
  - replace 0%Qc with (0 * a)%Qc by ring. by apply Qcmult_le_compat_r.
Qed.
Lemma Qc_add_nonneg (a b : Qc) : (0 <= a -> 0 <= b -> 0 <= a + b)%Qc.
Proof. intros Ha Hb. replace 0%Qc with (0 + 0)%Qc by ring. by apply Qcplus_le_compat. Qed.
Lemma Qc_add_zero (a b : Qc) : (0 <= a -> 0 <= b -> a + b = 0 -> a = 0 /\ b = 0)%Qc.
Proof.
  intros Ha Hb Hab. assert (a <= 0)%Qc.
  { apply Qcle_minus_iff. replace (0 + - a)%Qc with b; [done|].
    rewrite <- Hab. ring. }
  assert (a = 0)%Qc as -> by (by apply Qcle_antisym). split; [done|]. rewrite <- Hab. ring.
Qed.
Lemma Qc_square_zero (a : Qc) : (a * a = 0 -> a = 0)%Qc.
Proof. intros Ha. apply Qcmult_integral in Ha. by destruct Ha. Qed.

Lemma vec_inner (a b c : vec) (k : Qc) :
  vec_dot a b = vec_dot b a /\
  vec_dot (vec_add a b) c = (vec_dot a c + vec_dot b c)%Qc /\
  vec_dot (vec_scale k a) b = (k * vec_dot a b)%Qc /\
  (0 <= vec_dot a a)%Qc /\ (vec_dot a a = 0%Qc -> a = vec_zero) /\
  (vec_dot a b * vec_dot a b <= vec_dot a a * vec_dot b b)%Qc.
Proof.
  destruct a as [a1 a2 a3], b as [b1 b2 b3], c. unfold vec_dot, vec_add, vec_scale. simpl.
  split; [ring|]. split; [ring|]. split; [ring|].
  assert (H12 : (0 <= a1 * a1 + a2 * a2)%Qc) by (apply Qc_add_nonneg; apply Qc_square_nonneg).
  split; [|split].
  - apply Qc_add_nonneg; [done|apply Qc_square_nonneg].
  - intros Hz. apply Qc_add_zero in Hz as [Hz H3]; [|done|apply Qc_square_nonneg].
    apply Qc_add_zero in Hz as [H1 H2]; [|apply Qc_square_nonneg..].
    apply Qc_square_zero in H1, H2, H3. by subst.
  - apply Qcle_minus_iff.
    replace ((a1 * a1 + a2 * a2 + a3 * a3) * (b1 * b1 + b2 * b2 + b3 * b3)
      + - ((a1 * b1 + a2 * b2 + a3 * b3) * (a1 * b1 + a2 * b2 + a3 * b3)))%Qc
    with ((a1*b2-a2*b1)*(a1*b2-a2*b1) + (a1*b3-a3*b1)*(a1*b3-a3*b1) + (a2*b3-a3*b2)*(a2*b3-a3*b2))%Qc
    by ring.
    apply Qc_add_nonneg; [apply Qc_add_nonneg|]; apply Qc_square_nonneg.
Qed.

Lemma vec_eqb_spec a b : vec_eqb a b = true <-> a = b.
Proof.
  destruct a, b. unfold vec_eqb. simpl. rewrite !andb_true_iff, !bool_decide_eq_true.
  split; [intros [[-> ->] ->]; done|intros [= -> -> ->]; done].
Qed.

(** The uniform 1D mesh is orthogonal. *)
Lemma normal_gradient_1d e N ownJunk neiJunk m (a : vec) (b0 : Qc) (phi : volField Qc) dc f :
  1 <= N -> length ownJunk = N + 1 -> length neiJunk = N - 1 ->
  create1DUniformMesh e N ownJunk neiJunk (Some m) ->
  (forall c, c < nCells m -> at0 (vf_int phi) c = (vec_dot a (atv (cellCentres m) c) + b0)%Qc) ->
  (forall b, b < nBoundaryFaces m ->
     at0 (vf_value phi) b = (vec_dot a (atv (faceCentres m) (nInternalFaces m + b)) + b0)%Qc) ->
  (forall f, f < nInternalFaces m -> at0 dc f = Qc_of_nat N) ->
  (forall b, b < nBoundaryFaces m -> at0 dc (nInternalFaces m + b) = ((1 + 1) * Qc_of_nat N)%Qc) ->
  f < nFaces m ->
  normal_gradient m phi dc f = vec_dot a (atv (faceAreas m) f).
Proof.
  intros HN Ho Hn Hm Hi Hb Hdc Hdcb Hf.
  destruct (create1D_iff e N ownJunk neiJunk) as (m' & Hm' & Hr); try done.
  apply Hm' in Hm. injection Hm as ->.
  assert (0 < N) as HN' by lia.
  pose proof (valid_topology_1d N m' HN' Hr) as Ht.
  apply (normal_gradient_linear m' a b0 phi dc (fun f => atv (faceAreas m') f) f Ht Hi Hb); [| |done].
  - intros g Hg. rewrite (Hdc g Hg). rewrite (d_nInt _ _ Hr) in Hg.
    rewrite (d_nei_at N m'), (d_owner_at N m') by first [done|lia].
    rewrite !(d_cc_at N m') by first [done|lia].
    rewrite (d_area_int N m') by first [done|lia]. rewrite Nat.add_1_r, Qc_of_nat_S.
    unfold vec_scale, vec_sub. simpl. f_equal; [|ring|ring].
    transitivity (Qc_of_nat N * hx N)%Qc; [ring|by apply hx_n].
  - intros b Hbb. rewrite (Hdcb b Hbb). rewrite (d_nB _ _ Hr) in Hbb. rewrite (d_nInt _ _ Hr).
    rewrite (d_fc_at N m'), (d_fcc N m'), (d_area_b N m') by first [done|lia].
    destruct (decide (b = 0)) as [->|].
    + rewrite (d_cc_at N m') by first [done|lia]. rewrite Qc_of_nat_0.
      unfold vec_scale, vec_sub. simpl. f_equal; [|ring|ring].
      transitivity (- (((1 + 1) * half) * (Qc_of_nat N * hx N)))%Qc; [ring|].
      rewrite two_half, (hx_n N HN'). ring.
    + rewrite (d_cc_at N m') by first [done|lia].
      unfold vec_scale, vec_sub. simpl. f_equal; [|ring|ring].
      rewrite (last_gap N) by first [done|lia]. transitivity (((1 + 1) * half) * (Qc_of_nat N * hx N))%Qc; [ring|].
      rewrite two_half, (hx_n N HN'). ring.
Qed.
