(** Existence for the discrete equations of C91, C100 and C113.  Proofs only;
    models no code. *)
From Verif Require Import Base Dict Registry Par Exec Fields Value Kernel Mesh MeshSpec Coeff FV FVSpec FVProofs Assembly AssemblySpec AssemblyProps
  QcLra LinearSolve Transport TransportProofs SteadyMax.
Local Open Scope Qc_scope.

Section affine.
  Context (m : mesh) (Hm : valid_topology m) (flux gamma dc : list Qc) (phi : volField Qc).
  Definition listed (n : nat) (x : nat -> Qc) : list Qc := map x (seq 0 n).
  Lemma listed_length n x : length (listed n x) = n.
  Proof. unfold listed. by rewrite map_length, seq_length. Qed.
  Lemma at0_listed n x c : (c < n)%nat -> at0 (listed n x) c = x c.
  Proof.
    intros Hc. unfold at0, listed. change (map x (seq 0 n)) with (x <$> seq 0 n). rewrite list_lookup_fmap, lookup_seq_lt by done. done.
  Qed.

  (** [w = x + a (y - z)] in every cell *)
  Definition affine_cells (a : Qc) (x y z w : list Qc) : Prop :=
    forall c, (c < nCells m)%nat -> at0 w c = at0 x c + a * (at0 y c - at0 z c).
  Ltac faces_affine f Hf H :=
    destruct (decide (f < nInternalFaces m)%nat) as [Hi|Hi];
    [ unfold at_neighbour, at_owner; cbn [with_int vf_int]; change (@atV Qc Qc_value) with at0;
      rewrite ?(H _ (vt_nei m Hm f Hi)), ?(H _ (owner_lt m Hm f Hi))
    | pose proof (vt_faces m Hm) as HF; unfold at_face_cell; cbn [with_int vf_int vf_valueFraction vf_refValue vf_refGrad]; change (@atV Qc Qc_value) with at0;
      rewrite ?(H _ (vt_fc m Hm (f - nInternalFaces m)%nat (ltac:(lia)))) ].
  Lemma convected_affine a x y z w f : affine_cells a x y z w -> (f < nFaces m)%nat ->
    convected m flux phi w f = convected m flux phi x f + a * (convected m flux phi y f - convected m flux phi z f).
  Proof.
    intros H Hf. unfold convected, implicit_face_value. faces_affine f Hf H.
    - destruct (Qclt_le_dec (at0 flux f) 0); ring.
    - cbn [vadd vscale Qc_value]. ring.
  Qed.
  Lemma diffused_affine a x y z w f : affine_cells a x y z w -> (f < nFaces m)%nat ->
    diffused m gamma dc phi w f = diffused m gamma dc phi x f + a * (diffused m gamma dc phi y f - diffused m gamma dc phi z f).
  Proof.
    intros H Hf. unfold diffused, implicit_normal_gradient. faces_affine f Hf H; vring.
  Qed.
  Lemma balance_affine (p q r s : nat -> Qc) a c : (forall f, (f < nFaces m)%nat -> p f = q f + a * (r f - s f)) ->
    cell_balance m p c = cell_balance m q c + a * (cell_balance m r c - cell_balance m s c).
  Proof.
    intros H. rewrite (balance_congr m Hm p (fun f => q f + (a * r f + - a * s f))).
    - rewrite !balance_add, !balance_scaled. ring.
    - intros f Hf. rewrite (H f Hf). ring.
  Qed.

  (** The two sides of the equations, as functions of the cell values. *)
  Definition net (x : nat -> Qc) (c : nat) : Qc :=
    cell_balance m (convected m flux phi (listed (nCells m) x)) c - cell_balance m (diffused m gamma dc phi (listed (nCells m) x)) c.
  Lemma net_affine x y z a c : net (fun i => x i + a * (y i - z i)) c = net x c + a * (net y c - net z c).
  Proof.
    assert (H : affine_cells a (listed (nCells m) x) (listed (nCells m) y) (listed (nCells m) z) (listed (nCells m) (fun i => x i + a * (y i - z i)))).
    { intros d Hd. by rewrite !at0_listed by done. }
    unfold net. rewrite (balance_affine _ _ _ _ a c (fun f Hf => convected_affine a _ _ _ _ f H Hf)).
    rewrite (balance_affine _ _ _ _ a c (fun f Hf => diffused_affine a _ _ _ _ f H Hf)). ring.
  Qed.
  Lemma listed_ext n x y : (forall i, (i < n)%nat -> x i = y i) -> listed n x = listed n y.
  Proof. intros H. unfold listed. apply map_ext_in. intros i Hi. apply in_seq in Hi. apply H. lia. Qed.
  Lemma net_local x y c : (forall i, (i < nCells m)%nat -> x i = y i) -> net x c = net y c.
  Proof. intros H. unfold net. by rewrite (listed_ext _ x y H). Qed.
  Lemma net_balanced x : balanced m flux gamma dc phi (net x) (listed (nCells m) x).
  Proof. split; [apply listed_length|]. done. Qed.

  Context (Hdiff : diffusive m gamma dc) (Hout : forall c, (c < nCells m)%nat -> 0 <= cell_balance m (at0 flux) c)
    (Hin : inflow_boundary m flux phi).
  Lemma balanced_exists : (forall U, ~ cut_off m flux gamma dc phi U) -> forall s, exists x, balanced m flux gamma dc phi s x.
  Proof.
    intros Hcut s. destruct (unique_solvable (nCells m) net net_affine net_local) with (s := s) as (x & Hx).
    - intros x y H i Hi. rewrite <- (at0_listed (nCells m) x i Hi), <- (at0_listed (nCells m) y i Hi). f_equal.
      apply (balanced_unique m Hm flux gamma dc Hdiff Hout phi (net x) _ _ Hin Hcut); [apply net_balanced|].
      split; [apply listed_length|]. intros c Hc. by rewrite (H c Hc).
    - exists (listed (nCells m) x). split; [apply listed_length|]. exact Hx.
  Qed.

  (** One implicit step *)
  Lemma transported_exists dt old : 0 < dt -> exists x, transported m flux gamma dc dt phi old x.
  Proof.
    intros Hdt.
    set (L (x : nat -> Qc) c := (if decide (c < nCells m)%nat then at0 (cellVolumes m) c / dt * x c else 0) + net x c).
    assert (Hd0 : dt <> 0) by (intros ->; by vm_compute in Hdt).
    destruct (unique_solvable (nCells m) L) with (s := fun c => at0 (cellVolumes m) c / dt * at0 old c) as (x & Hx).
    - intros x y z a c. unfold L. rewrite net_affine. destruct (decide _); ring.
    - intros x y c H. unfold L. rewrite (net_local x y c H). destruct (decide (c < nCells m)%nat) as [Hc|]; [by rewrite (H c Hc)|done].
    - intros x y H i Hi. rewrite <- (at0_listed (nCells m) x i Hi), <- (at0_listed (nCells m) y i Hi). f_equal.
      assert (Ht : forall z, (forall c, (c < nCells m)%nat -> L x c = L z c) ->
        transported m flux gamma dc dt phi (listed (nCells m) (fun c => dt / at0 (cellVolumes m) c * L x c)) (listed (nCells m) z)).
      { intros z Hz. split; [apply listed_length|]. intros c Hc. unfold cell_law. rewrite !at0_listed by done.
        pose proof (vt_vol m Hm c Hc) as Hv. assert (Hv0 : at0 (cellVolumes m) c <> 0) by (intros E; rewrite E in Hv; by vm_compute in Hv).
        rewrite (Hz c Hc). unfold L. rewrite decide_True by done. unfold net. field. done. }
      exact (transported_unique m Hm flux gamma dc Hdiff dt phi _ _ _ Hdt Hout Hin (Ht x (fun _ _ => eq_refl)) (Ht y H)).
    - exists (listed (nCells m) x). split; [apply listed_length|]. intros c Hc. unfold cell_law. rewrite at0_listed by done.
      pose proof (Hx c Hc) as E. unfold L in E. rewrite decide_True in E by done. unfold net in E. revert E.
      generalize (cell_balance m (convected m flux phi (listed (nCells m) x)) c) (cell_balance m (diffused m gamma dc phi (listed (nCells m) x)) c) (at0 (cellVolumes m) c / dt) (x c) (at0 old c).
      intros p q v u w E. replace (v * (u - w) + p - q) with (v * u + (p - q) - v * w) by ring. rewrite E. ring.
  Qed.
End affine.

(** Pure gradient boundary, no flow: one equation follows from the others. *)
Section level.
  Context (m : mesh) (Hm : valid_topology m) (gamma dc : list Qc) (phi : volField Qc) (Hdiff : diffusive m gamma dc).
  Context (Hz : forall b, (b < nBoundaryFaces m)%nat -> at0 (vf_valueFraction phi) b = 0).
  Definition prescribed_flux (b : nat) : Qc :=
    at0 gamma (nInternalFaces m + b) * at0 (magFaceAreas m) (nInternalFaces m + b) * at0 (vf_refGrad phi) b.
  Lemma diffused_prescribed x b : (b < nBoundaryFaces m)%nat -> diffused m gamma dc phi x (nInternalFaces m + b) = prescribed_flux b.
  Proof.
    intros Hb. unfold diffused, implicit_normal_gradient, prescribed_flux. rewrite decide_False by lia.
    replace (nInternalFaces m + b - nInternalFaces m)%nat with b by lia. cbn [with_int vf_valueFraction vf_refGrad].
    rewrite (Hz b Hb). change (@atV Qc Qc_value) with at0. cbn [vadd vscale Qc_value]. ring.
  Qed.
  Lemma balanced_total s x : balanced m [] gamma dc phi s x ->
    sum_to (nCells m) s = - sum_to (nBoundaryFaces m) prescribed_flux.
  Proof.
    intros [L H]. rewrite (sum_to_ext (nCells m) s (fun c => - (1) * cell_balance m (diffused m gamma dc phi x) c)).
    - rewrite sum_to_scale. pose proof (balance_total m Hm (V := Qc) (diffused m gamma dc phi x)) as Ht.
      rewrite (sum_to_ext (nBoundaryFaces m) prescribed_flux (fun b => diffused m gamma dc phi x (nInternalFaces m + b)%nat)).
      + change (sum_to (nCells m) (λ i : nat, cell_balance m (diffused m gamma dc phi x) i)) with (sum_to (nCells m) (cell_balance m (diffused m gamma dc phi x))).
        rewrite Ht. ring.
      + intros b Hb. by rewrite diffused_prescribed.
    - intros c Hc. rewrite <- (H c Hc). rewrite (balance_congr m Hm (convected m [] phi x) (fun f => 0 * at0 [] f)).
      + rewrite balance_scaled. ring.
      + intros f _. unfold convected. assert (E : at0 [] f = 0) by (by destruct f). rewrite E. ring.
  Qed.
  Lemma level_exists s :
    (forall c c', (c < nCells m)%nat -> (c' < nCells m)%nat -> linked m [] gamma dc c c') ->
    sum_to (nCells m) s = - sum_to (nBoundaryFaces m) prescribed_flux -> exists x, balanced m [] gamma dc phi s x.
  Proof.
    intros Hl Hs.
    destruct (nCells m) as [|N] eqn:EN.
    { exists []. split; [by rewrite EN|]. intros c Hc. lia. }
    assert (Hout : forall c, (c < nCells m)%nat -> 0 <= cell_balance m (at0 []) c).
    { intros c _. rewrite (balance_congr m Hm (at0 []) (fun f => 0 * at0 [] f)) by (intros [|f] _; cbn; ring).
      rewrite balance_scaled. apply (nonneg_eq 0); [apply Qcle_refl|ring]. }
    assert (Hin : inflow_boundary m [] phi).
    { intros b Hb. rewrite (Hz b Hb). split; [apply Qcle_refl|]. split; [discriminate|]. by left. }
    set (L (x : nat -> Qc) c := if decide (c = 0)%nat then x 0%nat else net m [] gamma dc phi x c).
    (** balanced in all cells but the first, with the right total: balanced *)
    assert (Hrest : forall t x, sum_to (nCells m) t = - sum_to (nBoundaryFaces m) prescribed_flux ->
      (forall c, (c < nCells m)%nat -> c <> 0%nat -> net m [] gamma dc phi x c = t c) -> balanced m [] gamma dc phi t (listed (nCells m) x)).
    { intros t x Ht Hx. split; [apply listed_length|]. intros c Hc. change (net m [] gamma dc phi x c = t c).
      destruct (decide (c = 0)%nat) as [->|Hc0]; [|by apply Hx].
      pose proof (balanced_total _ _ (net_balanced m [] gamma dc phi x)) as Hn. rewrite <- Ht in Hn. rewrite EN in Hn.
      rewrite !(sum_to_skip N 0) in Hn by lia.
      rewrite (sum_to_ext N _ (fun i => t (skip 0 i))) in Hn.
      - revert Hn. generalize (sum_to N (fun i => t (skip 0 i))) (net m [] gamma dc phi x 0%nat) (t 0%nat). intros p q r E.
        replace q with (p + q - p) by ring. rewrite E. ring.
      - intros i Hi. apply Hx; unfold skip; rewrite decide_False by lia; lia. }
    destruct (unique_solvable (nCells m) L) with (s := fun c => if decide (c = 0)%nat then 0 else s c) as (x & Hx).
    - intros x y z a c. unfold L. destruct (decide (c = 0)%nat); [ring|]. by apply net_affine.
    - intros x y c H. unfold L. destruct (decide (c = 0)%nat); [apply H; lia|]. by apply net_local.
    - intros x y H i Hi.
      assert (H0 : x 0%nat = y 0%nat) by (specialize (H 0%nat ltac:(lia)); unfold L in H; by rewrite !decide_True in H by done).
      pose proof (net_balanced m [] gamma dc phi x) as Bx.
      assert (By : balanced m [] gamma dc phi (net m [] gamma dc phi x) (listed (nCells m) y)).
      { apply Hrest; [by apply (balanced_total _ _ Bx)|]. intros c Hc Hc0. specialize (H c Hc). unfold L in H. by rewrite !decide_False in H by done. }
      destruct (balanced_difference m Hm [] gamma dc Hdiff Hout phi _ _ _ Hin ltac:(by rewrite EN) Bx By) as (k & Hk).
      pose proof (Hk 0%nat ltac:(lia)) as K0. pose proof (Hk i Hi) as Ki. rewrite !at0_listed in K0 by lia. rewrite !at0_listed in Ki by done.
      rewrite H0 in K0. assert (k = 0) as ->. { revert K0. generalize (y 0%nat). qc_lra. } rewrite Ki. ring.
    - exists (listed (nCells m) x). apply Hrest; [by rewrite EN|].
      intros c Hc Hc0. specialize (Hx c Hc). unfold L in Hx. by rewrite !decide_False in Hx by done.
  Qed.
End level.
