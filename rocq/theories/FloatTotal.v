(** C115: specification of the total rounding error of an explicit operator, and
    the argument that combines the errors of the face values with that of the sum. *)
From Coq Require Import Reals Lra Psatz.
From Verif Require Import Base Value Mesh MeshSpec Coeff FV FVSpec FVProofs FVAnyArith Properties_AnyArith Properties_Float FloatFaces.
Local Open Scope R_scope.

(** The numbers of the faces of cell [c]. *)
Definition faces_around (m : mesh) (c : nat) : list nat :=
  filter (fun f => atn (faceOwner m) f = c) (seq 0 (nInternalFaces m)) ++
  filter (fun f => atn (faceNeighbour m) f = c) (seq 0 (nInternalFaces m)) ++
  map (Nat.add (nInternalFaces m)) (filter (fun b => atn (bFaceCells (bmesh m)) b = c) (seq 0 (nBoundaryFaces m))).
(** Sum of [g] over the faces of cell [c]. *)
Definition sum_around (m : mesh) (c : nat) (g : nat -> R) : R := sumR (map g (faces_around m c)).
(** The field of the absolute values. *)
Definition magnitudes (phi : volField R) : volField R :=
  VolField (map Rabs (vf_int phi)) (map Rabs (vf_value phi)) (vf_refValue phi) (vf_valueFraction phi) (vf_refGrad phi).

(** Bound for the error of [s + q * sum of n face terms], [k] the number of
    roundings in each term, [T] the sum of the magnitudes of the exact terms, [E]
    what underflow may add to the terms. *)
Definition total_bound (p : precision) (k n : nat) (s q T E : R) : R :=
  u p * Rabs s
  + ((1 + u p) ^ (n + k + 3) - 1) * (Rabs q * T)
  + (1 + u p) ^ (n + 3) * (Rabs q * E)
  + (1 + u p) ^ (n + 2) * (((1 + u p) ^ k * T + E) * eta p)
  + (1 + u p) * eta p.

Lemma sumR_le l : forall (f g : nat -> R), (forall x, x ∈ l -> f x <= g x) -> sumR (map f l) <= sumR (map g l).
Proof.
  induction l as [|a l IH]; intros f g Hfg; cbn; [lra|].
  pose proof (Hfg a ltac:(by apply elem_of_list_here)). specialize (IH f g ltac:(intros; apply Hfg; by apply elem_of_list_further)).
  unfold sumR in IH. lra.
Qed.
Lemma sumabs_sumR (l : list R) : sumabs l = sumR (map Rabs l).
Proof. induction l; cbn; [done|]. unfold sumabs, sumR in *. by rewrite IHl. Qed.
Lemma sumR_lin l (f g : nat -> R) a b : sumR (map (fun x => a * f x + b * g x) l) = a * sumR (map f l) + b * sumR (map g l).
Proof. induction l; cbn; [ring|]. unfold sumR in *. rewrite IHl. ring. Qed.
Lemma sumR_nonneg l (f : nat -> R) : (forall x, x ∈ l -> 0 <= f x) -> 0 <= sumR (map f l).
Proof. intros Hf. pose proof (sumR_le l (fun _ => 0) f Hf). assert (sumR (map (fun _ => 0) l) = 0); [|lra]. clear. induction l; cbn; [done|]. unfold sumR in *. rewrite IHl. ring. Qed.

Lemma vsum_real (l : list R) : @vsum R real_value l = sumR l.
Proof. induction l; cbn; [done|]. unfold sumR in *. by rewrite <- IHl. Qed.
Lemma vsum_over_filter n (P : nat -> Prop) `{!forall x, Decision (P x)} (g : nat -> R) :
  @vsum_over R real_value n (fun f => if decide (P f) then g f else 0) = sumR (map g (filter P (seq 0 n))).
Proof.
  unfold vsum_over. rewrite vsum_real. generalize (seq 0 n). intros l. induction l as [|a l IH]; [done|].
  rewrite filter_cons. cbn [map]. change (sumR (?x :: ?y)) with (x + sumR y). rewrite IH.
  destruct (decide (P a)); cbn [map]; change (sumR (?x :: ?y)) with (x + sumR y); lra.
Qed.
Lemma cell_balance_real m T c :
  @cell_balance R real_value m T c =
    sumR (map T (filter (fun f => atn (faceOwner m) f = c) (seq 0 (nInternalFaces m))))
    - sumR (map T (filter (fun f => atn (faceNeighbour m) f = c) (seq 0 (nInternalFaces m))))
    + sumR (map (fun b => T (nInternalFaces m + b)%nat) (filter (fun b => atn (bFaceCells (bmesh m)) b = c) (seq 0 (nBoundaryFaces m)))).
Proof.
  unfold cell_balance, vsub. unfold vadd, vneg, vzero, real_value.
  rewrite <- (vsum_over_filter (nInternalFaces m) (fun f => atn (faceOwner m) f = c) T).
  rewrite <- (vsum_over_filter (nInternalFaces m) (fun f => atn (faceNeighbour m) f = c) T).
  rewrite <- (vsum_over_filter (nBoundaryFaces m) (fun b => atn (bFaceCells (bmesh m)) b = c) (fun b => T (nInternalFaces m + b)%nat)).
  unfold real_value. ring.
Qed.

Section terms.
  Context (p : precision) (m : mesh) (t : nat -> R) (c : nat).
  Notation own := (filter (fun f => atn (faceOwner m) f = c) (seq 0 (nInternalFaces m))).
  Notation nei := (filter (fun f => atn (faceNeighbour m) f = c) (seq 0 (nInternalFaces m))).
  Notation bnd := (filter (fun b => atn (bFaceCells (bmesh m)) b = c) (seq 0 (nBoundaryFaces m))).
  Lemma internal_terms_perm :
    @internal_terms R (scalar_value p) m t c ≡ₚ map t own ++ map (fun f => - t f) nei.
  Proof.
    unfold internal_terms. generalize (seq 0 (nInternalFaces m)). intros l. induction l as [|f l IH]; [done|].
    cbn [map concat]. rewrite IH, !filter_cons. unfold vneg, scalar_value.
    destruct (decide (atn (faceOwner m) f = c)), (decide (atn (faceNeighbour m) f = c)); cbn [map app]; try done.
    - constructor. by rewrite Permutation_middle.
    - by rewrite Permutation_middle.
  Qed.
  Lemma boundary_terms_eq :
    boundary_terms (V := R) m t c = map (fun b => t (nInternalFaces m + b)%nat) bnd.
  Proof.
    unfold boundary_terms. generalize (seq 0 (nBoundaryFaces m)). intros l. induction l as [|f l IH]; [done|].
    cbn [map concat]. rewrite IH, !filter_cons. destruct (decide (atn (bFaceCells (bmesh m)) f = c)); done.
  Qed.
  Lemma face_terms_perm : face_terms p m t c ≡ₚ
    map t own ++ map (fun f => - t f) nei ++ map (fun b => t (nInternalFaces m + b)%nat) bnd.
  Proof. unfold face_terms. rewrite internal_terms_perm, boundary_terms_eq. by rewrite <- app_assoc. Qed.
  Lemma face_terms_length : length (face_terms p m t c) = length (faces_around m c).
  Proof. rewrite face_terms_perm. unfold faces_around. by rewrite !app_length, !map_length. Qed.
  Lemma face_terms_sum : sumR (face_terms p m t c) =
    sumR (map t own) - sumR (map t nei) + sumR (map (fun b => t (nInternalFaces m + b)%nat) bnd).
  Proof.
    rewrite (sumR_perm _ _ face_terms_perm), !sumR_app.
    assert (sumR (map (fun f => - t f) nei) = - sumR (map t nei)) as ->; [|ring].
    generalize nei. intros l. induction l; cbn; [lra|]. unfold sumR in *. rewrite IHl. ring.
  Qed.
  Lemma face_terms_abs : sumabs (face_terms p m t c) = sum_around m c (fun f => Rabs (t f)).
  Proof.
    rewrite (sumabs_perm _ _ face_terms_perm), !sumabs_app. unfold sum_around, faces_around. rewrite !map_app, !sumR_app.
    rewrite !sumabs_sumR, !map_map.
    assert (sumR (map (fun x => Rabs (- t x)) nei) = sumR (map (fun f => Rabs (t f)) nei)) as ->; [|done].
    generalize nei. intros l. induction l; cbn; [done|]. unfold sumR in *. by rewrite IHl, Rabs_Ropp.
  Qed.
End terms.

Lemma in_around m (Hm : valid_topology m) c f : f ∈ faces_around m c -> (f < nFaces m)%nat.
Proof.
  pose proof (vt_faces _ Hm) as HnF. unfold faces_around. rewrite !elem_of_app.
  intros [[_ Hf%elem_of_seq]%elem_of_list_filter|[[_ Hf%elem_of_seq]%elem_of_list_filter|Hf]]; [lia|lia|].
  apply elem_of_list_In, in_map_iff in Hf as (b & <- & Hb%elem_of_list_In). apply elem_of_list_filter in Hb as [_ Hb%elem_of_seq]. lia.
Qed.

(** Difference of the sums of computed and exact terms. *)
Lemma sums_close m c (t T : nat -> R) :
  Rabs ((sumR (map t (filter (fun f => atn (faceOwner m) f = c) (seq 0 (nInternalFaces m))))
    - sumR (map t (filter (fun f => atn (faceNeighbour m) f = c) (seq 0 (nInternalFaces m))))
    + sumR (map (fun b => t (nInternalFaces m + b)%nat) (filter (fun b => atn (bFaceCells (bmesh m)) b = c) (seq 0 (nBoundaryFaces m)))))
   - @cell_balance R real_value m T c) <= sum_around m c (fun f => Rabs (t f - T f)).
Proof.
  rewrite cell_balance_real. unfold sum_around, faces_around. rewrite !map_app, !sumR_app, map_map.
  assert (Hd : forall l (g : nat -> nat), Rabs (sumR (map (fun b => t (g b)) l) - sumR (map (fun b => T (g b)) l)) <= sumR (map (fun b => Rabs (t (g b) - T (g b))) l)).
  { intros l g. induction l as [|a l IH]; cbn; [rewrite Rminus_0_r, Rabs_R0; lra|]. unfold sumR in *.
    set (A := foldr _ _ _) in *. set (B := foldr _ _ (map (fun b => T (g b)) l)) in *.
    replace (t (g a) + A - (T (g a) + B)) with ((t (g a) - T (g a)) + (A - B)) by ring.
    eapply Rle_trans; [apply Rabs_triang|]. lra. }
  pose proof (Hd (filter (fun f => atn (faceOwner m) f = c) (seq 0 (nInternalFaces m))) (fun b => b)) as H1.
  pose proof (Hd (filter (fun f => atn (faceNeighbour m) f = c) (seq 0 (nInternalFaces m))) (fun b => b)) as H2.
  pose proof (Hd (filter (fun b => atn (bFaceCells (bmesh m)) b = c) (seq 0 (nBoundaryFaces m))) (Nat.add (nInternalFaces m))) as H3.
  cbv beta in H1, H2. clear Hd. rewrite <- (map_ext (fun b => t b) t) in * by done.
  set (a1 := sumR _) in H1. set (a2 := sumR _) in H2. set (a3 := sumR _) in H3.
  change (map (fun b => t b)) with (map t) in *. change (map (fun b => T b)) with (map T) in *.
  fold a1 a2 a3. revert H1 H2 H3.
  set (b1 := sumR (map T _)). set (b2 := sumR (map T (filter (fun f => atn (faceNeighbour m) f = c) _))). 
  set (b3 := sumR (map (fun b : nat => T _) _)). intros H1 H2 H3.
  replace (a1 - a2 + a3 - (b1 - b2 + b3)) with ((a1 - b1) + (- (a2 - b2) + (a3 - b3))) by ring.
  eapply Rle_trans; [apply Rabs_triang|]. apply Rplus_le_compat; [done|]. eapply Rle_trans; [apply Rabs_triang|].
  rewrite Rabs_Ropp. by apply Rplus_le_compat.
Qed.

Section total.
  Context (p : precision) (m : mesh) (Hm : valid_topology m) (k : nat) (t T B E : nat -> R) (scaling : Coeff).
  Context (Hterm : forall f, (f < nFaces m)%nat -> Rabs (t f - T f) <= ((1 + u p) ^ k - 1) * B f + E f).
  Context (Hmag : forall f, (f < nFaces m)%nat -> Rabs (T f) <= B f).
  Context (HE : forall f, (f < nFaces m)%nat -> 0 <= E f).

  Lemma total_error source res c : (c < nCells m)%nat -> within p m t scaling source res ->
    Rabs (default 0 (res !! c) - (default 0 (source !! c) +
            @per_volume R real_value m scaling c (@cell_balance R real_value m T c)))
      <= total_bound p k (length (faces_around m c)) (default 0 (source !! c))
           (QcR (coeff_val scaling c / at0 (cellVolumes m) c)%Qc) (sum_around m c B) (sum_around m c E).
  Proof.
    intros Hc [_ Hw]. specialize (Hw c Hc). unfold error_bound in Hw. rewrite face_terms_length, face_terms_sum, face_terms_abs in Hw.
    unfold volume_factor in Hw. unfold per_volume. unfold vscale, real_value. fold real_value.
    set (q := QcR _) in *. pose proof (rnd_err p q) as Hq. set (Q := rnd p q) in *.
    pose proof (sums_close m c t T) as Hd. set (St := _ - _ + _) in Hw, Hd.
    set (n := length (faces_around m c)) in *. set (s := default 0 (source !! c)) in *. set (r := default 0 (res !! c)) in *.
    set (X := @cell_balance R real_value m T c) in *.
    pose proof (u_pos p) as Hu. pose proof (eta_pos p) as Het.
    pose proof (pow1u p k) as Pk. set (P := (1 + u p) ^ k) in *.
    assert (Ht : sum_around m c (fun f => Rabs (t f)) <= P * sum_around m c B + sum_around m c E).
    { unfold sum_around. rewrite <- (Rmult_1_l (sumR (map E _))), <- sumR_lin. apply sumR_le. intros f Hf%in_around; [|done].
      pose proof (Hterm f Hf). pose proof (Hmag f Hf). fold P in H.
      replace (t f) with ((t f - T f) + T f) by ring. eapply Rle_trans; [apply Rabs_triang|]. lra. }
    assert (Hdd : Rabs (St - X) <= (P - 1) * sum_around m c B + sum_around m c E).
    { eapply Rle_trans; [exact Hd|]. unfold sum_around. rewrite <- (Rmult_1_l (sumR (map E _))), <- sumR_lin. apply sumR_le.
      intros f Hf%in_around; [|done]. pose proof (Hterm f Hf). fold P in H. lra. }
    assert (HSt : Rabs St <= sum_around m c (fun f => Rabs (t f))).
    { rewrite <- (face_terms_abs p). unfold St. rewrite <- (face_terms_sum p m t c). apply sumR_abs. }
    assert (HB : 0 <= sum_around m c B). { apply sumR_nonneg. intros f Hf%in_around; [|done]. pose proof (Hmag f Hf). pose proof (Rabs_pos (T f)). lra. }
    assert (HEE : 0 <= sum_around m c E). { apply sumR_nonneg. intros f Hf%in_around; [|done]. by apply HE. }
    set (TB := sum_around m c B) in *. set (EE := sum_around m c E) in *. set (W := sum_around m c (fun f => Rabs (t f))) in *.
    assert (HW : 0 <= W) by (pose proof (Rabs_pos St); lra).
    unfold total_bound. fold P. fold n.
    pose proof (pow1u p (n + 2)) as Pn. set (N := (1 + u p) ^ (n + 2)) in *.
    replace ((1 + u p) ^ (n + k + 3)) with ((1 + u p) * N * P)
      by (unfold N, P; replace (n + k + 3)%nat with (1 + (n + 2) + k)%nat by lia; rewrite !pow_add; simpl; ring).
    replace ((1 + u p) ^ (n + 3)) with ((1 + u p) * N) by (unfold N; replace (n + 3)%nat with (1 + (n + 2))%nat by lia; rewrite (pow_add _ 1); simpl; ring).
    pose proof (Rabs_pos q) as Pq. pose proof (Rabs_pos s) as Ps.
    assert (HQ : Rabs Q <= (1 + u p) * Rabs q + eta p).
    { replace Q with ((Q - q) + q) by ring. eapply Rle_trans; [apply Rabs_triang|]. lra. }
    replace (r - (s + q * X)) with ((r - (s + Q * St)) + ((Q - q) * St + q * (St - X))) by ring.
    eapply Rle_trans; [apply Rabs_triang|]. eapply Rle_trans; [apply Rplus_le_compat; [exact Hw|apply Rabs_triang]|]. rewrite !Rabs_mult.
    assert (A1 : Rabs (Q - q) * Rabs St <= (u p * Rabs q + eta p) * (P * TB + EE)) by (apply Rmult_le_compat; try apply Rabs_pos; lra).
    assert (A2 : Rabs q * Rabs (St - X) <= Rabs q * ((P - 1) * TB + EE)) by (apply Rmult_le_compat_l; lra).
    assert (A3 : Rabs Q * W <= ((1 + u p) * Rabs q + eta p) * (P * TB + EE)) by (apply Rmult_le_compat; try apply Rabs_pos; lra).
    assert (A4 : (N - 1) * (Rabs Q * W) <= (N - 1) * (((1 + u p) * Rabs q + eta p) * (P * TB + EE))) by (apply Rmult_le_compat_l; lra).
    eapply Rle_trans; [apply Rplus_le_compat; [apply Rplus_le_compat_r, Rplus_le_compat_l, A4|apply Rplus_le_compat; [exact A1|exact A2]]|].
    right. ring.
  Qed.
End total.
