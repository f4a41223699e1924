(** C105: reductions in floating-point arithmetic. *)
From Coq Require Import Reals Lra Psatz.
From Flocq Require Import Core IEEE754.BinarySingleNaN IEEE754.Binary IEEE754.Bits.
From Verif Require Import Base Exec Value Reduce Properties_Float Properties_Binary64.
Local Open Scope R_scope.

(** The sum of [scalar]s, as the kernels write it: [lsum += f[i]]. *)
Definition float_sum (p : precision) (a b : R) : R := rnd p (a + b).

Section prec.
Context (p : precision).
Notation u := (u p).
Notation format := (scalar_format p).
Notation q n := ((1 + u) ^ n).

Lemma q_mono a b : (a <= b)%nat -> q a <= q b.
Proof. intros H. pose proof (u_pos p). apply Rle_pow; [lra|done]. Qed.
Lemma float_sum_0_l x : format x -> float_sum p 0 x = x.
Proof. intros Hx. unfold float_sum. rewrite Rplus_0_l. by apply rnd_format. Qed.
Lemma float_sum_0_r x : format x -> float_sum p x 0 = x.
Proof. intros Hx. unfold float_sum. rewrite Rplus_0_r. by apply rnd_format. Qed.

Lemma fold_terms (contrib : nat -> R) is : forall x,
  fold_left (fun acc i => reduce_kernel (float_sum p) contrib i acc) is x = foldl (vadd (ValueType := scalar_value p)) x (contrib <$> is).
Proof. induction is as [|i is IH]; intros x; [done|]. cbn [fold_left]. rewrite IH. done. Qed.

(** A sum of the terms [l], with value [v], is accurate. *)
Definition accurate (l : list R) (v : R) : Prop :=
  format v /\ (l = [] -> v = 0) /\ Rabs (v - sumR l) <= (q (length l - 1) - 1) * sumabs l.

Lemma accurate_fold l : Forall format l -> accurate l (foldl (vadd (ValueType := scalar_value p)) 0 l).
Proof.
  intros Hl. destruct l as [|x l].
  - split; [apply format_0|]. split; [done|]. simpl. rewrite Rminus_0_r, Rabs_R0. lra.
  - apply Forall_cons in Hl as [Hx Hl]. cbn [foldl]. change (vadd (ValueType := scalar_value p) 0 x) with (float_sum p 0 x).
    rewrite float_sum_0_l by done. split; [by apply foldl_format|]. split; [done|].
    pose proof (foldl_error p l x Hx Hl) as H. cbn [length]. rewrite Nat.sub_succ, Nat.sub_0_r. exact H.
Qed.

Lemma accurate_join l r vl vr : accurate l vl -> accurate r vr -> accurate (l ++ r) (float_sum p vl vr).
Proof.
  intros (Fl & Zl & El) (Fr & Zr & Er). split; [apply format_rnd|]. split.
  { intros [-> ->]%app_eq_nil. rewrite Zl, Zr by done. rewrite float_sum_0_l; [done|apply format_0]. }
  rewrite sumR_app, sumabs_app. destruct l as [|a l]; [|destruct r as [|b r]].
  - rewrite Zl by done. rewrite float_sum_0_l by done. cbn [app sumR sumabs foldr]. rewrite !Rplus_0_l. exact Er.
  - rewrite Zr by done. rewrite float_sum_0_r by done. rewrite app_nil_r. cbn [sumR sumabs foldr] in *.
    change (foldr Rplus 0 []) with 0. rewrite !Rplus_0_r. exact El.
  - set (L := a :: l) in *. set (R' := b :: r) in *. rewrite app_length.
    assert (HL : (1 <= length L)%nat) by (unfold L; cbn; lia). assert (HR : (1 <= length R')%nat) by (unfold R'; cbn; lia).
    pose proof (sumabs_nonneg L). pose proof (sumabs_nonneg R'). pose proof (sumR_abs L). pose proof (sumR_abs R'). pose proof (u_pos p) as Hu.
    pose proof (q_mono (S (length L - 1)) (length L + length R' - 1) ltac:(lia)) as M1.
    pose proof (q_mono (S (length R' - 1)) (length L + length R' - 1) ltac:(lia)) as M2.
    change (q (S (length L - 1))) with ((1 + u) * q (length L - 1)) in M1.
    change (q (S (length R' - 1))) with ((1 + u) * q (length R' - 1)) in M2.
    pose proof (pow1u p (length L - 1)) as P1. pose proof (pow1u p (length R' - 1)) as P2.
    set (ql := q (length L - 1)) in *. set (qr := q (length R' - 1)) in *. set (qq := q (length L + length R' - 1)) in *.
    pose proof (rnd_add p vl vr Fl Fr) as He. change (rnd p (vl + vr)) with (float_sum p vl vr) in He.
    set (s := float_sum p vl vr) in *.
    assert (Hvl : Rabs vl <= ql * sumabs L).
    { replace vl with ((vl - sumR L) + sumR L) by ring. eapply Rle_trans; [apply Rabs_triang|]. lra. }
    assert (Hvr : Rabs vr <= qr * sumabs R').
    { replace vr with ((vr - sumR R') + sumR R') by ring. eapply Rle_trans; [apply Rabs_triang|]. lra. }
    pose proof (Rabs_triang vl vr) as Hv.
    replace (s - (sumR L + sumR R')) with ((s - (vl + vr)) + ((vl - sumR L) + (vr - sumR R'))) by ring.
    eapply Rle_trans; [apply Rabs_triang|]. pose proof (Rabs_triang (vl - sumR L) (vr - sumR R')) as Ht.
    assert (A1 : u * Rabs (vl + vr) <= u * (ql * sumabs L + qr * sumabs R')) by (apply Rmult_le_compat_l; lra).
    assert (A2 : (1 + u) * ql * sumabs L <= qq * sumabs L) by (apply Rmult_le_compat_r; lra).
    assert (A3 : (1 + u) * qr * sumabs R' <= qq * sumabs R') by (apply Rmult_le_compat_r; lra).
    nra.
Qed.

Lemma accurate_tree contrib t : Forall format (contrib <$> jindices t) ->
  accurate (contrib <$> jindices t) (jeval (float_sum p) 0 contrib t).
Proof.
  induction t as [is|l IHl r IHr]; cbn [jindices jeval]; intros Hf.
  - rewrite fold_terms. by apply accurate_fold.
  - rewrite fmap_app in *. apply Forall_app in Hf as [Hl Hr]. apply accurate_join; auto.
Qed.
Lemma accurate_perm l k v : l ≡ₚ k -> accurate l v -> accurate k v.
Proof.
  intros Hp (Hf & Hz & He). split; [done|]. split.
  - intros ->. apply Hz. by apply Permutation_nil.
  - rewrite <- (sumR_perm _ _ Hp), <- (sumabs_perm _ _ Hp), <- (Permutation_length Hp). done.
Qed.
Lemma accurate_sum contrib e start stop r :
  (forall i, (start <= i < stop)%nat -> format (contrib i)) ->
  parallelReduce (float_sum p) 0 contrib e start stop 0 r -> accurate (contrib <$> seq start (stop - start)) r.
Proof.
  intros Hf. assert (HF : Forall format (contrib <$> seq start (stop - start))).
  { apply Forall_fmap, Forall_forall. intros i Hi%elem_of_seq. apply Hf. lia. }
  assert (HS : accurate (contrib <$> seq start (stop - start)) (reduce_serial (float_sum p) contrib start stop 0)).
  { unfold reduce_serial. rewrite fold_terms. by apply accurate_fold. }
  assert (HK : reduce_kokkos (float_sum p) 0 contrib start stop r -> accurate (contrib <$> seq start (stop - start)) r).
  { intros (t & Ht & ->). eapply accurate_perm; [by apply fmap_Permutation|]. apply accurate_tree. by rewrite Ht. }
  destruct e; cbn [parallelReduce]; [intros ->; exact HS|exact HK|exact HK].
Qed.
End prec.

(** Whatever the executor, the number of threads and the way partial results are
    joined, the sum over an index range of numbers [x(start) .. x(stop-1)] is
    off by at most ((1+u)^(n-1) - 1) times the sum of their absolute values. *)
Theorem C105_sum_error : forall p contrib e start stop r,
  (forall i, (start <= i < stop)%nat -> scalar_format p (contrib i)) ->
  parallelReduce (float_sum p) 0 contrib e start stop 0 r ->
  scalar_format p r /\
  Rabs (r - sumR (contrib <$> seq start (stop - start))) <=
    ((1 + u p) ^ (stop - start - 1) - 1) * sumabs (contrib <$> seq start (stop - start)).
Proof.
  intros p contrib e start stop r Hf Hr. destruct (accurate_sum p contrib e start stop r Hf Hr) as (Ha & _ & Hb).
  split; [done|]. by rewrite fmap_length, seq_length in Hb.
Qed.
Print Assumptions C105_sum_error.

Theorem C105_executors_agree : forall p contrib e e' start stop r r',
  (forall i, (start <= i < stop)%nat -> scalar_format p (contrib i)) ->
  parallelReduce (float_sum p) 0 contrib e start stop 0 r ->
  parallelReduce (float_sum p) 0 contrib e' start stop 0 r' ->
  Rabs (r - r') <= 2 * (((1 + u p) ^ (stop - start - 1) - 1) * sumabs (contrib <$> seq start (stop - start))).
Proof.
  intros p contrib e e' start stop r r' Hf H H'. apply C105_sum_error in H as [_ H], H' as [_ H']; [|done..].
  set (S := sumR _) in *. replace (r - r') with ((r - S) + (S - r')) by ring.
  eapply Rle_trans; [apply Rabs_triang|]. rewrite (Rabs_minus_sym S r'). lra.
Qed.
Print Assumptions C105_executors_agree.

(** With at most two terms every executor gives the same bits, and the sum is correctly rounded. *)
Theorem C105_two_terms : forall p contrib e start r,
  (forall i, (start <= i < start + 2)%nat -> scalar_format p (contrib i)) ->
  parallelReduce (float_sum p) 0 contrib e start (start + 2) 0 r ->
  r = rnd p (contrib start + contrib (S start)).
Proof.
  intros p contrib e start r Hf.
  assert (F0 : scalar_format p (contrib start)) by (apply Hf; lia). assert (F1 : scalar_format p (contrib (S start))) by (apply Hf; lia).
  assert (HS : reduce_serial (float_sum p) contrib start (start + 2) 0 = rnd p (contrib start + contrib (S start))).
  { unfold reduce_serial. replace (start + 2 - start)%nat with 2%nat by lia. cbn. unfold reduce_kernel. by rewrite float_sum_0_l. }
  assert (Hnil : forall t, jindices t = [] -> jeval (float_sum p) 0 contrib t = 0).
  { induction t as [is|l IHl r' IHr]; cbn; [by intros ->|]. intros [E1 E2]%app_eq_nil. rewrite IHl, IHr by done. apply float_sum_0_l, format_0. }
  assert (Hone : forall t i, scalar_format p (contrib i) -> jindices t = [i] -> jeval (float_sum p) 0 contrib t = contrib i).
  { intros t i Fi. induction t as [is|l IHl r' IHr]; cbn.
    - intros ->. cbn. by apply float_sum_0_l.
    - intros E. destruct (jindices l) as [|a l'] eqn:El.
      + rewrite Hnil by done. rewrite IHr by done. by apply float_sum_0_l.
      + cbn in E. injection E as -> E. apply app_eq_nil in E as [-> E]. rewrite IHl by done. rewrite (Hnil r') by done. by apply float_sum_0_r. }
  assert (Htwo : forall t i j, scalar_format p (contrib i) -> scalar_format p (contrib j) -> jindices t = [i; j] ->
    jeval (float_sum p) 0 contrib t = rnd p (contrib i + contrib j)).
  { intros t i j Fi Fj. induction t as [is|l IHl r' IHr]; cbn.
    - intros ->. cbn. unfold reduce_kernel. by rewrite float_sum_0_l.
    - intros E. destruct (jindices l) as [|a l'] eqn:El.
      + rewrite Hnil by done. rewrite IHr by done. apply float_sum_0_l, format_rnd.
      + cbn in E. injection E as -> E. destruct l' as [|b l''].
        * cbn in E. rewrite (Hone l i) by done. rewrite (Hone r' j) by done. done.
        * cbn in E. injection E as -> E. apply app_eq_nil in E as [-> E]. rewrite IHl by done. rewrite (Hnil r') by done. apply float_sum_0_r, format_rnd. }
  assert (HK : reduce_kokkos (float_sum p) 0 contrib start (start + 2) r -> r = rnd p (contrib start + contrib (S start))).
  { intros (t & Ht & ->). replace (start + 2 - start)%nat with 2%nat in Ht by lia. cbn in Ht.
    symmetry in Ht. apply Permutation_length_2_inv in Ht.
    destruct Ht as [E|E].
    - by rewrite (Htwo t start (S start) F0 F1 E).
    - rewrite (Htwo t (S start) start F1 F0 E). by rewrite Rplus_comm. }
  destruct e; cbn [parallelReduce]; [by intros ->|exact HK|exact HK].
Qed.
Print Assumptions C105_two_terms.

(** The largest of the contributions comes out exactly, on every executor, from a
    start value that none of them is below (Kokkos::Max starts from the lowest number). *)
Theorem C105_max_exact : forall contrib lowest e start stop r,
  (forall i, (start <= i < stop)%nat -> lowest <= contrib i) -> (start < stop)%nat ->
  parallelReduce Rmax lowest contrib e start stop lowest r ->
  (exists i, (start <= i < stop)%nat /\ r = contrib i) /\ (forall i, (start <= i < stop)%nat -> contrib i <= r).
Proof.
  intros contrib lowest e start stop r Hlow Hne.
  set (maxof := fun (is : list nat) (v : R) => (is = [] /\ v = lowest \/ exists i, i ∈ is /\ v = contrib i) /\ lowest <= v /\ (forall i, i ∈ is -> contrib i <= v)).
  assert (Hsel : forall a b, Rmax a b = a \/ Rmax a b = b) by (intros a b; unfold Rmax; destruct (Rle_dec a b); auto).
  assert (Hfold : forall is is0 v, (forall i, i ∈ is -> lowest <= contrib i) -> maxof is0 v ->
    maxof (is0 ++ is) (fold_left (fun acc i => reduce_kernel Rmax contrib i acc) is v)).
  { induction is as [|i is IH]; intros is0 v Hi Hv; cbn [fold_left]; [by rewrite app_nil_r|].
    change (i :: is) with ([i] ++ is). rewrite app_assoc. apply IH; [intros j Hj; apply Hi; by right|]. destruct Hv as (H1 & H2 & H3).
    pose proof (Hi i ltac:(by left)) as Hli. pose proof (Rmax_l v (contrib i)). pose proof (Rmax_r v (contrib i)).
    unfold reduce_kernel. split; [|split; [lra|]].
    - right. destruct H1 as [[-> ->]|(j & Hj & ->)].
      + exists i. split; [rewrite elem_of_app; right; by left|]. by apply Rmax_right.
      + destruct (Hsel (contrib j) (contrib i)) as [->| ->]; [exists j|exists i]; rewrite elem_of_app, elem_of_list_singleton; auto.
    - intros j [Hj| ->%elem_of_list_singleton]%elem_of_app; [|done]. specialize (H3 j Hj). lra. }
  assert (Hstart : maxof [] lowest) by (split; [by left|split; [lra|]]; intros i Hi; by apply elem_of_nil in Hi).
  assert (Hfin : maxof (seq start (stop - start)) r -> (exists i, (start <= i < stop)%nat /\ r = contrib i) /\ (forall i, (start <= i < stop)%nat -> contrib i <= r)).
  { intros (H1 & _ & H3). split.
    - destruct H1 as [[E _]|(i & Hi%elem_of_seq & ->)]; [|exists i; split; [lia|done]]. apply (f_equal length) in E. rewrite seq_length in E. cbn in E. lia.
    - intros i Hi. apply H3, elem_of_seq. lia. }
  assert (HK : reduce_kokkos Rmax lowest contrib start stop r -> maxof (seq start (stop - start)) r).
  { intros (t & Ht & ->). assert (Hi : forall i, i ∈ jindices t -> lowest <= contrib i).
    { intros i. rewrite Ht. intros Hi%elem_of_seq. apply Hlow. lia. }
    assert (Hm : maxof (jindices t) (jeval Rmax lowest contrib t)).
    { clear Ht Hfin. revert Hi. induction t as [is|l IHl r' IHr]; cbn [jindices jeval]; intros Hi.
      - by apply (Hfold is []).
      - specialize (IHl (fun i Hx => Hi i (proj2 (elem_of_app _ _ _) (or_introl Hx)))). destruct IHl as (L1 & L2 & L3).
        specialize (IHr (fun i Hx => Hi i (proj2 (elem_of_app _ _ _) (or_intror Hx)))). destruct IHr as (R1 & R2 & R3).
        set (vl := jeval _ _ _ l) in *. set (vr := jeval _ _ _ r') in *. pose proof (Rmax_l vl vr). pose proof (Rmax_r vl vr).
        split; [|split; [lra|]].
        + destruct L1 as [[-> EL]|(i & Hil & EL)], R1 as [[-> ER]|(j & Hj & ER)].
          * left. split; [done|]. rewrite EL, ER. apply Rmax_left. lra.
          * right. exists j. split; [done|]. rewrite EL, ER. apply Rmax_right. lra.
          * right. exists i. split; [by rewrite app_nil_r|]. rewrite EL, ER. apply Rmax_left. lra.
          * right. destruct (Hsel vl vr) as [->| ->]; [exists i|exists j]; rewrite elem_of_app; auto.
        + intros i [Hx|Hx]%elem_of_app; [specialize (L3 i Hx)|specialize (R3 i Hx)]; lra. }
    destruct Hm as (M1 & M2 & M3). split; [|split; [done|]].
    - destruct M1 as [[E ->]|(i & Hx & ->)]; [left|right].
      + split; [|done]. rewrite E in Ht. by apply Permutation_nil.
      + exists i. split; [by rewrite <- Ht|done].
    - intros i Hx. apply M3. by rewrite Ht. }
  destruct e; cbn [parallelReduce]; intros H; apply Hfin; [|by apply HK..].
  subst r. apply (Hfold _ []); [|done]. intros i Hi%elem_of_seq. apply Hlow. lia.
Qed.
Print Assumptions C105_max_exact.

(** In binary64 the way the partial results are joined shows: 1 + 2^-53 + 2^-53 is 1 from left to right and 1 + 2^-52
    when the last two are added first. *)
Theorem C105_order_matters : forall e, e <> SerialExecutor -> exists (l : list binary64) r r',
  parallelReduce (b64_plus mode_NE) (b64_of_Z 0) (fun i => default (b64_of_Z 0) (l !! i)) e 0 (length l) (b64_of_Z 0) r /\
  parallelReduce (b64_plus mode_NE) (b64_of_Z 0) (fun i => default (b64_of_Z 0) (l !! i)) e 0 (length l) (b64_of_Z 0) r' /\
  B2FF 53 1024 r <> B2FF 53 1024 r'.
Proof.
  intros e He. set (l := [b64_of_Z 1; tiny 53; tiny 53]). set (c := fun i => default (b64_of_Z 0) (l !! i)).
  exists l, (jeval (b64_plus mode_NE) (b64_of_Z 0) c (Piece [0; 1; 2]%nat)), (jeval (b64_plus mode_NE) (b64_of_Z 0) c (Join (Piece [0]%nat) (Piece [1; 2]%nat))).
  assert (H : forall t, jindices t = [0; 1; 2]%nat -> parallelReduce (b64_plus mode_NE) (b64_of_Z 0) c e 0 (length l) (b64_of_Z 0) (jeval (b64_plus mode_NE) (b64_of_Z 0) c t)).
  { intros t Ht. assert (K : reduce_kokkos (b64_plus mode_NE) (b64_of_Z 0) c 0 (length l) (jeval (b64_plus mode_NE) (b64_of_Z 0) c t)).
    { exists t. split; [rewrite Ht; exact (Permutation_refl _)|exact eq_refl]. }
    destruct e; [destruct (He eq_refl)|exact K|exact K]. }
  split; [exact (H (Piece [0; 1; 2]%nat) eq_refl)|]. split; [exact (H (Join (Piece [0]%nat) (Piece [1; 2]%nat)) eq_refl)|].
  intros E. vm_compute in E. discriminate E.
Qed.
Print Assumptions C105_order_matters.

(** A case the hypotheses admit: the field 1, 2, 3 in double precision. *)
Example C105_instance : exists (contrib : nat -> R) r, (forall i, (0 <= i < 3)%nat -> scalar_format Double (contrib i)) /\
  (forall i, (0 <= i < 3)%nat -> 0 <= contrib i) /\ (0 < 3)%nat /\
  parallelReduce (float_sum Double) 0 contrib CPUExecutor 0 3 0 r.
Proof.
  exists (fun i => IZR (Z.of_nat (S i))). eexists. split; [|split; [|split; [lia|]]].
  - intros i Hi. unfold scalar_format. apply generic_format_FLT. apply (FLT_spec radix2 _ _ _ (Defs.Float radix2 (Z.of_nat (S i)) 0)).
    + unfold F2R. cbn. ring.
    + cbn [Fnum]. apply (Z.lt_trans _ 4); [lia|]. reflexivity.
    + cbn. lia.
  - intros i _. apply IZR_le. lia.
  - exists (Join (Piece [2; 0]%nat) (Piece [1]%nat)). split; [|reflexivity]. cbn.
    transitivity [0; 2; 1]%nat; [by constructor|]. constructor. by constructor.
Qed.
