(** C128: the Courant number in float and double. *)
From Coq Require Import Qcanon Reals Lra Psatz.
From Flocq Require Import Core Plus_error Relative.
From Verif Require Import Base Par ParProofs Exec ExecProofs Value Kernel KernelProofs KernelAnyArith Mesh MeshSpec MeshProofs Coeff FV FVSpec FVProofs FVAnyArith FaceSums Reduce ReduceProofs Dict Boundary Properties_Boundary
  Properties_AnyArith Properties_Float Properties_Reduce FloatFaces FloatTotal FloatRun Properties_FloatFaces Properties_DslAssembly Properties_FloatRun CoNumFloat.
Local Open Scope R_scope.

#[local] Existing Instance prec_pos.
Definition smallest (p : precision) : R := bpow radix2 (emin p + digits p - 1).
Lemma smallest_pos p : 0 < smallest p. Proof. apply bpow_gt_0. Qed.
Lemma smallest_4 p : bpow radix2 (emin p + digits p + 1) = 4 * smallest p.
Proof. unfold smallest. replace (emin p + digits p + 1)%Z with (2 + (emin p + digits p - 1))%Z by lia. rewrite bpow_plus. f_equal. Qed.
Lemma smallest_double p : smallest Double <= smallest p.
Proof. unfold smallest. apply bpow_le. destruct p; cbn; lia. Qed.
Lemma smallest_1 p : smallest p <= 1.
Proof. unfold smallest. change 1 with (bpow radix2 0). apply bpow_le. destruct p; cbn; lia. Qed.
Lemma u_double p : u Double <= u p.
Proof. destruct p; [|lra]. unfold u. apply Rinv_le_contravar; [apply pow_lt; lra|]. apply Rle_pow; [lra|lia]. Qed.
Lemma near_relative p a b : 0 <= b -> Rabs (a - b) <= u p / (1 + u p) * b -> 0 <= a /\ relative p 1 a b.
Proof.
  intros Hb H. pose proof (u_pos p) as Hu. unfold relative. rewrite pow_1.
  assert (E : u p / (1 + u p) = 1 - / (1 + u p)) by (field; lra). set (q := / (1 + u p)) in *.
  assert (Hq : 0 < q) by (apply Rinv_0_lt_compat; lra). assert (Hq1 : q * (1 + u p) = 1) by (apply Rinv_l; lra).
  rewrite E in H. assert (L : q * b <= a) by (apply Rabs_le_inv in H; lra). assert (U : a <= (2 - q) * b) by (apply Rabs_le_inv in H; lra).
  assert (0 <= q * b) by (apply Rmult_le_pos; lra). split; [lra|]. split.
  - eapply Rle_trans; [exact U|]. rewrite Rmult_comm. apply Rmult_le_compat_l; [done|]. nra.
  - replace b with (q * b * (1 + u p)) by (replace (q * b * (1 + u p)) with (q * (1 + u p) * b) by ring; rewrite Hq1; ring).
    apply Rmult_le_compat_r; lra.
Qed.
Lemma rnd_relative p x : x = 0 \/ smallest p <= x -> 0 <= rnd p x /\ relative p 1 (rnd p x) x.
Proof.
  intros [->|Hx].
  - rewrite (rnd_format p 0 (format_0 p)). split; [lra|]. split; rewrite Rmult_0_l; lra.
  - pose proof (smallest_pos p). apply near_relative; [lra|]. unfold rnd. rewrite round_FLT_FLX by (rewrite Rabs_pos_eq by lra; exact Hx).
    pose proof (relative_error_N_FLX' radix2 (digits p) (prec_pos p) (fun z => negb (Z.even z)) x) as E.
    rewrite (u_ro_p p), (Rabs_pos_eq x) in E by lra. exact E.
Qed.
Lemma rnd_add_relative p x y : scalar_format p x -> scalar_format p y -> 0 <= x -> 0 <= y -> 0 <= rnd p (x + y) /\ relative p 1 (rnd p (x + y)) (x + y).
Proof.
  intros Fx Fy Hx Hy. apply near_relative; [lra|].
  destruct (FLT_plus_error_N_ex radix2 (emin p) (digits p) (fun z => negb (Z.even z)) x y Fx Fy) as (eps & He & Hr).
  unfold rnd. change ZnearestE with (Znearest (fun z => negb (Z.even z))). rewrite Hr.
  replace ((x + y) * (1 + eps) - (x + y)) with (eps * (x + y)) by ring. rewrite Rabs_mult, (Rabs_pos_eq (x + y)) by lra.
  rewrite (u_ro_p p) in He. apply Rmult_le_compat_r; [lra|exact He].
Qed.
Lemma relative_refl p a : relative p 0 a a.
Proof. unfold relative. cbn. lra. Qed.
Lemma relative_sym p k a b : relative p k a b -> relative p k b a.
Proof. intros [H1 H2]. by split. Qed.
Lemma w_pos p k : 0 < (1 + u p) ^ k.
Proof. apply pow_lt. pose proof (u_pos p). lra. Qed.
Lemma relative_trans p j k a b c : relative p j a b -> relative p k b c -> relative p (j + k) a c.
Proof.
  intros [A1 A2] [B1 B2]. unfold relative. rewrite pow_add. pose proof (w_pos p j). pose proof (w_pos p k). set (x := (1 + u p) ^ j) in *. set (y := (1 + u p) ^ k) in *. split.
  - eapply Rle_trans; [exact A1|]. replace (c * (x * y)) with (c * y * x) by ring. apply Rmult_le_compat_r; lra.
  - eapply Rle_trans; [exact B2|]. replace (a * (x * y)) with (a * x * y) by ring. apply Rmult_le_compat_r; lra.
Qed.
Lemma relative_mono p k k' a b : 0 <= a -> 0 <= b -> (k <= k')%nat -> relative p k a b -> relative p k' a b.
Proof.
  intros Ha Hb Hk [A1 A2]. assert (H : (1 + u p) ^ k <= (1 + u p) ^ k') by (apply Rle_pow; [pose proof (u_pos p); lra|lia]).
  split; eapply Rle_trans; eauto; apply Rmult_le_compat_l; lra.
Qed.
Lemma relative_double p k a b : 0 <= a -> 0 <= b -> relative Double k a b -> relative p k a b.
Proof.
  intros Ha Hb [A1 A2]. assert (H : (1 + u Double) ^ k <= (1 + u p) ^ k).
  { apply pow_incr. pose proof (u_pos Double). pose proof (u_double p). lra. }
  split; eapply Rle_trans; eauto; apply Rmult_le_compat_l; lra.
Qed.
Lemma relative_times p k a b c : 0 <= c -> relative p k a b -> relative p k (a * c) (b * c).
Proof.
  intros Hc [A1 A2]. split; [replace (b * c * (1 + u p) ^ k) with (b * (1 + u p) ^ k * c) by ring|replace (a * c * (1 + u p) ^ k) with (a * (1 + u p) ^ k * c) by ring]; by apply Rmult_le_compat_r.
Qed.
Lemma relative_plus p k a b c d : relative p k a b -> relative p k c d -> relative p k (a + c) (b + d).
Proof. intros [A1 A2] [B1 B2]. split; rewrite Rmult_plus_distr_r; lra. Qed.
Lemma relative_sqrt p k a b : 0 <= a -> 0 <= b -> relative p k a b -> relative p k (R_sqrt.sqrt a) (R_sqrt.sqrt b).
Proof.
  intros Ha Hb [A1 A2]. assert (Hw : 1 <= (1 + u p) ^ k) by (apply pow_R1_Rle; pose proof (u_pos p); lra). set (w := (1 + u p) ^ k) in *.
  assert (S : R_sqrt.sqrt w <= w).
  { rewrite <- (sqrt_Rsqr w) at 2 by lra. apply sqrt_le_1; unfold Rsqr; nra. }
  split.
  - eapply Rle_trans; [apply sqrt_le_1_alt, A1|]. rewrite sqrt_mult by lra. apply Rmult_le_compat_l; [apply sqrt_pos|done].
  - eapply Rle_trans; [apply sqrt_le_1_alt, A2|]. rewrite sqrt_mult by lra. apply Rmult_le_compat_l; [apply sqrt_pos|done].
Qed.
(** Still above the threshold after a few roundings. *)
Lemma stays_above p k a b t : (1 + u p) ^ k <= 2 -> relative p k a b -> 0 <= a -> 0 <= t -> b = 0 \/ 2 * t <= b -> a = 0 \/ t <= a.
Proof.
  intros Hw [A1 A2] Ha Ht [->|Hb]; [left|right].
  - rewrite Rmult_0_l in A1. lra.
  - assert (a * (1 + u p) ^ k <= a * 2) by (apply Rmult_le_compat_l; lra). lra.
Qed.
Lemma root_relative p f : no_underflow p (f * f) -> 1 + u p <= 2 -> 0 <= co_root p f /\ relative p 2 (co_root p f) (Rabs f).
Proof.
  intros Hf Hw. unfold no_underflow in Hf. rewrite smallest_4 in Hf. pose proof (smallest_pos p) as Hs.
  assert (Hff : 0 <= f * f) by nra.
  destruct (rnd_relative p (f * f)) as [R0 R1]; [destruct Hf as [H|H]; [by left|right; lra]|].
  assert (Ra : rnd p (f * f) = 0 \/ smallest p <= rnd p (f * f)).
  { apply (stays_above p 1 _ (f * f)); [cbn; lra|done|done|lra|]. destruct Hf as [H|H]; [by left|right; lra]. }
  pose proof (relative_sqrt _ _ _ _ R0 Hff R1) as S1. rewrite <- (sqrt_Rsqr_abs f). unfold Rsqr.
  assert (Sa : R_sqrt.sqrt (rnd p (f * f)) = 0 \/ smallest p <= R_sqrt.sqrt (rnd p (f * f))).
  { destruct Ra as [->|Ra]; [left; apply sqrt_0|right]. rewrite <- (sqrt_Rsqr (smallest p)) by lra. apply sqrt_le_1_alt. unfold Rsqr.
    pose proof (smallest_1 p). nra. }
  destruct (rnd_relative p _ Sa) as [T0 T1]. split; [exact T0|]. by apply (relative_trans p 1 1 _ (R_sqrt.sqrt (rnd p (f * f)))).
Qed.
Lemma sumR_nonneg l : Forall (fun x => 0 <= x) l -> 0 <= sumR l.
Proof. induction 1; unfold sumR in *; cbn; lra. Qed.
Lemma foldl_relative p l : forall x, scalar_format p x -> 0 <= x -> Forall (scalar_format p) l -> Forall (fun x => 0 <= x) l ->
  0 <= foldl (vadd (ValueType := scalar_value p)) x l /\ relative p (length l) (foldl (vadd (ValueType := scalar_value p)) x l) (x + sumR l).
Proof.
  induction l as [|t l IH]; intros x Fx Hx Fl Hl.
  - cbn. rewrite Rplus_0_r. split; [done|apply relative_refl].
  - apply Forall_cons in Fl as [Ft Fl]. apply Forall_cons in Hl as [Ht Hl]. cbn [foldl length]. unfold vadd at 2 4, scalar_value at 2 4.
    destruct (rnd_add_relative p x t Fx Ft Hx Ht) as [R0 R1]. destruct (IH (rnd p (x + t)) (format_rnd p _) R0 Fl Hl) as [S0 S1].
    split; [exact S0|]. replace (S (length l)) with (length l + 1)%nat by lia. eapply relative_trans; [exact S1|].
    change (sumR (t :: l)) with (t + sumR l). rewrite <- Rplus_assoc. apply relative_plus; [done|]. apply (relative_mono p 0); [by apply sumR_nonneg|by apply sumR_nonneg|lia|apply relative_refl].
Qed.
Lemma sum_map_relative p k (g h : nat -> R) l : (forall i, i ∈ l -> relative p k (g i) (h i)) -> relative p k (sumR (map g l)) (sumR (map h l)).
Proof.
  induction l as [|i l IH]; intros H.
  - unfold relative. cbn. lra.
  - cbn [map]. change (sumR (?a :: ?b)) with (a + sumR b). apply relative_plus; [apply H; by left|]. apply IH. intros j Hj. apply H. by right.
Qed.

Lemma largest_unique n f x y : largest n f x -> largest n f y -> x = y.
Proof. intros [H1 (i & Hi & ->)] [H2 (j & Hj & ->)]. apply Rle_antisym; auto. Qed.
Lemma largest_exists n f : (0 < n)%nat -> exists x, largest n f x.
Proof.
  induction n as [|n IH]; intros Hn; [lia|]. destruct n as [|n].
  - exists (f 0%nat). split; [|exists 0%nat; split; [lia|done]]. intros c Hc. replace c with 0%nat by lia. lra.
  - destruct IH as (x & H1 & (c & Hc & ->)); [lia|]. destruct (Rle_dec (f c) (f (S n))) as [Hle|Hnle].
    + exists (f (S n)). split; [|exists (S n); split; [lia|done]]. intros d Hd. destruct (decide (d = S n)) as [->|]; [lra|]. pose proof (H1 d ltac:(lia)). lra.
    + exists (f c). split; [|exists c; split; [lia|done]]. intros d Hd. destruct (decide (d = S n)) as [->|]; [lra|]. apply H1. lia.
Qed.
Lemma largest_relative p k n f g x y : (forall c, (c < n)%nat -> relative p k (f c) (g c)) -> largest n f x -> largest n g y -> relative p k x y.
Proof.
  intros H [H1 (i & Hi & ->)] [H2 (j & Hj & ->)]. pose proof (w_pos p k) as Hw. split.
  - eapply Rle_trans; [apply (H i Hi)|]. apply Rmult_le_compat_r; [lra|by apply H2].
  - eapply Rle_trans; [apply (H j Hj)|]. apply Rmult_le_compat_r; [lra|by apply H1].
Qed.
Lemma max_reduced lowest e n f x : lowest <= 0 -> (0 < n)%nat -> (forall c, (c < n)%nat -> 0 <= f c) ->
  parallelReduce Rmax lowest f e 0 n 0 x -> largest n f x.
Proof.
  intros Hl Hn Hf Hr.
  assert (K : (exists i, (0 <= i < n)%nat /\ x = f i) /\ (forall i, (0 <= i < n)%nat -> f i <= x)).
  { destruct e.
    - apply (C105_max_exact f 0 SerialExecutor 0 n x); [intros; apply Hf; lia|done|exact Hr].
    - apply (C105_max_exact f lowest CPUExecutor 0 n x); [intros i Hi; pose proof (Hf i ltac:(lia)); lra|done|exact Hr].
    - apply (C105_max_exact f lowest GPUExecutor 0 n x); [intros i Hi; pose proof (Hf i ltac:(lia)); lra|done|exact Hr]. }
  destruct K as [(i & Hi & ->) K]. split; [intros c Hc; apply K; lia|exists i; split; [lia|done]].
Qed.
Lemma reduced_exists {T} (op : T -> T -> T) ident f e n a : exists x, parallelReduce op ident f e 0 n a x.
Proof. destruct e; [by eexists| |]; exists (jeval op ident f (Piece (seq 0 (n - 0)))); by exists (Piece (seq 0 (n - 0))). Qed.

(** What the accumulation leaves in a cell. *)
Lemma around_perm (m : mesh) (t : nat -> R) c : around_terms m t c ++ boundary_terms m t c ≡ₚ map t (faces_around m c).
Proof.
  unfold faces_around. rewrite !map_app, map_map, boundary_terms_eq, app_assoc. apply Permutation_app_tail.
  unfold around_terms. generalize (seq 0 (nInternalFaces m)). intros l. induction l as [|f l IH]; [done|].
  cbn [map concat]. rewrite IH, !filter_cons.
  destruct (decide (atn (faceOwner m) f = c)), (decide (atn (faceNeighbour m) f = c)); cbn [map app]; try done.
  - constructor. by rewrite Permutation_middle.
  - by rewrite Permutation_middle.
Qed.
Section accumulate.
  Context (p : precision) (m : mesh) (Hm : valid_topology m) (flux : list R) (Hflux : length flux = nFaces m).
  Notation g := (fun f => co_root p (default 0 (flux !! f))).
  Lemma accumulate_any e junk : length junk = nCells m ->
    every_outcome (co_accumulate_f p e m flux junk) (fun m' => exists res, m' = [res] /\ length res = nCells m /\
      forall c, (c < nCells m)%nat -> exists l, l ≡ₚ map g (faces_around m c) /\ default 0 (res !! c) = foldl (vadd (ValueType := scalar_value p)) 0 l).
  Proof using Hm Hflux.
    intros Hj. destruct (@set_pass R (scalar_value p) e 0 (length junk) co_fill_f (fun _ => 0) junk) as (z & Hz & Hlz & Hz0 & _); [lia|lia|done|].
    unfold co_accumulate_f.
    eapply (every_pseq (V := R) _ _ _ (fun m' => m' = [z])).
    - apply (every_outcome_always _ [z]); [exact Hz|done].
    - intros m1 ->. rewrite Hflux, (vt_faces m Hm).
      eapply every_outcome_impl; [apply (@FaceSums.faces_any R (scalar_value p) m Hm e (co_internal_f p m flux) (co_boundary_f p m flux) g)|].
      + intros f Hf. unfold co_internal_f. destruct (lookup_lt_is_Some_2 flux f) as [fl Efl]; [rewrite Hflux, (vt_faces m Hm); lia|]. rewrite Efl. simpl.
        rewrite owner_lookup by done. simpl. rewrite nei_lookup by done. simpl. eexists _, _. split; [done|].
        split; (split; [done|]; split; [done|]; split; [done|by right]).
      + intros b Hb. unfold co_boundary_f. rewrite Nat.add_comm, Nat.add_sub, Nat.add_comm. rewrite fc_lookup by done. simpl.
        destruct (lookup_lt_is_Some_2 flux (nInternalFaces m + b)) as [fl Efl]; [rewrite Hflux, (vt_faces m Hm); lia|]. rewrite Efl. simpl.
        eexists. split; [done|]. split; [done|]. split; [done|]. split; [done|by right].
      + lia.
      + intros m' (res & -> & Hl & Hc). exists res. split; [done|]. split; [done|]. intros c Hcc. destruct (Hc c Hcc) as (li & lb & Hli & Hlb & _ & Hy).
        exists (li ++ lb). split; [rewrite <- around_perm; by rewrite Hli, Hlb|]. rewrite foldl_app.
        unfold atV in Hy. rewrite Hz0 in Hy by lia. exact Hy.
  Qed.
End accumulate.

Lemma foldl_format_list p l : Forall (scalar_format p) l -> scalar_format p (foldl (vadd (ValueType := scalar_value p)) 0 l).
Proof. intros H. apply foldl_format; [apply format_0|done]. Qed.
(** The amount accumulated in a cell. *)
Lemma cell_sum_relative p m (flux : list R) c l k : (forall f, f ∈ faces_around m c -> no_underflow p (default 0 (flux !! f) * default 0 (flux !! f))) ->
  1 + u p <= 2 -> (length (faces_around m c) <= k)%nat ->
  l ≡ₚ map (fun f => co_root p (default 0 (flux !! f))) (faces_around m c) ->
  let y := foldl (vadd (ValueType := scalar_value p)) 0 l in let S := sum_around m c (fun f => Rabs (default 0 (flux !! f))) in
  0 <= y /\ 0 <= S /\ relative p (k + 2) y S.
Proof.
  intros Hf Hw Hk Hl. cbv zeta.
  assert (F : Forall (scalar_format p) l /\ Forall (fun x => 0 <= x) l).
  { split; rewrite Hl; apply Forall_forall; intros x Hx; apply elem_of_list_fmap in Hx as (f & -> & Hff); [apply format_rnd|by apply root_relative; [apply Hf|]]. }
  destruct F as [F1 F2]. destruct (foldl_relative p l 0 (format_0 p) (Rle_refl 0) F1 F2) as [Y0 Y1]. rewrite Rplus_0_l in Y1.
  rewrite (sumR_perm _ _ Hl), (Permutation_length Hl), map_length in Y1.
  assert (S0 : 0 <= sum_around m c (fun f => Rabs (default 0 (flux !! f)))).
  { unfold sum_around. apply sumR_nonneg, Forall_forall. intros x Hx. apply elem_of_list_fmap in Hx as (f & -> & _). apply Rabs_pos. }
  split; [done|]. split; [done|]. apply (relative_mono p (length (faces_around m c) + 2)); [done|done|lia|].
  eapply relative_trans; [exact Y1|]. apply sum_map_relative. intros f Hff. apply root_relative; [by apply Hf|done].
Qed.
Lemma scaled_relative p k mx M dt : (1 + u p) ^ (k + 6) <= 2 -> 0 <= mx -> 0 <= M -> 0 <= dt -> relative p (k + 3) mx M ->
  no_underflow p M -> no_underflow p (dt / 2 * M) -> 0 <= co_scaled p mx dt /\ relative p (k + 6) (co_scaled p mx dt) (dt / 2 * M).
Proof.
  intros Hw Hmx HM Hdt Hr N1 N2. unfold no_underflow in N1, N2. rewrite smallest_4 in N1, N2. pose proof (smallest_pos p) as Hs. pose proof (smallest_double p) as Hd.
  assert (Hpw : forall j, (j <= k + 6)%nat -> (1 + u p) ^ j <= 2).
  { intros j Hj. eapply Rle_trans; [|exact Hw]. apply Rle_pow; [pose proof (u_pos p); lra|lia]. }
  unfold co_scaled.
  assert (Hh : relative p (k + 3) (mx * / 2) (M * / 2)) by (apply relative_times; [lra|done]).
  destruct (rnd_relative Double (mx * / 2)) as [A0 A1].
  { destruct (stays_above p (k + 3) mx M (2 * smallest p) (Hpw (k + 3)%nat ltac:(lia)) Hr Hmx ltac:(lra)) as [->|H]; [destruct N1 as [N1|N1]; [by left|right; lra]|left; lra|right; lra]. }
  assert (A2 : relative p (k + 4) (rnd Double (mx * / 2)) (M * / 2)).
  { replace (k + 4)%nat with (1 + (k + 3))%nat by lia. eapply relative_trans; [|exact Hh]. apply relative_double; [done|lra|done]. }
  set (a := rnd Double (mx * / 2)) in *.
  assert (A3 : relative p (k + 4) (a * dt) (dt / 2 * M)) by (replace (dt / 2 * M) with (M * / 2 * dt) by field; by apply relative_times).
  assert (Had : 0 <= a * dt) by (by apply Rmult_le_pos). assert (HC : 0 <= dt / 2 * M) by (apply Rmult_le_pos; lra).
  destruct (rnd_relative Double (a * dt)) as [B0 B1].
  { destruct (stays_above p (k + 4) (a * dt) (dt / 2 * M) (smallest p) (Hpw (k + 4)%nat ltac:(lia)) A3 Had ltac:(lra)) as [H|H]; [destruct N2 as [N2|N2]; [by left|right; lra]|by left|right; lra]. }
  assert (B2 : relative p (k + 5) (rnd Double (a * dt)) (dt / 2 * M)).
  { replace (k + 5)%nat with (1 + (k + 4))%nat by lia. eapply relative_trans; [|exact A3]. by apply relative_double. }
  destruct (rnd_relative p (rnd Double (a * dt))) as [C0 C1].
  { apply (stays_above p (k + 5) _ (dt / 2 * M)); [by apply Hpw; lia|done|done|lra|]. destruct N2 as [N2|N2]; [by left|right; lra]. }
  split; [done|]. replace (k + 6)%nat with (1 + (k + 5))%nat by lia. eapply relative_trans; [exact C1|done].
Qed.

(** What is known of an outcome. *)
Lemma outcomes p m (flux : list R) dt lowest e junk bv br bf bg : valid_topology m -> offsets_ok m -> length flux = nFaces m -> length junk = nCells m ->
  (exists o, computeCoNum_f p lowest e m flux dt junk bv br bf bg o) /\
  forall o, computeCoNum_f p lowest e m flux dt junk bv br bf bg o -> exists (volPhi : list R) mx mean sp sv,
    (forall c, (c < nCells m)%nat -> exists l, l ≡ₚ map (fun f => co_root p (default 0 (flux !! f))) (faces_around m c) /\
       default 0 (volPhi !! c) = foldl (vadd (ValueType := scalar_value p)) 0 l) /\
    parallelReduce Rmax lowest (fun c => rnd p (default 0 (volPhi !! c) / QcR (default 0%Qc (cellVolumes m !! c)))) e 0 (nCells m) 0 mx /\
    parallelReduce (float_sum p) 0 (fun c => default 0 (volPhi !! c)) e 0 (nCells m) 0 sp /\
    parallelReduce (float_sum p) 0 (fun c => QcR (default 0%Qc (cellVolumes m !! c))) e 0 (nCells m) 0 sv /\
    mean = co_scaled p (rnd p (sp / sv)) dt /\ o = Ok (co_scaled p mx dt, mean).
Proof.
  intros Hm Ho Hflux Hj. destruct (C43_calculated m Ho) as (ps & _ & _ & Hbcs & _ & _ & Hnop).
  specialize (Hnop R (scalar_value p)). destruct (accumulate_any p m Hm flux Hflux e junk Hj) as (An & (m1 & A1) & Aa).
  unfold computeCoNum_f. rewrite Hbcs.
  assert (Eb : map (fun x : patch * volBC Qc => (x.1, as_scalar_bc x.2)) (map (fun p => (p, Calculated)) ps) = map (fun p => (p, Calculated)) ps).
  { rewrite map_map. done. }
  rewrite Eb. clear Eb.
  assert (Hred : forall volPhi : list R, length volPhi = nCells m -> (nCells m <= length volPhi /\ nCells m <= length (cellVolumes m))%nat).
  { intros vp Hl. rewrite Hl, (vt_vol_len m Hm). lia. }
  split.
  - destruct (Aa m1 A1) as (vp & -> & Hl & _).
    destruct (reduced_exists Rmax lowest (fun c => rnd p (default 0 (vp !! c) / QcR (default 0%Qc (cellVolumes m !! c)))) e (nCells m) 0) as (mx & H1).
    destruct (reduced_exists (float_sum p) 0 (fun c => default 0 (vp !! c)) e (nCells m) 0) as (sp & H2).
    destruct (reduced_exists (float_sum p) 0 (fun c => QcR (default 0%Qc (cellVolumes m !! c))) e (nCells m) 0) as (sv & H3).
    eexists. right. exists vp. split; [done|]. right. eexists. split; [by apply Hnop|]. cbn [vf_int]. unfold co_reduce_f. rewrite decide_True by (by apply Hred).
    exists mx, sp, sv. split; [done|]. split; [done|]. split; [done|]. reflexivity.
  - intros o [[H _]|(vp & Hv & [[H _]|(phi & Hp & Hr)])]; [by apply An in H|by apply Hnop in H|].
    apply Hnop in Hp. injection Hp as ->. cbn [vf_int] in Hr. destruct (Aa _ Hv) as (vp' & [= <-] & Hl & Hc).
    unfold co_reduce_f in Hr. rewrite decide_True in Hr by (by apply Hred). destruct Hr as (mx & sp & sv & H1 & H2 & H3 & ->).
    exists vp, mx, (co_scaled p (rnd p (sp / sv)) dt), sp, sv. split; [done|]. split; [done|]. split; [done|]. split; [done|]. split; reflexivity.
Qed.

(** * C128 *)
(** The reported number is the largest exact cell Courant number up to a factor of
    (1+u)^(k+6), k being the largest number of faces of a cell; on every executor
    and under every schedule. *)
Theorem C128_courant : forall p m (flux : list R) dt lowest k, valid_topology m -> offsets_ok m -> length flux = nFaces m -> (0 < nCells m)%nat ->
  0 <= dt -> lowest < 0 ->
  (forall c, (c < nCells m)%nat -> (length (faces_around m c) <= k)%nat) -> (1 + u p) ^ (k + 6) <= 2 ->
  (forall f, (f < nFaces m)%nat -> no_underflow p (default 0 (flux !! f) * default 0 (flux !! f))) ->
  (forall c, (c < nCells m)%nat -> no_underflow p (exact_courant m flux 2 c) /\ no_underflow p (exact_courant m flux dt c)) ->
  exists C, largest (nCells m) (exact_courant m flux dt) C /\
    forall e junk bv br bf bg, length junk = nCells m ->
      (exists o, computeCoNum_f p lowest e m flux dt junk bv br bf bg o) /\
      forall o, computeCoNum_f p lowest e m flux dt junk bv br bf bg o ->
        exists co mean, o = Ok (co, mean) /\ 0 <= co /\ relative p (k + 6) co C.
Proof.
  intros p m flux dt lowest k Hm Ho Hflux Hn Hdt Hlow Hk Hw Hf Hc.
  set (q := fun c => sum_around m c (fun f => Rabs (default 0 (flux !! f))) / QcR (at0 (cellVolumes m) c)).
  assert (Eq : forall c, exact_courant m flux 2 c = q c) by (intros c; unfold exact_courant, q; lra).
  assert (Ec : forall c, exact_courant m flux dt c = dt / 2 * q c) by done.
  destruct (largest_exists (nCells m) q Hn) as (M & HM). exists (dt / 2 * M).
  assert (Hwk : forall j, (j <= k + 6)%nat -> (1 + u p) ^ j <= 2).
  { intros j Hj. eapply Rle_trans; [|exact Hw]. apply Rle_pow; [pose proof (u_pos p); lra|lia]. }
  split.
  { destruct HM as [H1 (c & Hcc & ->)]. split; [|exists c; split; [done|by rewrite Ec]]. intros d Hd. rewrite Ec. apply Rmult_le_compat_l; [lra|by apply H1]. }
  intros e junk bv br bf bg Hj. destruct (outcomes p m flux dt lowest e junk bv br bf bg Hm Ho Hflux Hj) as [Hex Hall]. split; [done|].
  intros o Hout. destruct (Hall o Hout) as (vp & mx & mean & sp & sv & Hv & Hmx & _ & _ & _ & ->). exists (co_scaled p mx dt), mean. split; [done|].
  assert (Hcell : forall c, (c < nCells m)%nat -> let y := rnd p (default 0 (vp !! c) / QcR (default 0%Qc (cellVolumes m !! c))) in 0 <= y /\ 0 <= q c /\ relative p (k + 3) y (q c)).
  { intros c Hcc. cbv zeta. destruct (Hv c Hcc) as (l & Hl & ->).
    destruct (cell_sum_relative p m flux c l k) as (Y0 & S0 & YS); [|rewrite <- (pow_1 (1 + u p)); apply Hwk; lia|by apply Hk|done|].
    { intros f Hff. apply Hf. by apply (in_around m Hm c). }
    set (y := foldl _ 0 l) in *. pose proof (QcR_pos _ (vt_vol m Hm c Hcc)) as HV.
    change (default 0%Qc (cellVolumes m !! c)) with (at0 (cellVolumes m) c). set (v := QcR (at0 (cellVolumes m) c)) in *.
    assert (Hi : 0 < / v) by (apply Rinv_0_lt_compat; exact HV).
    assert (YQ : relative p (k + 2) (y / v) (q c)). { unfold q, Rdiv. fold v. apply relative_times. { lra. } exact YS. }
    assert (Q0 : 0 <= q c) by (unfold q, Rdiv; apply Rmult_le_pos; [done|fold v; lra]). assert (YV : 0 <= y / v) by (unfold Rdiv; apply Rmult_le_pos; lra).
    destruct (Hc c Hcc) as [Hq _]. rewrite Eq in Hq. unfold no_underflow in Hq. rewrite smallest_4 in Hq. pose proof (smallest_pos p) as Hs.
    destruct (rnd_relative p (y / v)) as [R0 R1].
    { apply (stays_above p (k + 2) _ (q c)); [apply Hwk; lia|done|done|lra|]. destruct Hq as [H|H]; [by left|right; lra]. }
    split; [done|]. split; [done|]. replace (k + 3)%nat with (1 + (k + 2))%nat by lia. by eapply relative_trans. }
  apply max_reduced in Hmx; [|lra|done|intros c Hcc; by apply Hcell].
  assert (Hr : relative p (k + 3) mx M) by (eapply (largest_relative p (k + 3) (nCells m)); [|exact Hmx|exact HM]; intros c Hcc; apply (Hcell c Hcc)).
  assert (M0 : 0 <= M /\ no_underflow p M /\ no_underflow p (dt / 2 * M)).
  { destruct HM as [_ (c & Hcc & ->)]. split; [by apply Hcell|]. destruct (Hc c Hcc) as [H1 H2]. rewrite Eq in H1. by rewrite Ec in H2. }
  destruct M0 as (M0 & N1 & N2). assert (mx0 : 0 <= mx) by (destruct Hmx as [_ (c & Hcc & ->)]; by apply Hcell).
  by apply scaled_relative.
Qed.
Print Assumptions C128_courant.

(** Two executions, on whatever executors and schedules, report the same up to twice the power. *)
Theorem C128_executors : forall p m (flux : list R) dt lowest k, valid_topology m -> offsets_ok m -> length flux = nFaces m -> (0 < nCells m)%nat ->
  0 <= dt -> lowest < 0 ->
  (forall c, (c < nCells m)%nat -> (length (faces_around m c) <= k)%nat) -> (1 + u p) ^ (k + 6) <= 2 ->
  (forall f, (f < nFaces m)%nat -> no_underflow p (default 0 (flux !! f) * default 0 (flux !! f))) ->
  (forall c, (c < nCells m)%nat -> no_underflow p (exact_courant m flux 2 c) /\ no_underflow p (exact_courant m flux dt c)) ->
  forall e e' junk junk' bv br bf bg bv' br' bf' bg' co mean co' mean', length junk = nCells m -> length junk' = nCells m ->
    computeCoNum_f p lowest e m flux dt junk bv br bf bg (Ok (co, mean)) ->
    computeCoNum_f p lowest e' m flux dt junk' bv' br' bf' bg' (Ok (co', mean')) ->
    relative p (2 * (k + 6)) co co'.
Proof.
  intros p m flux dt lowest k Hm Ho Hflux Hn Hdt Hlow Hk Hw Hf Hc e e' junk junk' bv br bf bg bv' br' bf' bg' co mean co' mean' Hj Hj' H H'.
  destruct (C128_courant p m flux dt lowest k Hm Ho Hflux Hn Hdt Hlow Hk Hw Hf Hc) as (C & _ & HC).
  destruct (HC e junk bv br bf bg Hj) as [_ H1]. destruct (H1 _ H) as (a & b & [= <- <-] & _ & R1).
  destruct (HC e' junk' bv' br' bf' bg' Hj') as [_ H2]. destruct (H2 _ H') as (a' & b' & [= <- <-] & _ & R2).
  replace (2 * (k + 6))%nat with ((k + 6) + (k + 6))%nat by lia. eapply relative_trans; [exact R1|by apply relative_sym].
Qed.
Print Assumptions C128_executors.

(** A reported number a little below 1 certifies the stability limit of explicit
    convection in every cell. *)
Theorem C128_limit : forall p m (flux : list R) dt lowest k, valid_topology m -> offsets_ok m -> length flux = nFaces m -> (0 < nCells m)%nat ->
  0 <= dt -> lowest < 0 ->
  (forall c, (c < nCells m)%nat -> (length (faces_around m c) <= k)%nat) -> (1 + u p) ^ (k + 6) <= 2 ->
  (forall f, (f < nFaces m)%nat -> no_underflow p (default 0 (flux !! f) * default 0 (flux !! f))) ->
  (forall c, (c < nCells m)%nat -> no_underflow p (exact_courant m flux 2 c) /\ no_underflow p (exact_courant m flux dt c)) ->
  forall e junk bv br bf bg co mean, length junk = nCells m ->
    computeCoNum_f p lowest e m flux dt junk bv br bf bg (Ok (co, mean)) -> co * (1 + u p) ^ (k + 6) <= 1 ->
    forall c, (c < nCells m)%nat -> exact_courant m flux dt c <= 1.
Proof.
  intros p m flux dt lowest k Hm Ho Hflux Hn Hdt Hlow Hk Hw Hf Hc e junk bv br bf bg co mean Hj H Hco c Hcc.
  destruct (C128_courant p m flux dt lowest k Hm Ho Hflux Hn Hdt Hlow Hk Hw Hf Hc) as (C & [HC1 _] & HC).
  destruct (HC e junk bv br bf bg Hj) as [_ H1]. destruct (H1 _ H) as (a & b & [= <- <-] & _ & [_ R2]).
  pose proof (HC1 c Hcc). lra.
Qed.
Print Assumptions C128_limit.

(** ** The logged mean *)
Lemma relative_div p j k a b c d : 0 <= a -> 0 <= c -> 0 < b -> 0 < d -> relative p j a c -> relative p k b d -> relative p (j + k) (a / b) (c / d).
Proof.
  intros Ha Hc Hb Hd Hr [B1 B2].
  assert (Hi : relative p k (/ b) (/ d)).
  { pose proof (w_pos p k) as Hw. set (w := (1 + u p) ^ k) in *. unfold relative. fold w.
    assert (P : 0 < / b) by (by apply Rinv_0_lt_compat). assert (Q : 0 < / d) by (by apply Rinv_0_lt_compat).
    split; [apply (Rmult_le_reg_r (b * d)); [nra|]; replace (/ b * (b * d)) with d by (field; lra); replace (/ d * w * (b * d)) with (b * w) by (field; lra); lra|].
    apply (Rmult_le_reg_r (b * d)); [nra|]. replace (/ d * (b * d)) with b by (field; lra). replace (/ b * w * (b * d)) with (d * w) by (field; lra). lra. }
  unfold Rdiv. apply (relative_trans p j k _ (c * / b)).
  - apply relative_times; [apply Rlt_le; by apply Rinv_0_lt_compat|done].
  - rewrite !(Rmult_comm c). by apply relative_times.
Qed.
Lemma sum_reduced p contrib e n x : (forall i, (i < n)%nat -> scalar_format p (contrib i) /\ 0 <= contrib i) ->
  parallelReduce (float_sum p) 0 contrib e 0 n 0 x -> 0 <= x /\ relative p n x (sumR (map contrib (seq 0 n))).
Proof.
  intros Hc Hr.
  assert (F : forall is a, (forall i, i ∈ is -> scalar_format p (contrib i) /\ 0 <= contrib i) -> scalar_format p a -> 0 <= a ->
    let y := fold_left (fun acc i => reduce_kernel (float_sum p) contrib i acc) is a in
    scalar_format p y /\ 0 <= y /\ relative p (length is) y (a + sumR (map contrib is))).
  { induction is as [|i is IH]; intros a Hi Fa Ha; cbv zeta.
    - cbn. rewrite Rplus_0_r. split; [done|]. split; [done|apply relative_refl].
    - destruct (Hi i ltac:(by left)) as [Fi Hi0]. cbn [fold_left map length]. change (reduce_kernel (float_sum p) contrib i a) with (rnd p (a + contrib i)).
      destruct (rnd_add_relative p a (contrib i) Fa Fi Ha Hi0) as [R0 R1].
      destruct (IH (rnd p (a + contrib i))) as (S1 & S2 & S3); [intros j Hj; apply Hi; by right|apply format_rnd|done|].
      split; [done|]. split; [done|]. replace (S (length is)) with (length is + 1)%nat by lia. eapply relative_trans; [exact S3|].
      change (sumR (contrib i :: map contrib is)) with (contrib i + sumR (map contrib is)). rewrite <- Rplus_assoc.
      assert (P : 0 <= sumR (map contrib is)).
      { apply sumR_nonneg, Forall_forall. intros z Hz. apply elem_of_list_fmap in Hz as (j & -> & Hj). apply Hi. by right. }
      apply relative_plus; [done|]. apply (relative_mono p 0); [done|done|lia|apply relative_refl]. }
  assert (J : forall t, (forall i, i ∈ jindices t -> scalar_format p (contrib i) /\ 0 <= contrib i) ->
    let y := jeval (float_sum p) 0 contrib t in
    (jindices t = [] -> y = 0) /\ scalar_format p y /\ 0 <= y /\ relative p (length (jindices t)) y (sumR (map contrib (jindices t)))).
  { induction t as [is|l IHl r IHr]; intros Hi; cbv zeta; cbn [jindices jeval] in *.
    - destruct (F is 0 Hi (format_0 p) (Rle_refl 0)) as (S1 & S2 & S3). rewrite Rplus_0_l in S3. split; [by intros ->|]. done.
    - destruct IHl as (L0 & L1 & L2 & L3); [intros i Hx; apply Hi, elem_of_app; by left|]. destruct IHr as (R0 & R1 & R2 & R3); [intros i Hx; apply Hi, elem_of_app; by right|].
      set (a := jeval _ _ _ l) in *. set (b := jeval _ _ _ r) in *. change (float_sum p a b) with (rnd p (a + b)).
      destruct (rnd_add_relative p a b L1 R1 L2 R2) as [Q0 Q1].
      split. { intros [E1 E2]%app_eq_nil. rewrite L0, R0 by done. rewrite Rplus_0_l. apply (rnd_format p 0 (format_0 p)). }
      split; [apply format_rnd|]. split; [done|].
      assert (Pn : forall t', (forall i, i ∈ jindices t' -> scalar_format p (contrib i) /\ 0 <= contrib i) -> 0 <= sumR (map contrib (jindices t'))).
      { intros t' Ht. apply sumR_nonneg, Forall_forall. intros z Hz. apply elem_of_list_fmap in Hz as (j & -> & Hj). by apply Ht. }
      assert (PL := Pn l (fun i Hx => Hi i (proj2 (elem_of_app _ _ _) (or_introl Hx)))). assert (PR := Pn r (fun i Hx => Hi i (proj2 (elem_of_app _ _ _) (or_intror Hx)))).
      rewrite map_app, sumR_app, app_length.
      destruct (jindices l) as [|il nl] eqn:El.
      + rewrite (L0 eq_refl) in *. rewrite Rplus_0_l, (rnd_format p b R1). cbn [map length Nat.add]. change (sumR []) with 0. by rewrite Rplus_0_l.
      + destruct (jindices r) as [|ir nr] eqn:Er.
        * rewrite (R0 eq_refl) in *. rewrite Rplus_0_r, (rnd_format p a L1). rewrite Nat.add_0_r. change (sumR (map contrib [])) with 0. by rewrite Rplus_0_r.
        * cbn [length] in L3, R3 |- *. replace (S (length nl) + S (length nr))%nat with (1 + (length nl + S (length nr)))%nat by lia.
          eapply relative_trans; [exact Q1|]. apply relative_plus; [apply (relative_mono p (S (length nl))); [done|done|lia|done]|apply (relative_mono p (S (length nr))); [done|done|lia|done]]. }
  assert (K : reduce_kokkos (float_sum p) 0 contrib 0 n x -> 0 <= x /\ relative p n x (sumR (map contrib (seq 0 n)))).
  { intros (t & Ht & ->). rewrite Nat.sub_0_r in Ht. destruct (J t) as (_ & _ & J2 & J3).
    { intros i Hi. apply Hc. rewrite Ht in Hi. apply elem_of_seq in Hi. lia. }
    split; [done|]. rewrite (Permutation_length Ht), seq_length in J3. rewrite (sumR_perm _ _ (Permutation_map contrib Ht)) in J3. exact J3. }
  destruct e; [|by apply K|by apply K]. cbn in Hr. subst x. unfold reduce_serial. rewrite Nat.sub_0_r.
  destruct (F (seq 0 n) 0) as (_ & S2 & S3); [intros i Hi%elem_of_seq; apply Hc; lia|apply format_0|lra|].
  rewrite seq_length, Rplus_0_l in S3. done.
Qed.
(** Exact mean Courant number: the domain average of C50. *)
Definition exact_mean (m : mesh) (flux : list R) (dt : R) : R :=
  dt / 2 * (sumR (map (fun c => sum_around m c (fun f => Rabs (default 0 (flux !! f)))) (seq 0 (nCells m))) /
            sumR (map (fun c => QcR (at0 (cellVolumes m) c)) (seq 0 (nCells m)))).
(** The logged mean: the sums over all cells add a factor (1+u)^n each. *)
Theorem C128_mean : forall p m (flux : list R) dt lowest k, valid_topology m -> offsets_ok m -> length flux = nFaces m -> (0 < nCells m)%nat ->
  0 <= dt -> scalars p (cellVolumes m) ->
  (forall c, (c < nCells m)%nat -> (length (faces_around m c) <= k)%nat) -> (1 + u p) ^ (k + 2 * nCells m + 6) <= 2 ->
  (forall f, (f < nFaces m)%nat -> no_underflow p (default 0 (flux !! f) * default 0 (flux !! f))) ->
  no_underflow p (exact_mean m flux 2) -> no_underflow p (exact_mean m flux dt) ->
  forall e junk bv br bf bg co mean, length junk = nCells m ->
    computeCoNum_f p lowest e m flux dt junk bv br bf bg (Ok (co, mean)) ->
    0 <= mean /\ relative p (k + 2 * nCells m + 6) mean (exact_mean m flux dt).
Proof.
  intros p m flux dt lowest k Hm Ho Hflux Hn Hdt HVf Hk Hw Hf N1 N2 e junk bv br bf bg co mean Hj H.
  destruct (outcomes p m flux dt lowest e junk bv br bf bg Hm Ho Hflux Hj) as [_ Hall].
  destruct (Hall _ H) as (vp & mx & mean' & sp & sv & Hv & _ & Hsp & Hsv & Hmean & [= -> ->]). subst mean'. set (n := nCells m) in *.
  assert (Hwk : forall j, (j <= k + 2 * n + 6)%nat -> (1 + u p) ^ j <= 2).
  { intros j Hjk. eapply Rle_trans; [|exact Hw]. apply Rle_pow; [pose proof (u_pos p); lra|lia]. }
  set (through := fun c => sum_around m c (fun f => Rabs (default 0 (flux !! f)))) in *.
  assert (Hcell : forall c, (c < n)%nat -> scalar_format p (default 0 (vp !! c)) /\ 0 <= default 0 (vp !! c) /\ 0 <= through c /\ relative p (k + 2) (default 0 (vp !! c)) (through c)).
  { intros c Hcc. destruct (Hv c Hcc) as (l & Hl & ->). split.
    { apply foldl_format_list. rewrite Hl. apply Forall_forall. intros x Hx. apply elem_of_list_fmap in Hx as (f & -> & _). apply format_rnd. }
    apply (cell_sum_relative p m flux c l k); [|rewrite <- (pow_1 (1 + u p)); apply Hwk; lia|by apply Hk|done].
    intros f Hff. apply Hf. by apply (in_around m Hm c). }
  assert (Hvol : forall c, (c < n)%nat -> scalar_format p (QcR (default 0%Qc (cellVolumes m !! c))) /\ 0 < QcR (default 0%Qc (cellVolumes m !! c))).
  { intros c Hcc. split; [|exact (QcR_pos _ (vt_vol m Hm c Hcc))].
    destruct (lookup_lt_is_Some_2 (cellVolumes m) c) as [v Ev]; [rewrite (vt_vol_len m Hm); exact Hcc|]. rewrite Ev. exact (Forall_lookup_1 _ _ _ _ HVf Ev). }
  destruct (sum_reduced p _ e n sp (fun c Hcc => conj (proj1 (Hcell c Hcc)) (proj1 (proj2 (Hcell c Hcc)))) Hsp) as [P0 P1].
  destruct (sum_reduced p _ e n sv (fun c Hcc => conj (proj1 (Hvol c Hcc)) (Rlt_le _ _ (proj2 (Hvol c Hcc)))) Hsv) as [V0 V1].
  set (T := sumR (map through (seq 0 n))). set (W := sumR (map (fun c => QcR (at0 (cellVolumes m) c)) (seq 0 n))) in *.
  change (relative p n sv W) in V1.
  assert (T0 : 0 <= T).
  { apply sumR_nonneg, Forall_forall. intros z Hz. apply elem_of_list_fmap in Hz as (c & -> & Hcc%elem_of_seq). apply Hcell. lia. }
  assert (P2 : relative p (n + (k + 2)) sp T).
  { eapply relative_trans; [exact P1|]. apply sum_map_relative. intros c Hcc%elem_of_seq. apply Hcell. lia. }
  assert (W0 : 0 < W).
  { unfold W. destruct n as [|n']; [lia|]. cbn [seq map]. change (0 < QcR (at0 (cellVolumes m) 0) + sumR (map (fun c => QcR (at0 (cellVolumes m) c)) (seq 1 n'))).
    pose proof (proj2 (Hvol 0%nat ltac:(lia))) as Q0. change (0 < QcR (at0 (cellVolumes m) 0)) in Q0.
    assert (0 <= sumR (map (fun c => QcR (at0 (cellVolumes m) c)) (seq 1 n'))); [|lra].
    apply sumR_nonneg, Forall_forall. intros z Hz. apply elem_of_list_fmap in Hz as (c & -> & Hcc%elem_of_seq). apply Rlt_le. exact (proj2 (Hvol c ltac:(lia))). }
  assert (S0 : 0 < sv).
  { destruct V1 as [_ V1]. pose proof (w_pos p n). destruct V0 as [V0|V0]; [done|]. rewrite <- V0, Rmult_0_l in V1. lra. }
  assert (Em : forall d, exact_mean m flux d = d / 2 * (T / W)) by done. rewrite Em in N1, N2 |- *. replace (2 / 2 * (T / W)) with (T / W) in N1 by lra.
  assert (Q : relative p (k + 2 * n + 2) (sp / sv) (T / W)).
  { replace (k + 2 * n + 2)%nat with (n + (k + 2) + n)%nat by lia. by apply relative_div. }
  assert (Q0 : 0 <= sp / sv). { unfold Rdiv. apply Rmult_le_pos; [exact P0|]. apply Rlt_le, Rinv_0_lt_compat. exact S0. }
  assert (R0 : 0 <= T / W). { unfold Rdiv. apply Rmult_le_pos; [exact T0|]. apply Rlt_le, Rinv_0_lt_compat. exact W0. }
  destruct (rnd_relative p (sp / sv)) as [A0 A1].
  { unfold no_underflow in N1. rewrite smallest_4 in N1. pose proof (smallest_pos p) as Hs.
    apply (stays_above p (k + 2 * n + 2) _ (T / W)); [apply Hwk; lia|done|done|lra|]. destruct N1 as [N|N]; [by left|right; lra]. }
  apply scaled_relative; try done. replace (k + 2 * n + 3)%nat with (1 + (k + 2 * n + 2))%nat by lia. by eapply relative_trans.
Qed.
Print Assumptions C128_mean.

Lemma rnd_small p x : 0 <= x < eta p -> rnd p x = 0.
Proof.
  intros [H0 H1]. destruct (round_N_pt radix2 (FLT_exp (emin p) (digits p)) (fun z => negb (Z.even z)) x) as [F H]. fold (rnd p x) in F, H.
  specialize (H 0 (format_0 p)). rewrite Rminus_0_l, Rabs_Ropp, (Rabs_pos_eq x) in H by lra. change (round _ _ _ x) with (rnd p x) in *.
  assert (Hr : 0 <= rnd p x). { rewrite <- (rnd_format p 0 (format_0 p)). apply round_le; [typeclasses eauto..|done]. }
  destruct Hr as [Hr|Hr]; [|done]. exfalso.
  assert (G : bpow radix2 (emin p) <= rnd p x).
  { apply (generic_format_ge_bpow radix2 (FLT_exp (emin p) (digits p))); [|done|exact F]. intros e. unfold FLT_exp. lia. }
  unfold eta in H1. apply Rabs_le_inv in H. lra.
Qed.
(** Fluxes whose squares are below half the smallest positive number do not count at all. *)
Theorem C128_underflow : forall p m (flux : list R) dt lowest e junk bv br bf bg co mean, valid_topology m -> offsets_ok m ->
  length flux = nFaces m -> (0 < nCells m)%nat -> lowest < 0 -> length junk = nCells m ->
  (forall f, (f < nFaces m)%nat -> default 0 (flux !! f) * default 0 (flux !! f) < eta p) ->
  computeCoNum_f p lowest e m flux dt junk bv br bf bg (Ok (co, mean)) -> co = 0.
Proof.
  intros p m flux dt lowest e junk bv br bf bg co mean Hm Ho Hflux Hn Hlow Hj Hf H.
  destruct (outcomes p m flux dt lowest e junk bv br bf bg Hm Ho Hflux Hj) as [_ Hall].
  destruct (Hall _ H) as (vp & mx & mean' & sp & sv & Hv & Hmx & _ & _ & _ & [= -> ->]).
  assert (R0 : rnd p 0 = 0) by apply (rnd_format p 0 (format_0 p)). assert (D0 : rnd Double 0 = 0) by apply (rnd_format Double 0 (format_0 Double)).
  assert (Hz : forall c, (c < nCells m)%nat -> rnd p (default 0 (vp !! c) / QcR (default 0%Qc (cellVolumes m !! c))) = 0).
  { intros c Hcc. destruct (Hv c Hcc) as (l & Hl & ->).
    assert (Hl0 : Forall (fun x => x = 0) l).
    { rewrite Hl. apply Forall_forall. intros x Hx. apply elem_of_list_fmap in Hx as (f & -> & Hff). unfold co_root. rewrite (rnd_small p (_ * _)), sqrt_0; [exact R0|].
      split; [nra|]. apply Hf. by apply (in_around m Hm c). }
    assert (E : foldl (vadd (ValueType := scalar_value p)) 0 l = 0).
    { clear -Hl0 R0. induction Hl0 as [|x l -> _ IH]; [done|]. cbn [foldl]. unfold vadd at 2, scalar_value at 2. by rewrite Rplus_0_l, R0. }
    rewrite E. unfold Rdiv. by rewrite Rmult_0_l. }
  apply max_reduced in Hmx; [|lra|done|intros c Hcc; rewrite Hz by done; lra]. destruct Hmx as [_ (c & Hcc & ->)]. rewrite Hz by done.
  unfold co_scaled. by rewrite Rmult_0_l, D0, Rmult_0_l, D0.
Qed.
Print Assumptions C128_underflow.

(** The exact number is that of C50. *)
Lemma QcR_div a b : (0 < b)%Qc -> QcR (a / b)%Qc = QcR a / QcR b.
Proof. intros H. replace (a / b)%Qc with (a * (1 / b))%Qc by (unfold Qcdiv; ring). rewrite QcR_mult, QcR_inv by done. done. Qed.
Theorem C128_exact : forall m (flux : list Qc) dt c, valid_topology m -> (c < nCells m)%nat ->
  exact_courant m (map QcR flux) (QcR dt) c = QcR (Properties_CoNum.cell_courant m flux dt c).
Proof.
  intros m flux dt c Hm Hc. unfold exact_courant, Properties_CoNum.cell_courant.
  rewrite QcR_mult, !QcR_div by (try apply (vt_vol m Hm c Hc); reflexivity). rewrite <- (signed_through m flux c (fun _ => 0)).
  assert (E2 : QcR (Q2Qc 2) = 2) by (unfold QcR; change (2 / 1 = 2); field). rewrite E2. f_equal. f_equal.
  unfold sum_around, sumaa, signed, faces_around. rewrite !map_app, !sumR_app, !map_map. cbn [fst].
  assert (Ev : forall f, default 0 (map QcR flux !! f) = QcR (at0 flux f)).
  { intros f. change (map QcR flux) with (QcR <$> flux). rewrite list_lookup_fmap. unfold at0. destruct (flux !! f); [done|]. cbn. by rewrite QcR_0. }
  f_equal; [|f_equal]; f_equal; apply map_ext; intros f; rewrite Ev; [done|by rewrite Rabs_Ropp|done].
Qed.
Print Assumptions C128_exact.

(** ** Cases *)
Lemma fork3_offsets : offsets_ok fork3.
Proof. split; try done. intros [|[|i]] Hi; simpl in Hi; try lia; vm_compute; lia. Qed.
Lemma u_small p : u p <= / 1000.
Proof.
  eapply (Rle_trans _ (/ 2 ^ 24)); [destruct p; unfold u; [lra|]; apply Rinv_le_contravar; [apply pow_lt; lra|apply Rle_pow; [lra|lia]]|].
  apply Rinv_le_contravar; lra.
Qed.
Lemma int_no_underflow p x : 1 <= x -> no_underflow p x.
Proof. intros Hx. right. eapply Rle_trans; [|exact Hx]. change 1 with (bpow radix2 0). apply bpow_le. destruct p; cbn; lia. Qed.
Lemma fork3_courant (a dt : R) c : (c < 3)%nat -> 0 <= a -> exact_courant fork3 [a; a; a; a] dt c = dt * a.
Proof.
  intros Hc Ha. unfold exact_courant. destruct (around_3 c (fun f => Rabs (default 0 ([a; a; a; a] !! f))) a Hc) as [-> _].
  - intros f Hf. destruct f as [|[|[|[|f]]]]; [cbn; by apply Rabs_pos_eq..|lia].
  - assert (at0 (cellVolumes fork3) c = 1%Qc) as -> by (destruct c as [|[|[|c]]]; done || lia). rewrite QcR_1. field.
Qed.
(** Three cells, two faces each, flux 3 everywhere, time step 1/2: Courant number 3/2. *)
Example C128_instance : forall p, valid_topology fork3 /\ offsets_ok fork3 /\
  (forall c, (c < nCells fork3)%nat -> (length (faces_around fork3 c) <= 2)%nat) /\ (1 + u p) ^ (2 + 6) <= 2 /\
  (forall f, (f < nFaces fork3)%nat -> no_underflow p (default 0 ([3; 3; 3; 3] !! f) * default 0 ([3; 3; 3; 3] !! f))) /\
  (forall c, (c < nCells fork3)%nat -> no_underflow p (exact_courant fork3 [3; 3; 3; 3] 2 c) /\ no_underflow p (exact_courant fork3 [3; 3; 3; 3] (/ 2) c)) /\
  largest (nCells fork3) (exact_courant fork3 [3; 3; 3; 3] (/ 2)) (3 / 2).
Proof.
  intros p. split; [apply fork3_topology|]. split; [apply fork3_offsets|]. split; [intros c Hc; by rewrite (proj2 (around_3 c (fun _ => 0) 0 Hc (fun _ _ => eq_refl)))|].
  split.
  { pose proof (u_pos p) as H0. pose proof (u_small p) as H1. destruct (powers_small (u p)) as (_ & _ & _ & H9); [lra|].
    assert ((1 + u p) ^ (2 + 6) <= (1 + u p) ^ 9) by (apply Rle_pow; [lra|lia]). lra. }
  split; [intros f Hf; destruct f as [|[|[|[|f]]]]; [cbn; apply int_no_underflow; lra..|cbn in Hf; lia]|].
  split.
  - intros c Hc. rewrite !fork3_courant by (done || lra). split; apply int_no_underflow; lra.
  - split; [intros c Hc; rewrite fork3_courant by (done || lra); lra|]. exists 0%nat. split; [cbn; lia|]. rewrite fork3_courant by (lia || lra). field.
Qed.
(** Tiny fluxes: whatever the exact Courant number B of all cells is, 0 is reported. *)
Example C128_underflow_instance : forall p B, let x := bpow radix2 (emin p) in 0 < x /\ x * x < eta p /\
  (forall c, (c < nCells fork3)%nat -> exact_courant fork3 [x; x; x; x] (B / x) c = B).
Proof.
  intros p B x. assert (Hx : 0 < x) by apply bpow_gt_0. split; [done|]. split.
  - unfold eta. fold x. assert (x <= / 4); [|nra]. change (/ 4) with (bpow radix2 (-2)). apply bpow_le. destruct p; cbn; lia.
  - intros c Hc. rewrite fork3_courant by (done || lra). field. lra.
Qed.
Lemma fork3_mean (a dt : R) : 0 <= a -> exact_mean fork3 [a; a; a; a] dt = dt * a.
Proof.
  intros Ha. unfold exact_mean. change (nCells fork3) with 3%nat. cbn [seq map sumR].
  assert (Hf : forall f, (f < 4)%nat -> Rabs (default 0 ([a; a; a; a] !! f)) = a).
  { intros f Hf. destruct f as [|[|[|[|f]]]]; [cbn; by apply Rabs_pos_eq..|lia]. }
  assert (E : forall c, (c < 3)%nat -> sum_around fork3 c (fun f => Rabs (default 0 ([a; a; a; a] !! f))) = a + a).
  { intros c Hc. rewrite (proj1 (around_3 c _ a Hc Hf)). ring. }
  unfold sumR. cbn [foldr fold_right]. rewrite !E by lia.
  assert (V : forall c, (c < 3)%nat -> QcR (at0 (cellVolumes fork3) c) = 1) by (intros [|[|[|c]]] Hc; try lia; apply QcR_1).
  rewrite !V by lia. field.
Qed.
(** The same mesh: mean Courant number 3/2. *)
Example C128_mean_instance : forall p, (0 < nCells fork3)%nat /\ scalars p (cellVolumes fork3) /\
  (1 + u p) ^ (2 + 2 * nCells fork3 + 6) <= 2 /\
  no_underflow p (exact_mean fork3 [3; 3; 3; 3] 2) /\ no_underflow p (exact_mean fork3 [3; 3; 3; 3] (/ 2)) /\
  exact_mean fork3 [3; 3; 3; 3] (/ 2) = 3 / 2.
Proof.
  intros p. rewrite !fork3_mean by lra. split; [cbn; lia|]. split.
  { unfold scalars. change (cellVolumes fork3) with [1%Qc; 1%Qc; 1%Qc].
    assert (F : scalar_format p (QcR 1)) by (rewrite QcR_1; change 1 with (bpow radix2 0); apply generic_format_bpow; destruct p; cbn; unfold FLT_exp; lia).
    repeat constructor; exact F. }
  split.
  { change (nCells fork3) with 3%nat. pose proof (u_pos p) as H0. pose proof (u_small p) as H1. destruct (powers_small (u p)) as (_ & _ & _ & H9); [lra|].
    replace (2 + 2 * 3 + 6)%nat with (9 + 5)%nat by lia. rewrite pow_add.
    assert (0 <= (1 + u p) ^ 9) by (apply pow_le; lra). assert ((1 + u p) ^ 5 <= (1 + u p) ^ 9) by (apply Rle_pow; [lra|lia]).
    assert (0 <= (1 + u p) ^ 5) by (apply pow_le; lra). nra. }
  split; [apply int_no_underflow; lra|]. split; [apply int_no_underflow; lra|lra].
Qed.
