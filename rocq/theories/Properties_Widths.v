(** C111: up to which sizes the integer types suffice. *)
From stdpp Require Import list.
From Verif Require Import Base Reduce ReduceProofs Widths.
Local Open Scope Z_scope.

Section scan.
  Context (w : Z) (Hw : 0 < w).
  Notation M := (2 ^ w).
  Lemma Mpos : 0 < M. Proof using Hw. apply Z.pow_pos_nonneg; lia. Qed.
  Definition red (n : nat) : Z := Z.of_nat n mod M.

  Lemma wadd_red a v : wadd w (red a) (Z.of_nat v) = red (a + v).
  Proof using Hw. unfold wadd, red. pose proof Mpos. rewrite Z.add_mod_idemp_l by lia. f_equal. lia. Qed.
  Lemma wadd_red2 a b : wadd w (red a) (red b) = red (a + b).
  Proof using Hw. unfold wadd, red. pose proof Mpos. rewrite <- Z.add_mod by lia. f_equal. lia. Qed.
  Lemma wsum_red l : wsum w (map red l) = red (sum_list l).
  Proof using Hw.
    induction l as [|a l IH]; [unfold red; cbn; rewrite Z.mod_0_l; [done|pose proof Mpos; lia]|].
    cbn [map wsum foldr sum_list]. fold (wsum w (map red l)). rewrite IH. apply wadd_red2.
  Qed.

  Notation ints l := (map Z.of_nat l).
  Notation reds l := (map red l).

  Lemma chunk_red inp final is : forall u offs,
    wscan_chunk w (ints inp) final is (red u, reds offs) =
    match scan_chunk inp final is (u, offs) with Some (u', o') => Some (red u', reds o') | None => None end.
  Proof using Hw.
    induction is as [|i is IH]; intros u offs; [done|]. cbn [wscan_chunk scan_chunk]. unfold wscan_kernel, scan_kernel.
    rewrite list_lookup_fmap. destruct (inp !! i) as [v|]; [|done]. cbn [fmap option_fmap option_map].
    rewrite wadd_red. destruct final; [|apply IH].
    rewrite list_lookup_fmap. destruct (offs !! i); [|done]. cbn [fmap option_fmap option_map].
    change (map red offs) with (red <$> offs). rewrite <- list_fmap_insert. apply IH.
  Qed.
  Lemma totals_red inp chunks offs :
    wchunk_totals w (ints inp) chunks (reds offs) =
    match chunk_totals inp chunks offs with Some ts => Some (reds ts) | None => None end.
  Proof using Hw.
    induction chunks as [|c cs IH]; [done|]. cbn [wchunk_totals chunk_totals].
    assert (red 0 = 0) as E0 by (unfold red; rewrite Z.mod_0_l; [done|pose proof Mpos; lia]).
    rewrite <- E0 at 1. rewrite chunk_red, IH. destruct (scan_chunk inp false c (0%nat, offs)) as [[t o]|]; [|done].
    by destruct (chunk_totals inp cs offs).
  Qed.
  Lemma pass2_red inp chunks ts order : forall offs,
    wscan_pass2 w (ints inp) chunks (reds ts) order (reds offs) =
    match scan_pass2 inp chunks ts order offs with Some o => Some (reds o) | None => None end.
  Proof using Hw.
    induction order as [|k order IH]; intros offs; [done|]. cbn [wscan_pass2 scan_pass2].
    destruct (chunks !! k) as [c|]; [|done].
    rewrite <- fmap_take, wsum_red, chunk_red.
    destruct (scan_chunk inp true c (sum_list (take k ts), offs)) as [[t o]|]; [|done]. apply IH.
  Qed.
  Lemma wseg_ok intervals chunks order : scan_plan (length intervals) chunks order ->
    exists offs, wsegmentedField w (ints intervals) chunks order = Ok (red (sum_list intervals), offs) /\
      forall k, (k <= length intervals)%nat -> offs !! k = Some (red (sum_list (take k intervals))).
  Proof using Hw.
    intros Hp. unfold wsegmentedField, wscan.
    assert (red 0 = 0) as E0 by (unfold red; rewrite Z.mod_0_l; [done|pose proof Mpos; lia]).
    assert (replicate (length (ints intervals)) 0 = reds (replicate (length intervals) 0%nat)) as Er.
    { rewrite map_length. change (map red ?l) with (red <$> l). by rewrite fmap_replicate, E0. }
    rewrite Er, totals_red.
    destruct (kokkos_scan_ok intervals (replicate (length intervals) 0%nat) chunks order Hp) as (offs & Hs & Hl & Ho);
      [by rewrite replicate_length|].
    unfold kokkos_scan in Hs. destruct (chunk_totals intervals chunks _) as [ts|]; [|done].
    rewrite pass2_red. destruct (scan_pass2 intervals chunks ts order _) as [o|]; [|done].
    injection Hs as Ht <-. rewrite wsum_red, Ht. eexists. split; [reflexivity|].
    intros [|k] Hk; [change (sum_list (take 0 intervals)) with 0%nat; by rewrite E0|].
    transitivity ((red <$> o) !! k); [done|]. rewrite list_lookup_fmap, Ho by lia. done.
  Qed.
End scan.

(** ** Segment offsets *)
(** Segment lengths summed in localIdx of [w] bits: number of values and offsets
    are the exact ones modulo 2^w, whatever the chunks and their order; all of
    them are exact iff the total is below 2^w. *)
Theorem C111_segments : forall (w : Z) (intervals : list nat) chunks order,
  0 < w -> scan_plan (length intervals) chunks order ->
  exists total offs,
    wsegmentedField w (map Z.of_nat intervals) chunks order = Ok (total, offs) /\
    total = Z.of_nat (sum_list intervals) mod 2 ^ w /\
    (forall k, (k <= length intervals)%nat -> offs !! k = Some (Z.of_nat (sum_list (take k intervals)) mod 2 ^ w)) /\
    ((total = Z.of_nat (sum_list intervals) /\
      forall k, (k <= length intervals)%nat -> offs !! k = Some (Z.of_nat (sum_list (take k intervals))))
     <-> Z.of_nat (sum_list intervals) < 2 ^ w).
Proof.
  intros w intervals chunks order Hw Hp. destruct (wseg_ok w Hw intervals chunks order Hp) as (offs & Hs & Ho).
  pose proof (Mpos w Hw) as HM.
  exists (red w (sum_list intervals)), offs. split; [done|]. split; [done|]. split; [done|]. split.
  - intros [Ht _]. rewrite <- Ht. apply Z.mod_pos_bound. lia.
  - intros Hlt. split; [apply Z.mod_small; lia|]. intros k Hk. rewrite Ho by done. f_equal. apply Z.mod_small. split; [lia|].
    assert (sum_list (take k intervals) <= sum_list intervals)%nat; [|lia].
    rewrite <- (take_drop k intervals) at 2. rewrite sum_list_with_app || rewrite sum_list_app. lia.
Qed.
Print Assumptions C111_segments.

Lemma to_signed_small w z : 0 < w -> - 2 ^ (w - 1) <= z < 2 ^ (w - 1) -> to_signed w z = z.
Proof.
  intros Hw Hz. unfold to_signed. assert (2 ^ w = 2 * 2 ^ (w - 1)) as E by (rewrite <- Z.pow_succ_r by lia; f_equal; lia).
  rewrite Z.mod_small by lia. lia.
Qed.
Lemma to_signed_range w z : 0 < w -> - 2 ^ (w - 1) <= to_signed w z < 2 ^ (w - 1).
Proof.
  intros Hw. unfold to_signed. assert (2 ^ w = 2 * 2 ^ (w - 1)) as E by (rewrite <- Z.pow_succ_r by lia; f_equal; lia).
  assert (0 < 2 ^ (w - 1)) by (apply Z.pow_pos_nonneg; lia).
  pose proof (Z.mod_pos_bound (z + 2 ^ (w - 1)) (2 ^ w) ltac:(lia)). lia.
Qed.
Lemma size_t_small z : 0 <= z < 2 ^ 64 -> size_t_of z = z.
Proof. intros H. by apply Z.mod_small. Qed.

(** ** The uniform mesh *)
(** All labels of the mesh of [n] cells, read back as indices, are the intended
    ones iff n < 2^31 - also when labels have 64 bits. *)
Definition labels_right (w n : Z) : Prop :=
  (forall i, 0 <= i < n - 1 -> size_t_of (owner_label w i) = i /\ size_t_of (neighbour_label w i) = i + 1) /\
  last_owner_label w n = Ok (n - 1) /\ last_face_cell w n = Ok (n - 1).
Theorem C111_mesh_labels : forall w n : Z, (w = 32 \/ w = 64) -> 1 <= n < 2 ^ 64 ->
  (labels_right w n <-> n < 2 ^ 31).
Proof.
  intros w n Hw Hn. split.
  - intros (_ & _ & H). unfold last_face_cell, signed_result in H.
    destruct ((- 2 ^ (32 - 1) <=? to_signed 32 n - 1) && (to_signed 32 n - 1 <? 2 ^ (32 - 1))) eqn:E; [|done].
    apply andb_true_iff in E as [E1 E2]. apply Z.leb_le in E1. apply Z.ltb_lt in E2. cbn in H.
    pose proof (to_signed_range 32 n ltac:(lia)) as Hr. change (2 ^ (32 - 1)) with (2 ^ 31) in *.
    assert (to_signed w (to_signed 32 n - 1) = to_signed 32 n - 1) as E3.
    { apply to_signed_small; [lia|]. destruct Hw as [-> | ->]; lia. }
    rewrite E3 in H. injection H as H. lia.
  - intros Hlt.
    assert (2 ^ 31 <= 2 ^ (w - 1)) as Hww by (destruct Hw as [-> | ->]; lia).
    assert (0 < w) by lia. split; [|split].
    + intros i Hi. unfold owner_label, neighbour_label. rewrite !to_signed_small by lia. split; apply size_t_small; lia.
    + unfold last_owner_label, signed_result. rewrite to_signed_small by lia.
      rewrite (proj2 (Z.leb_le _ _)) by lia. rewrite (proj2 (Z.ltb_lt _ _)) by lia. done.
    + unfold last_face_cell, signed_result. rewrite (to_signed_small 32 n) by lia.
      rewrite (proj2 (Z.leb_le _ _)) by lia. rewrite (proj2 (Z.ltb_lt _ _)) by lia. cbn. f_equal. apply to_signed_small; lia.
Qed.
Print Assumptions C111_mesh_labels.

(** With 64-bit labels, 2^31 cells are undefined behaviour, and with 2^32 + 1
    cells the right end is attached to the leftmost cell. *)
Theorem C111_wide_labels : last_face_cell 64 (2 ^ 31) = UB /\ last_owner_label 64 (2 ^ 31) = Ok (2 ^ 31 - 1) /\
  last_face_cell 64 (2 ^ 32 + 1) = Ok 0.
Proof. repeat split. Qed.
Print Assumptions C111_wide_labels.

(** ** Patches *)
(** Offsets below 2^(w-1): start, end, size and index range are exact.  With
    32-bit labels the index range is exact only then. *)
Theorem C111_patches : forall w s e : Z, (w = 32 \/ w = 64) -> 0 <= s <= e -> e < 2 ^ w ->
  (e < 2 ^ (w - 1) -> patch_start w s = s /\ patch_end w e = e /\ patch_size w s e = Ok (e - s) /\ patch_range w s e = (s, e)) /\
  (w = 32 -> patch_range w s e = (s, e) -> e < 2 ^ 31).
Proof.
  intros w s e Hw Hs He. assert (0 < w) as Hw0 by lia. split.
  - intros Hlt. unfold patch_size, patch_range, patch_start, patch_end, signed_result. rewrite !to_signed_small by lia.
    split; [done|]. split; [done|]. assert (2 ^ (w - 1) <= 2 ^ 63) by (destruct Hw as [-> | ->]; lia). split.
    + rewrite (proj2 (Z.leb_le _ _)) by lia. rewrite (proj2 (Z.ltb_lt _ _)) by lia. cbn. f_equal. apply size_t_small. lia.
    + rewrite !size_t_small by lia. done.
  - intros -> Hr. unfold patch_range, patch_end in Hr. injection Hr as _ Hr.
    pose proof (to_signed_range 32 e ltac:(lia)) as Hb. change (2 ^ (32 - 1)) with (2 ^ 31) in *.
    destruct (Z.neg_nonneg_cases (to_signed 32 e)) as [Hneg|Hpos].
    + unfold size_t_of, to_unsigned in Hr. assert (to_signed 32 e mod 2 ^ 64 = to_signed 32 e + 2 ^ 64) as E.
      { symmetry. apply (Z.mod_unique _ _ (-1)); lia. }
      rewrite E in Hr. lia.
    + rewrite size_t_small in Hr by lia. lia.
Qed.
Print Assumptions C111_patches.

(** ** Messages *)
(** The count handed to MPI is the number of bytes iff that is below 2^31; a
    larger message is posted with a negative or a too small count. *)
Theorem C111_messages : forall bytes : Z, 0 <= bytes ->
  (message_count bytes = bytes <-> bytes < 2 ^ 31) /\ (2 ^ 31 <= bytes -> message_count bytes < bytes).
Proof.
  intros b Hb. unfold message_count. pose proof (to_signed_range 32 b ltac:(lia)) as Hr. change (2 ^ (32 - 1)) with (2 ^ 31) in *.
  split; [split|]; [lia| |lia]. intros Hlt. apply to_signed_small; lia.
Qed.
Print Assumptions C111_messages.

(** ** Reported sizes *)
Theorem C111_sizes : forall w n : Z, 0 < w -> 0 <= n ->
  (pattern_rows w n = n <-> n < 2 ^ w) /\ (pattern_nnz w n = n <-> n < 2 ^ w) /\ (field_ssize w n = n <-> n < 2 ^ (w - 1)).
Proof.
  intros w n Hw Hn. assert (0 < 2 ^ w) by (apply Z.pow_pos_nonneg; lia).
  assert (to_unsigned w n = n <-> n < 2 ^ w) as Hu.
  { unfold to_unsigned. split; [intros <-; apply Z.mod_pos_bound; lia|intros; apply Z.mod_small; lia]. }
  split; [exact Hu|]. split; [exact Hu|]. unfold field_ssize. split.
  - intros E. pose proof (to_signed_range w n Hw). lia.
  - intros Hlt. apply to_signed_small; [done|]. split; [|done].
    assert (0 < 2 ^ (w - 1)) by (apply Z.pow_pos_nonneg; lia). lia.
Qed.
Print Assumptions C111_sizes.

(** Instances: three segments in two chunks, exactly and with 4-bit offsets; the
    largest 32-bit mesh; a message of 2^32 + 8 bytes posted as one of 8. *)
Example C111_instances :
  wsegmentedField 32 [2; 0; 3] [[0%nat; 1%nat]; [2%nat]] [1%nat; 0%nat] = Ok (5, [0; 2; 2; 5]) /\
  wsegmentedField 4 [9; 9; 3] [[0%nat; 1%nat]; [2%nat]] [1%nat; 0%nat] = Ok (5, [0; 9; 2; 5]) /\
  last_face_cell 32 (2 ^ 31 - 1) = Ok (2 ^ 31 - 2) /\ message_count (2 ^ 32 + 8) = 8.
Proof. repeat split. Qed.
