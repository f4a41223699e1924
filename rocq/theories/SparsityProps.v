From Verif Require Import Base Par ParProofs Exec ExecProofs Kernel KernelProofs
  Reduce ReduceProofs Ticket TicketProofs Mesh MeshSpec Sparsity SparsitySpec SparsityProofs SparsityMain.

Lemma atn_lookup l i x : l !! i = Some x -> atn l i = x.
Proof. intros H. unfold atn. by rewrite H. Qed.

Global Instance Diag_inj : Inj eq eq Diag.
Proof. intros x y H. by injection H. Qed.
Global Instance Upper_inj : Inj eq eq Upper.
Proof. intros x y H. by injection H. Qed.
Global Instance Lower_inj : Inj eq eq Lower.
Proof. intros x y H. by injection H. Qed.

(** A permutation from an injection between finite sets of the same size. *)
Lemma nodup_perm_seq (l : list nat) n :
  NoDup l -> length l = n -> (forall x, x ∈ l -> x < n) -> l ≡ₚ seq 0 n.
Proof.
  intros Hnd Hl Hin. symmetry. rewrite <- Hl in *. clear Hl n.
  symmetry. apply submseteq_Permutation_length_eq; [by rewrite seq_length|].
  apply NoDup_submseteq; [done|]. intros x Hx. apply elem_of_seq. specialize (Hin x Hx). lia.
Qed.

Section props.
  Context (m : mesh) (Hcn : connectivity m).
  Notation nC := (nCells m).
  Notation nI := (nInternalFaces m).
  Notation own := (atn (faceOwner m)).
  Notation nei := (atn (faceNeighbour m)).
  Notation rptr := (rptr m).
  Notation rlen := (rlen m).
  Notation nnz := (nnz m).

  Definition locs : list loc := map Diag (seq 0 nC) ++ map Upper (seq 0 nI) ++ map Lower (seq 0 nI).

  Lemma elem_of_locs l : l ∈ locs <-> loc_valid m l.
  Proof using.
    unfold locs. rewrite !elem_of_app, !elem_of_list_fmap. split.
    - intros [(x & -> & H)|[(x & -> & H)|(x & -> & H)]]; apply elem_of_seq in H; simpl; lia.
    - destruct l as [c|f|f]; simpl; intros H.
      + left. exists c. split; [done|]. apply elem_of_seq. lia.
      + right. left. exists f. split; [done|]. apply elem_of_seq. lia.
      + right. right. exists f. split; [done|]. apply elem_of_seq. lia.
  Qed.

  Lemma NoDup_locs : NoDup locs.
  Proof using.
    unfold locs. apply NoDup_app. split; [|split].
    - apply (NoDup_fmap_2 Diag), NoDup_seq.
    - intros l H1 H2. apply elem_of_list_fmap in H1 as (c & -> & _).
      apply elem_of_app in H2 as [H2|H2]; apply elem_of_list_fmap in H2 as (f & ? & _); done.
    - apply NoDup_app. split; [|split].
      + apply (NoDup_fmap_2 Upper), NoDup_seq.
      + intros l H1 H2. apply elem_of_list_fmap in H1 as (c & -> & _).
        apply elem_of_list_fmap in H2 as (f & ? & _). done.
      + apply (NoDup_fmap_2 Lower), NoDup_seq.
  Qed.

  Lemma length_locs : length locs = nnz.
  Proof using. unfold locs, SparsityMain.nnz. rewrite !app_length, !map_length, !seq_length. lia. Qed.

  Lemma loc_row_lt l : loc_valid m l -> loc_row m l < nC.
  Proof using Hcn. destruct l; simpl; auto using own_lt, nei_lt. Qed.

  Context (e : executor) (p : sparsity) (tkL tkU : nat -> nat) (HP : sp_post m e p tkL tkU).

  Notation wsl := (wslot m tkL tkU).
  Definition gslot (l : loc) : nat := rptr (loc_row m l) + wsl l.

  Lemma wslot_lt l : loc_valid m l -> wsl l < rlen (loc_row m l).
  Proof using HP.
    destruct l as [c|f|f]; simpl; intros H.
    - unfold SparsityMain.rlen. lia.
    - apply (po_U _ _ _ _ _ HP f H).
    - pose proof (po_L _ _ _ _ _ HP f H). unfold SparsityMain.rlen. lia.
  Qed.

  Lemma gslot_lt l : loc_valid m l -> gslot l < nnz.
  Proof using HP Hcn.
    intros H. unfold gslot. pose proof (wslot_lt l H).
    pose proof (rptr_nnz m Hcn _ (loc_row_lt l H)). lia.
  Qed.

  Lemma gslot_inj l l' : loc_valid m l -> loc_valid m l' -> gslot l = gslot l' -> l = l'.
  Proof using HP Hcn.
    intros H H' E.
    destruct (row_inj nC rlen rptr (rptr_rows m) (loc_row m l) (loc_row m l') (wsl l) (wsl l'))
      as [Er Es]; auto using loc_row_lt, wslot_lt.
    destruct l as [c|f|f], l' as [c'|f'|f']; simpl in *.
    - congruence.
    - pose proof (po_U _ _ _ _ _ HP f' H'). subst c. lia.
    - pose proof (po_L _ _ _ _ _ HP f' H'). subst c. lia.
    - pose proof (po_U _ _ _ _ _ HP f H). subst c'. lia.
    - destruct (decide (f = f')) as [->|Hne]; [done|].
      by destruct (po_U_inj _ _ _ _ _ HP f f' H H' Hne Er).
    - pose proof (po_U _ _ _ _ _ HP f H). pose proof (po_L _ _ _ _ _ HP f' H'). rewrite Er in *. lia.
    - pose proof (po_L _ _ _ _ _ HP f H). subst c'. lia.
    - pose proof (po_L _ _ _ _ _ HP f H). pose proof (po_U _ _ _ _ _ HP f' H'). rewrite Er in *. lia.
    - destruct (decide (f = f')) as [->|Hne]; [done|].
      by destruct (po_L_inj _ _ _ _ _ HP f f' H H' Hne Er).
  Qed.

  Lemma NoDup_map_inj {A} (g : A -> nat) (l : list A) :
    (forall x y, x ∈ l -> y ∈ l -> g x = g y -> x = y) -> NoDup l -> NoDup (map g l).
  Proof using.
    intros Hi Hnd. induction Hnd as [|x l Hx Hnd IH]; simpl; [constructor|].
    constructor.
    - intros H. apply elem_of_list_fmap in H as (y & E & Hy).
      assert (x = y) as ->; [|done]. apply Hi; [by constructor|by constructor|done].
    - apply IH. intros y z Hy Hz. apply Hi; by constructor.
  Qed.

  Lemma gslot_perm : map gslot locs ≡ₚ seq 0 nnz.
  Proof using HP Hcn.
    apply nodup_perm_seq.
    - apply NoDup_map_inj; [|apply NoDup_locs].
      intros x y Hx Hy. apply gslot_inj; by apply elem_of_locs.
    - by rewrite map_length, length_locs.
    - intros x Hx. apply elem_of_list_fmap in Hx as (l & -> & Hl). apply gslot_lt. by apply elem_of_locs.
  Qed.

  Lemma gslot_onto k : k < nnz -> exists l, loc_valid m l /\ gslot l = k.
  Proof using HP Hcn.
    intros H. assert (k ∈ map gslot locs) as Hk.
    { rewrite gslot_perm. apply elem_of_seq. lia. }
    apply elem_of_list_fmap in Hk as (l & -> & Hl). exists l. split; [by apply elem_of_locs|done].
  Qed.

  (** Row c occupies the slots from rptr c on. *)
  Lemma row_slots c : c < nC ->
    seq (rptr c) (rlen c) ≡ₚ map gslot (filter (fun l => loc_row m l = c) locs).
  Proof using HP Hcn.
    intros Hc. apply NoDup_Permutation.
    - apply NoDup_seq.
    - apply NoDup_map_inj.
      + intros x y Hx Hy. apply elem_of_list_filter in Hx as [_ Hx], Hy as [_ Hy].
        apply gslot_inj; by apply elem_of_locs.
      + apply NoDup_filter, NoDup_locs.
    - intros k. rewrite elem_of_seq. split.
      + intros Hk. assert (k < nnz) as Hlt by (pose proof (rptr_nnz m Hcn c Hc); lia).
        destruct (gslot_onto k Hlt) as (l & Hl & E). apply elem_of_list_fmap. exists l. split; [done|].
        apply elem_of_list_filter. split; [|by apply elem_of_locs].
        destruct (row_inj nC rlen rptr (rptr_rows m) (loc_row m l) c (wsl l) (k - rptr c)) as [? _];
          auto using loc_row_lt, wslot_lt; [lia|]. unfold gslot in E. lia.
      + intros Hk. apply elem_of_list_fmap in Hk as (l & -> & Hl).
        apply elem_of_list_filter in Hl as [<- Hl]. apply elem_of_locs in Hl.
        pose proof (wslot_lt l Hl). unfold gslot. lia.
  Qed.

  Lemma col_gslot l : loc_valid m l -> sp_colIdxs p !! gslot l = Some (loc_col m l).
  Proof using HP. apply (po_col _ _ _ _ _ HP). Qed.

  Lemma rp_atn k : k <= nC -> atn (sp_rowPtrs p) k = rptr k.
  Proof using HP. intros H. apply atn_lookup. by apply (po_rp _ _ _ _ _ HP). Qed.

  Lemma row_of_eq c : c < nC -> row_of p c = map (fun k => atn (sp_colIdxs p) k) (seq (rptr c) (rlen c)).
  Proof using HP Hcn.
    intros Hc. unfold row_of. rewrite !rp_atn by lia.
    replace (rptr (c + 1) - rptr c) with (rlen c) by (unfold SparsityMain.rptr; rewrite psum_S; lia).
    pose proof (rptr_nnz m Hcn c Hc) as Hle. pose proof (po_cols_len _ _ _ _ _ HP) as Hcl.
    apply list_eq. intros i. change (map ?f ?l) with (f <$> l). rewrite list_lookup_fmap.
    destruct (decide (i < rlen c)) as [Hi|Hi].
    - rewrite lookup_take, lookup_drop, lookup_seq_lt by done. simpl.
      destruct (lookup_lt_is_Some_2 (sp_colIdxs p) (rptr c + i)) as [x Hx]; [lia|].
      rewrite Hx. unfold atn. by rewrite Hx.
    - rewrite lookup_seq_ge by lia. simpl. apply lookup_take_ge. lia.
  Qed.

  Lemma filter_map_eq {A B} (g : A -> B) (P : B -> Prop) `{forall x, Decision (P x)} l :
    filter P (map g l) = map g (filter (fun x => P (g x)) l).
  Proof using.
    induction l as [|x l IH]; simpl; [done|]. destruct (decide (P (g x))).
    - rewrite !filter_cons_True by done. simpl. by rewrite IH.
    - rewrite !filter_cons_False by done. done.
  Qed.
  Lemma filter_single c n : c < n -> filter (fun x => x = c) (seq 0 n) = [c].
  Proof using.
    intros H. replace n with (c + S (n - S c)) by lia. rewrite seq_app, filter_app. simpl.
    assert (forall s k, (forall x, x ∈ seq s k -> x <> c) -> filter (fun x => x = c) (seq s k) = []) as Hn.
    { intros s k. revert s. induction k as [|k IH]; intros s Hx; simpl; [done|].
      rewrite filter_cons_False; [apply IH|].
      - intros x Hin. apply Hx. simpl. by constructor.
      - apply Hx. simpl. by constructor. }
    rewrite Hn by (intros x Hx; apply elem_of_seq in Hx; lia).
    rewrite filter_cons_True by done. rewrite Hn by (intros x Hx; apply elem_of_seq in Hx; lia). done.
  Qed.

  Lemma row_locs c : c < nC ->
    map (loc_col m) (filter (fun l => loc_row m l = c) locs) = row_spec m c.
  Proof using.
    intros Hc. unfold locs. rewrite !filter_app, !filter_map_eq, !map_app, !map_map. simpl.
    rewrite filter_single by done. simpl. unfold row_spec, faces_owned, faces_neighboured. done.
  Qed.

  Lemma row_perm c : c < nC -> row_of p c ≡ₚ row_spec m c.
  Proof using HP Hcn.
    intros Hc. rewrite row_of_eq by done. rewrite <- row_locs by done.
    change (map ?f ?l) with (f <$> l). rewrite (row_slots c Hc).
    change (map ?f ?l) with (f <$> l). rewrite <- list_fmap_compose. match goal with |- ?a ≡ₚ ?b => assert (a = b) as ->; [|done] end.
    apply list_fmap_ext. intros i l Hl. apply elem_of_list_lookup_2 in Hl.
    apply elem_of_list_filter in Hl as [_ Hl]. apply elem_of_locs in Hl. simpl.
    apply atn_lookup. by apply col_gslot.
  Qed.

  Lemma post_rows : pattern_rows m p.
  Proof using HP Hcn.
    assert (Hn : sp_nnz p = nnz) by apply (po_cols_len _ _ _ _ _ HP).
    constructor.
    - apply (po_diag_len _ _ _ _ _ HP).
    - done.
    - apply (po_rp_len _ _ _ _ _ HP).
    - rewrite (po_rp _ _ _ _ _ HP) by lia. done.
    - rewrite (po_rp _ _ _ _ _ HP) by lia. rewrite rptr_end, Hn by done. done.
    - intros c Hc. rewrite !rp_atn by lia. unfold SparsityMain.rptr. rewrite psum_S.
      unfold SparsityMain.rlen. lia.
    - apply row_perm.
    - apply (po_own_len _ _ _ _ _ HP).
    - apply (po_nei_len _ _ _ _ _ HP).
  Qed.

  (** ** The stored offsets *)
  Lemma loc_slot_eq l : loc_valid m l -> loc_slot m p l = rptr (loc_row m l) + uint8 (wsl l).
  Proof using HP Hcn.
    intros Hl. unfold loc_slot. rewrite rp_atn by (pose proof (loc_row_lt l Hl); lia). f_equal.
    destruct l as [c|f|f]; simpl in *; apply atn_lookup.
    - by apply (po_diag _ _ _ _ _ HP).
    - by apply (po_own _ _ _ _ _ HP).
    - by apply (po_nei _ _ _ _ _ HP).
  Qed.

  Lemma uint8_small n : n < 256 -> uint8 n = n.
  Proof using. intros H. unfold uint8. by apply Nat.mod_small. Qed.

  Lemma post_located : rows_fit m -> pattern_located m p.
  Proof using HP Hcn.
    intros Hfit.
    assert (Hs : forall l, loc_valid m l -> loc_slot m p l = gslot l).
    { intros l Hl. rewrite loc_slot_eq by done. unfold gslot. f_equal. apply uint8_small.
      pose proof (wslot_lt l Hl) as H1. pose proof (Hfit _ (loc_row_lt l Hl)) as H2.
      rewrite <- rlen_spec in H2. lia. }
    constructor.
    - intros l Hl. pose proof (loc_row_lt l Hl). rewrite Hs by done. rewrite !rp_atn by lia.
      pose proof (wslot_lt l Hl). unfold gslot, SparsityMain.rptr. rewrite psum_S.
      unfold SparsityMain.rptr. lia.
    - intros l Hl. rewrite Hs by done. by apply col_gslot.
    - intros l l' Hl Hl' E. rewrite !Hs in E by done. by apply gslot_inj.
    - intros k Hk. assert (sp_nnz p = nnz) as Hn by apply (po_cols_len _ _ _ _ _ HP).
      rewrite Hn in Hk. destruct (gslot_onto k Hk) as (l & Hl & E). exists l. split; [done|].
      by rewrite Hs.
  Qed.

  (** If some row is longer than 256, two entries share a slot. *)
  Lemma post_overflow c : c < nC -> 256 < length (row_spec m c) ->
    exists l l', loc_valid m l /\ loc_valid m l' /\ l <> l' /\ loc_slot m p l = loc_slot m p l'.
  Proof using HP Hcn.
    intros Hc Hlen. rewrite <- rlen_spec in Hlen.
    assert (Hfind : forall s, s < rlen c -> exists l, loc_valid m l /\ loc_row m l = c /\ wsl l = s).
    { intros s Hs. destruct (gslot_onto (rptr c + s)) as (l & Hl & E).
      { pose proof (rptr_nnz m Hcn c Hc). lia. }
      destruct (row_inj nC rlen rptr (rptr_rows m) (loc_row m l) c (wsl l) s) as [? ?];
        auto using loc_row_lt, wslot_lt. eauto. }
    destruct (Hfind 0) as (l0 & H0 & R0 & S0); [lia|].
    destruct (Hfind 256) as (l1 & H1 & R1 & S1); [lia|].
    exists l0, l1. split; [done|]. split; [done|]. split.
    - intros ->. rewrite S1 in S0. done.
    - rewrite !loc_slot_eq by done. rewrite R0, R1, S0, S1. done.
  Qed.

  (** ** Serial order *)
  Lemma post_sorted : e = SerialExecutor ->
    (forall f, f < nI -> own f < nei f) -> upper_triangular m -> pattern_sorted m p.
  Proof using HP Hcn.
    intros He Hon Hut c i j x y Hc Hij Hx Hy.
    rewrite row_of_eq in Hx, Hy by done. change (map ?f ?l) with (f <$> l) in Hx, Hy.
    rewrite list_lookup_fmap in Hx, Hy.
    apply fmap_Some in Hx as (kx & Hkx & ->), Hy as (ky & Hky & ->).
    apply lookup_seq in Hkx as [-> Hi], Hky as [-> Hj].
    assert (Hloc : forall s, s < rlen c -> exists l, loc_valid m l /\ loc_row m l = c /\ wsl l = s /\
               atn (sp_colIdxs p) (rptr c + s) = loc_col m l).
    { intros s Hs. destruct (gslot_onto (rptr c + s)) as (l & Hl & E).
      { pose proof (rptr_nnz m Hcn c Hc). lia. }
      destruct (row_inj nC rlen rptr (rptr_rows m) (loc_row m l) c (wsl l) s) as [? ?];
        auto using loc_row_lt, wslot_lt. exists l. split_and!; try done. rewrite <- E.
      apply atn_lookup. by apply col_gslot. }
    destruct (Hloc i Hi) as (lx & Hlx & Rx & Sx & ->), (Hloc j Hj) as (ly & Hly & Ry & Sy & ->).
    clear Hloc. subst i j.
    destruct lx as [cx|fx|fx], ly as [cy|fy|fy]; simpl in *.
    - subst. lia.
    - subst. pose proof (Hon fy Hly). lia.
    - pose proof (po_L _ _ _ _ _ HP fy Hly) as H. rewrite Rx in Hij. rewrite Ry in H. lia.
    - pose proof (po_U _ _ _ _ _ HP fx Hlx) as H. rewrite Rx in H. rewrite Ry in Hij. lia.
    - (* two upper entries: faces in order, same owner *)
      destruct (decide (fx < fy)) as [Hlt|Hge].
      + destruct (Hut fx fy Hlt Hly) as [H|[_ H]]; [lia|done].
      + destruct (decide (fx = fy)) as [->|]; [lia|].
        pose proof (po_U_serial _ _ _ _ _ HP He fy fx ltac:(lia) Hlx ltac:(congruence)). lia.
    - pose proof (po_U _ _ _ _ _ HP fx Hlx) as H. pose proof (po_L _ _ _ _ _ HP fy Hly) as H'.
      rewrite Rx in H. rewrite Ry in H'. lia.
    - pose proof (Hon fx Hlx). lia.
    - pose proof (Hon fx Hlx). pose proof (Hon fy Hly). lia.
    - destruct (decide (fx < fy)) as [Hlt|Hge].
      + destruct (Hut fx fy Hlt Hly) as [H|[H H']]; [done|lia].
      + destruct (decide (fx = fy)) as [->|]; [lia|].
        pose proof (po_L_serial _ _ _ _ _ HP He fy fx ltac:(lia) Hlx ltac:(congruence)). lia.
  Qed.
End props.

Lemma valid_connectivity m : valid_topology m -> connectivity m.
Proof.
  intros H. constructor.
  - intros f Hf. destruct (lookup_lt_is_Some_2 (faceOwner m) f) as [c Hc].
    { rewrite (vt_owner_len m H), (vt_faces m H). lia. }
    exists c. split; [done|]. pose proof (vt_owner m H f Hf). pose proof (vt_nei m H f Hf).
    rewrite (atn_lookup _ _ _ Hc) in *. lia.
  - intros f Hf. destruct (lookup_lt_is_Some_2 (faceNeighbour m) f) as [c Hc].
    { by rewrite (vt_nei_len m H). }
    exists c. split; [done|]. pose proof (vt_nei m H f Hf).
    rewrite (atn_lookup _ _ _ Hc) in *. lia.
  - intros b c Hb. pose proof (lookup_lt_Some _ _ _ Hb) as Hlt. rewrite (vt_fc_len m H) in Hlt.
    pose proof (vt_fc m H b Hlt). rewrite (atn_lookup _ _ _ Hb) in *. lia.
  - apply (vt_fc_len m H).
Qed.
