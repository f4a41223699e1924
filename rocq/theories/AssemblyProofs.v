(** Proofs about the implicit operators. *)
From Verif Require Import Base Par Exec Value Kernel KernelProofs Mesh MeshSpec Coeff FV FVSpec FVProofs
  Sparsity SparsitySpec Assembly AssemblySpec.

Global Instance loc_eq_dec : EqDecision loc.
Proof. solve_decision. Defined.

Section ringlaws.
  Context {V : Type} `{HL : ValueLaws V} `{HU : ValueUnit V} `{HUL : !UnitLaws V}.

  Lemma V_ring : ring_theory vzero vone vadd vmul vsub vneg (@eq V).
  Proof.
    constructor.
    - apply vadd_0_l.
    - apply vadd_comm.
    - intros; apply vadd_assoc.
    - apply vmul_1_l.
    - apply vmul_comm.
    - intros; apply vmul_assoc.
    - apply vmul_add_l.
    - done.
    - apply vadd_neg.
  Qed.

  Lemma vscale_unit k (a : V) : vscale k a = vmul (vscale k vone) a.
  Proof. by rewrite vmul_scale_l, vmul_1_l. Qed.
  Lemma unit_1 : vscale 1%Qc (vone : V) = vone.
  Proof. apply vscale_1. Qed.
  Lemma unit_0 : vscale 0%Qc (vone : V) = vzero.
  Proof. apply vscale_0_l. Qed.
  Lemma unit_add k l : vscale (k + l)%Qc (vone : V) = vadd (vscale k vone) (vscale l vone).
  Proof. apply vscale_add_l. Qed.
  Lemma unit_mul k l : vscale (k * l)%Qc (vone : V) = vmul (vscale k vone) (vscale l vone).
  Proof. by rewrite vscale_mul, (vscale_unit k). Qed.
  Lemma unit_opp k : vscale (- k)%Qc (vone : V) = vneg (vscale k vone).
  Proof. apply vscale_opp. Qed.
  Lemma unit_sub k l : vscale (k - l)%Qc (vone : V) = vsub (vscale k vone) (vscale l vone).
  Proof. unfold Qcminus. by rewrite unit_add, unit_opp. Qed.
End ringlaws.

Lemma vsum_filter {V} `{ValueLaws V} {A} (P : A -> Prop) `{forall x, Decision (P x)} (g : A -> V) l :
  vsum (map g (filter P l)) = vsum (map (fun x => if decide (P x) then g x else vzero) l).
Proof.
  induction l as [|x l IH]; [done|]. rewrite filter_cons. simpl. destruct (decide (P x)); simpl; rewrite IH; [done|].
  by rewrite vadd_0_l.
Qed.

Lemma nodup_range (l : list nat) lo n : NoDup l -> (forall x, x ∈ l -> lo <= x < lo + n) -> length l = n ->
  l ≡ₚ seq lo n.
Proof.
  intros Hnd Hr Hl. apply submseteq_Permutation_length_le; [rewrite seq_length; lia|].
  apply NoDup_submseteq; [done|]. intros x Hx. apply elem_of_seq. auto.
Qed.

Section asm.
  Context {V : Type} `{HL : ValueLaws V} `{HU : ValueUnit V} `{HUL : !UnitLaws V}.
  Context (m : mesh) (Hm : valid_topology m) (p : sparsity) (Hp : pattern_rows m p) (Hpl : pattern_located m p).
  Notation mem := (list (list V)).
  Notation slot := (loc_slot m p).
  Notation own f := (atn (faceOwner m) f).
  Notation nei f := (atn (faceNeighbour m) f).
  Notation fc b := (atn (bFaceCells (bmesh m)) b).
  Notation nI := (nInternalFaces m).
  Notation nB := (nBoundaryFaces m).
  Notation nC := (nCells m).

  Add Ring Vring : (V_ring (V := V)).

  Lemma nei_lt' f : f < nI -> nei f < nC.
  Proof. apply (vt_nei m Hm). Qed.
  Lemma fc_lt' b : b < nB -> fc b < nC.
  Proof. apply (vt_fc m Hm). Qed.

  Lemma slot_lt l : loc_valid m l -> slot l < sp_nnz p.
  Proof. intros Hl. apply (lookup_lt_Some _ _ _ (pl_col _ _ Hpl l Hl)). Qed.

  Lemma slot_dec l l' (v : V) : loc_valid m l -> loc_valid m l' ->
    (if decide ((0, slot l) = (0, slot l')) then v else vzero) = if decide (l = l') then v else vzero.
  Proof.
    intros Hl Hl'. destruct (decide ((0, slot l) = (0, slot l'))) as [E|E], (decide (l = l')) as [E'|E']; try done.
    - exfalso. apply E'. apply (pl_inj _ _ Hpl); congruence.
    - exfalso. apply E. congruence.
  Qed.

  (** ** The matrix-vector product in terms of the mesh *)
  Lemma rp_le_nnz c : c < nC -> atn (sp_rowPtrs p) (c + 1) <= sp_nnz p.
  Proof.
    intros Hc. pose proof (pr_rp_end _ _ Hp) as He.
    assert (Hend : atn (sp_rowPtrs p) nC = sp_nnz p) by (unfold atn; by rewrite He).
    rewrite <- Hend.
    assert (forall d, c + 1 + d <= nC -> atn (sp_rowPtrs p) (c + 1) <= atn (sp_rowPtrs p) (c + 1 + d)) as Hx.
    { induction d as [|d IH]; intros Hd; [by rewrite Nat.add_0_r|].
      pose proof (pr_rp_mono _ _ Hp (c + 1 + d) ltac:(lia)). replace (c + 1 + S d) with (c + 1 + d + 1) by lia.
      specialize (IH ltac:(lia)). lia. }
    specialize (Hx (nC - (c + 1)) ltac:(lia)). by replace (c + 1 + (nC - (c + 1))) with nC in Hx by lia.
  Qed.

  Definition row_locs (c : nat) : list loc :=
    Diag c :: map Upper (faces_owned m c) ++ map Lower (faces_neighboured m c).

  Lemma row_locs_valid c l : c < nC -> l ∈ row_locs c -> loc_valid m l /\ loc_row m l = c.
  Proof.
    intros Hc. unfold row_locs, faces_owned, faces_neighboured.
    rewrite elem_of_cons, elem_of_app, !elem_of_list_fmap.
    intros [->|[(f & -> & Hf)|(f & -> & Hf)]]; [done|..];
      apply elem_of_list_filter in Hf as [E Hf]; apply elem_of_seq in Hf; simpl; (split; [lia|done]).
  Qed.

  Lemma row_slots_perm c : c < nC ->
    map slot (row_locs c) ≡ₚ seq (atn (sp_rowPtrs p) c) (atn (sp_rowPtrs p) (c + 1) - atn (sp_rowPtrs p) c).
  Proof.
    intros Hc. apply nodup_range.
    - assert (Hnd : NoDup (row_locs c)).
      { unfold row_locs. constructor.
        - rewrite elem_of_app, !elem_of_list_fmap. intros [(f & E & _)|(f & E & _)]; discriminate.
        - apply NoDup_app. split_and!.
          + apply NoDup_fmap_2; [intros ? ? [=]; done|]. apply NoDup_filter, NoDup_seq.
          + intros l. rewrite !elem_of_list_fmap. intros (f & -> & _) (f' & E & _). discriminate.
          + apply NoDup_fmap_2; [intros ? ? [=]; done|]. apply NoDup_filter, NoDup_seq. }
      pose proof (row_locs_valid c) as Hv. revert Hnd Hv. generalize (row_locs c). intros ls Hnd Hv.
      induction Hnd as [|l ls Hni Hnd IH]; [constructor|]. simpl. constructor.
      + rewrite elem_of_list_fmap. intros (l' & E & Hl').
        apply (pl_inj _ _ Hpl) in E; [congruence|..]; apply Hv; auto using elem_of_list_here, elem_of_list_further.
      + apply IH. intros l' H1 H2. apply Hv; auto using elem_of_list_further.
    - intros x Hx. apply elem_of_list_fmap in Hx as (l & -> & Hl). apply row_locs_valid in Hl as [Hl <-]; [|done].
      pose proof (pl_in_row _ _ Hpl l Hl). lia.
    - rewrite map_length. unfold row_locs. cbn [length].
      pose proof (Permutation_length (pr_row _ _ Hp c Hc)) as E. unfold row_of, row_spec in E.
      rewrite take_length, drop_length in E. cbn [length] in E. rewrite !app_length, !map_length in *.
      pose proof (rp_le_nnz c Hc). unfold sp_nnz in *. pose proof (pr_rp_mono _ _ Hp c Hc). lia.
  Qed.

  Lemma mat_row_mesh (values x : list V) c : c < nC ->
    mat_row p values x c =
    vadd (vmul (atV values (slot (Diag c))) (atV x c))
    (vadd (vsum_over nI (fun f => if decide (own f = c) then vmul (atV values (slot (Upper f))) (atV x (nei f)) else vzero))
          (vsum_over nI (fun f => if decide (nei f = c) then vmul (atV values (slot (Lower f))) (atV x (own f)) else vzero))).
  Proof.
    intros Hc. unfold mat_row. erewrite vsum_perm; [|apply Permutation_map; symmetry; by apply row_slots_perm].
    rewrite map_map.
    assert (Hcol : forall l, l ∈ row_locs c -> atn (sp_colIdxs p) (slot l) = loc_col m l).
    { intros l Hl. apply row_locs_valid in Hl as [Hl _]; [|done]. unfold atn. by rewrite (pl_col _ _ Hpl l Hl). }
    erewrite vsum_map_ext; [|intros l Hl; rewrite (Hcol l Hl); reflexivity].
    unfold row_locs. cbn [map vsum]. rewrite map_app, vsum_app, !map_map. cbn [loc_col].
    f_equal. f_equal; unfold faces_owned, faces_neighboured; rewrite vsum_filter; done.
  Qed.

  (** ** Memory of a system *)
  Lemma shape2 (a b : list V) : shape [a; b] = [length a; length b].
  Proof. done. Qed.
  Lemma shape2_inv (mm : mem) x y : shape mm = [x; y] ->
    exists a b, mm = [a; b] /\ length a = x /\ length b = y.
  Proof.
    unfold shape. destruct mm as [|a [|b [|? ?]]]; cbn [fmap list_fmap]; try discriminate.
    intros [= <- <-]. eauto.
  Qed.
  Lemma in_shape2_0 x y i : i < x -> in_shape [x; y] (0, i).
  Proof. exists x. done. Qed.
  Lemma in_shape2_1 x y i : i < y -> in_shape [x; y] (1, i).
  Proof. exists y. done. Qed.

  (** ** The generic face assembly *)
  Section faces.
    Context (lo up dO dN bd br : nat -> V) (kI kB : kernel V) (sb : nat -> stmt V).
    Definition ibody (f : nat) : list (stmt V) :=
      [ SAdd (0, slot (Lower f)) (lo f); SAtomicSub (0, slot (Diag (own f))) (dO f);
        SAdd (0, slot (Upper f)) (up f); SAtomicSub (0, slot (Diag (nei f))) (dN f) ].
    Context (HkI : forall f, f < nI -> kI f = Some (ibody f)).
    Context (HkB : forall b, b < nB -> kB (nI + b) = Some [sb b; SSub (1, fc b) (br b)]).
    Context (Hsb : forall b, b < nB -> stmt_addr (sb b) = (0, slot (Diag (fc b))) /\ additive (sb b) = true /\
                stmt_delta (sb b) = bd b).

    Definition delta (l : loc) : V :=
      match l with
      | Diag c => vadd (vneg (vadd (vsum_over nI (fun f => if decide (own f = c) then dO f else vzero))
                                   (vsum_over nI (fun f => if decide (nei f = c) then dN f else vzero))))
                       (vsum_over nB (fun b => if decide (fc b = c) then bd b else vzero))
      | Upper f => up f
      | Lower f => lo f
      end.

    Lemma loc_own f : f < nI -> loc_valid m (Diag (own f)).
    Proof. intros Hf. simpl. by apply (owner_lt m Hm). Qed.
    Lemma loc_nei f : f < nI -> loc_valid m (Diag (nei f)).
    Proof. intros Hf. simpl. by apply nei_lt'. Qed.
    Lemma loc_fc b : b < nB -> loc_valid m (Diag (fc b)).
    Proof. intros Hb. simpl. by apply fc_lt'. Qed.

    Lemma ibody_race : race_free 0 nI kI.
    Proof using HkI Hpl Hm.
      intros i j s t Hi Hj Hij Hs Ht E. unfold stmts_of in Hs, Ht.
      rewrite HkI in Hs, Ht by lia. simpl in Hs, Ht. unfold ibody in *.
      assert (Hs' : (stmt_atomic s = true) \/ (stmt_addr s = (0, slot (Lower i)) \/ stmt_addr s = (0, slot (Upper i)))).
      { repeat (apply elem_of_cons in Hs as [->|Hs]; [simpl; auto|]). by apply elem_of_nil in Hs. }
      assert (Ht' : (stmt_atomic t = true) \/ (stmt_addr t = (0, slot (Lower j)) \/ stmt_addr t = (0, slot (Upper j)))).
      { repeat (apply elem_of_cons in Ht as [->|Ht]; [simpl; auto|]). by apply elem_of_nil in Ht. }
      assert (Hloc : forall s i, i < nI -> s ∈ ibody i -> exists l, loc_valid m l /\ stmt_addr s = (0, slot l) /\
                (stmt_atomic s = true -> exists c, l = Diag c) /\ (stmt_atomic s = false -> l = Lower i \/ l = Upper i)).
      { clear -Hm. intros s i Hi Hs. unfold ibody in Hs.
        repeat (apply elem_of_cons in Hs as [->|Hs];
          [eexists; split; [|split; [reflexivity|split; [simpl; eauto; discriminate|simpl; auto; discriminate]]];
           simpl; auto using (owner_lt m Hm), nei_lt'|]).
        by apply elem_of_nil in Hs. }
      destruct (Hloc s i ltac:(lia) Hs) as (l & Hl & El & A1 & A2).
      destruct (Hloc t j ltac:(lia) Ht) as (l' & Hl' & El' & B1 & B2).
      rewrite El, El' in E. assert (l = l') as <- by (apply (pl_inj _ _ Hpl); congruence).
      destruct (stmt_atomic s), (stmt_atomic t); try done.
      - destruct (A1 eq_refl) as [c ->]. destruct (B2 eq_refl); discriminate.
      - destruct (B1 eq_refl) as [c ->]. destruct (A2 eq_refl); discriminate.
      - destruct (A2 eq_refl) as [->| ->], (B2 eq_refl) as [[= ?]|[= ?]]; congruence.
    Qed.

    Lemma face_internal e (values rhs : list V) : length values = sp_nnz p -> length rhs = nC ->
      exists values', (forall r, pfor e 0 nI kI [values; rhs] r <-> r = Some [values'; rhs]) /\
        length values' = sp_nnz p /\
        forall l, loc_valid m l -> atV values' (slot l) = vadd (atV values (slot l))
          (match l with
           | Diag c => vneg (vadd (vsum_over nI (fun f => if decide (own f = c) then dO f else vzero))
                                   (vsum_over nI (fun f => if decide (nei f = c) then dN f else vzero)))
           | Upper f => up f
           | Lower f => lo f
           end).
    Proof using HkI Hpl Hm HL HUL.
      intros Hlv Hlr.
      destruct (pfor_additive e 0 nI kI [values; rhs]) as (m' & Hr & Hsh & Hg).
      { intros f Hf. exists (ibody f). split; [apply HkI; lia|]. rewrite shape2, Hlv, Hlr. unfold ibody.
        repeat constructor; simpl; apply in_shape2_0, slot_lt; simpl; try lia; (apply (owner_lt m Hm) || apply nei_lt'); lia. }
      { apply ibody_race. }
      { intros f s Hf Hs. unfold stmts_of in Hs. rewrite HkI in Hs by lia. simpl in Hs. unfold ibody in Hs.
        repeat (apply elem_of_cons in Hs as [->|Hs]; [done|]). by apply elem_of_nil in Hs. }
      rewrite shape2 in Hsh. apply shape2_inv in Hsh as (values' & rhs' & -> & Hlv' & Hlr').
      rewrite Nat.sub_0_r in Hg. cbn [Nat.add] in Hg.
      assert (Hst : forall f, f < nI -> stmts_of kI f = ibody f).
      { intros f Hf. unfold stmts_of. by rewrite HkI. }
      assert (rhs' = rhs) as ->.
      { apply list_eq. intros i. specialize (Hg (1, i)). unfold mget in Hg. cbn in Hg. rewrite Hg.
        destruct (rhs !! i) as [x|]; [|done]. simpl. f_equal.
        rewrite vsum_over_zero; [apply vadd_0_r|]. intros f Hf. rewrite Hst by done.
        unfold ibody. cbn [map vsum]. rewrite !contrib_delta. cbn [stmt_addr].
        rewrite !decide_False by congruence. by rewrite !vadd_0_l. }
      exists values'. split; [done|]. split; [congruence|].
      intros l Hl. specialize (Hg (0, slot l)). unfold mget in Hg. cbn [fst snd lookup list_lookup mbind option_bind] in Hg.
      change (list_lookup (slot l) values') with (values' !! slot l) in Hg.
      change (list_lookup (slot l) values) with (values !! slot l) in Hg.
      pose proof (slot_lt l Hl) as Hsl.
      rewrite (lookup_atV values (slot l)) in Hg by lia. unfold atV at 1.
      change (values' !! slot l = Some (vadd (atV values (slot l)) (vsum_over nI (fun i =>
        vsum (map (contrib (0, slot l)) (stmts_of kI i)))))) in Hg.
      rewrite Hg. simpl default. f_equal.
      rewrite (vsum_over_ext nI _ (fun f =>
        vadd (if decide (Lower f = l) then lo f else vzero)
        (vadd (if decide (Diag (own f) = l) then vneg (dO f) else vzero)
        (vadd (if decide (Upper f = l) then up f else vzero)
        (vadd (if decide (Diag (nei f) = l) then vneg (dN f) else vzero) vzero))))).
      2:{ intros f Hf. rewrite Hst by done. unfold ibody. cbn [map vsum].
          rewrite !contrib_delta. cbn [stmt_addr stmt_delta].
          rewrite !slot_dec by (try done; simpl; (lia || by apply (owner_lt m Hm) || by apply nei_lt')). done. }
      destruct l as [c|f0|f0].
      - rewrite <- vsum_over_add, <- vsum_over_neg. apply vsum_over_ext. intros f Hf.
        rewrite (decide_False (P := Lower f = Diag c)), (decide_False (P := Upper f = Diag c)) by congruence.
        destruct (decide (Diag (own f) = Diag c)), (decide (own f = c)), (decide (Diag (nei f) = Diag c)), (decide (nei f = c));
          try congruence; ring.
      - rewrite <- (vsum_over_single nI f0 (up f0)) by done. apply vsum_over_ext. intros f Hf.
        rewrite (decide_False (P := Lower f = Upper f0)), (decide_False (P := Diag (own f) = Upper f0)),
          (decide_False (P := Diag (nei f) = Upper f0)) by congruence.
        destruct (decide (f = f0)) as [->|]; [rewrite decide_True by done|rewrite decide_False by congruence]; ring.
      - rewrite <- (vsum_over_single nI f0 (lo f0)) by done. apply vsum_over_ext. intros f Hf.
        rewrite (decide_False (P := Upper f = Lower f0)), (decide_False (P := Diag (own f) = Lower f0)),
          (decide_False (P := Diag (nei f) = Lower f0)) by congruence.
        destruct (decide (f = f0)) as [->|]; [rewrite decide_True by done|rewrite decide_False by congruence]; ring.
    Qed.

    Lemma face_boundary e (values rhs : list V) : no_boundary_race e m -> length values = sp_nnz p -> length rhs = nC ->
      exists values' rhs', (forall r, pfor e nI (nI + nB) kB [values; rhs] r <-> r = Some [values'; rhs']) /\
        length values' = sp_nnz p /\ length rhs' = nC /\
        (forall l, loc_valid m l -> atV values' (slot l) = vadd (atV values (slot l))
          (match l with
           | Diag c => vsum_over nB (fun b => if decide (fc b = c) then bd b else vzero)
           | _ => vzero
           end)) /\
        (forall c, c < nC -> atV rhs' c = vsub (atV rhs c) (vsum_over nB (fun b => if decide (fc b = c) then br b else vzero))).
    Proof using HkB Hsb Hpl Hm HL HUL.
      intros Hrace Hlv Hlr.
      assert (Hst : forall i, nI <= i < nI + nB -> kB i = Some [sb (i - nI); SSub (1, fc (i - nI)) (br (i - nI))]).
      { intros i Hi. replace i with (nI + (i - nI)) at 1 by lia. apply HkB. lia. }
      assert (Hok : kernel_ok (shape [values; rhs]) nI (nI + nB) kB).
      { intros i Hi. eexists. split; [by apply Hst|]. rewrite shape2, Hlv, Hlr.
        destruct (Hsb (i - nI) ltac:(lia)) as (E & _). repeat constructor; simpl.
        - rewrite E. apply in_shape2_0, slot_lt, loc_fc. lia.
        - apply in_shape2_1, fc_lt'. lia. }
      assert (Hadd : kernel_additive nI (nI + nB) kB).
      { intros i s Hi Hs. unfold stmts_of in Hs. rewrite Hst in Hs by done. simpl in Hs.
        apply elem_of_cons in Hs as [->|Hs]; [apply Hsb; lia|]. by apply elem_of_list_singleton in Hs as ->. }
      assert (exists m', (forall r, pfor e nI (nI + nB) kB [values; rhs] r <-> r = Some m') /\
        shape m' = shape [values; rhs] /\
        forall a, mget m' a = (fun x => vadd x (vsum_over (nI + nB - nI)
              (fun i => vsum (map (contrib a) (stmts_of kB (nI + i)))))) <$> mget [values; rhs] a)
        as (m' & Hr & Hsh & Hg).
      { destruct Hrace as [->|Honce]; [by apply pfor_additive_serial|].
        apply pfor_additive; [done| |done].
        intros i j s t Hi Hj Hij Hs Ht E. exfalso. unfold stmts_of in Hs, Ht.
        rewrite Hst in Hs, Ht by done. simpl in Hs, Ht.
        destruct (Hsb (i - nI) ltac:(lia)) as (Ei & _). destruct (Hsb (j - nI) ltac:(lia)) as (Ej & _).
        assert (Hfc : fc (i - nI) = fc (j - nI)).
        { apply elem_of_cons in Hs as [->|Hs]; apply elem_of_cons in Ht as [->|Ht];
            try (apply elem_of_list_singleton in Hs as ->); try (apply elem_of_list_singleton in Ht as ->);
            rewrite ?Ei, ?Ej in E; simpl in E; try congruence.
          assert (Diag (fc (i - nI)) = Diag (fc (j - nI))) as [= ->]; [|done].
          apply (pl_inj _ _ Hpl); [apply loc_fc; lia|apply loc_fc; lia|congruence]. }
        apply Honce in Hfc; lia. }
      rewrite shape2 in Hsh. apply shape2_inv in Hsh as (values' & rhs' & -> & Hlv' & Hlr').
      replace (nI + nB - nI) with nB in Hg by lia.
      assert (Hst' : forall b, b < nB -> stmts_of kB (nI + b) = [sb b; SSub (1, fc b) (br b)]).
      { intros b Hb. unfold stmts_of. by rewrite HkB. }
      exists values', rhs'. split; [done|]. split; [congruence|]. split; [congruence|]. split.
      - intros l Hl. specialize (Hg (0, slot l)). unfold mget in Hg.
        pose proof (slot_lt l Hl) as Hsl.
        change (values' !! slot l = (fun x => vadd x (vsum_over nB (fun i => vsum (map (contrib (0, slot l)) (stmts_of kB (nI + i))))))
                  <$> (values !! slot l)) in Hg.
        rewrite (lookup_atV values (slot l)) in Hg by lia. unfold atV at 1. rewrite Hg. simpl default. f_equal.
        rewrite (vsum_over_ext nB _ (fun b => vadd (if decide (Diag (fc b) = l) then bd b else vzero) (vadd vzero vzero))).
        2:{ intros b Hb. rewrite Hst' by done. cbn [map vsum]. rewrite !contrib_delta.
            destruct (Hsb b Hb) as (-> & _ & ->). cbn [stmt_addr stmt_delta].
            rewrite slot_dec by (try done; by apply loc_fc).
            rewrite (decide_False (P := (1, fc b) = (0, slot l))) by congruence. done. }
        destruct l as [c|f0|f0].
        + apply vsum_over_ext. intros b Hb. destruct (decide (Diag (fc b) = Diag c)), (decide (fc b = c)); try congruence; ring.
        + apply vsum_over_zero. intros b Hb. rewrite decide_False by congruence. ring.
        + apply vsum_over_zero. intros b Hb. rewrite decide_False by congruence. ring.
      - intros c Hc. specialize (Hg (1, c)). unfold mget in Hg.
        change (rhs' !! c = (fun x => vadd x (vsum_over nB (fun i => vsum (map (contrib (1, c)) (stmts_of kB (nI + i))))))
                  <$> (rhs !! c)) in Hg.
        rewrite (lookup_atV rhs c) in Hg by lia. unfold atV at 1. rewrite Hg. simpl default. unfold vsub. f_equal.
        rewrite <- vsum_over_neg. apply vsum_over_ext. intros b Hb. rewrite Hst' by done. cbn [map vsum].
        rewrite !contrib_delta. destruct (Hsb b Hb) as (-> & _ & ->). cbn [stmt_addr stmt_delta].
        rewrite decide_False by congruence.
        destruct (decide ((1, fc b) = (1, c))), (decide (fc b = c)); try congruence; ring.
    Qed.

    Theorem face_assembly e (values rhs : list V) :
      no_boundary_race e m -> length values = sp_nnz p -> length rhs = nC ->
      exists values' rhs',
        (forall r, pseq (pfor e 0 nI kI) (pfor e nI (nI + nB) kB) [values; rhs] r <-> r = Some [values'; rhs']) /\
        length values' = sp_nnz p /\ length rhs' = nC /\
        (forall l, loc_valid m l -> atV values' (slot l) = vadd (atV values (slot l)) (delta l)) /\
        (forall c, c < nC -> atV rhs' c = vsub (atV rhs c) (vsum_over nB (fun b => if decide (fc b = c) then br b else vzero))).
    Proof using HkI HkB Hsb Hpl Hm HL HUL.
      intros Hrace Hlv Hlr. destruct (face_internal e values rhs Hlv Hlr) as (v1 & H1 & Hl1 & Hv1).
      destruct (face_boundary e v1 rhs Hrace Hl1 Hlr) as (v2 & r2 & H2 & Hl2 & Hlr2 & Hv2 & Hr2).
      exists v2, r2. split; [intros r; by rewrite (pseq_iff _ _ _ _ _ H1)|]. split; [done|]. split; [done|]. split; [|done].
      intros l Hl. rewrite Hv2, Hv1 by done. destruct l; simpl; ring.
    Qed.

    Theorem face_residual (values rhs values' rhs' x : list V) (sc : nat -> Qc) (F : nat -> V) :
      (forall l, loc_valid m l -> atV values' (slot l) = vadd (atV values (slot l)) (delta l)) ->
      (forall c, c < nC -> atV rhs' c = vsub (atV rhs c) (vsum_over nB (fun b => if decide (fc b = c) then br b else vzero))) ->
      (forall f, f < nI -> vsub (vmul (up f) (atV x (nei f))) (vmul (dO f) (atV x (own f))) = vscale (sc (own f)) (F f)) ->
      (forall f, f < nI -> vsub (vmul (lo f) (atV x (own f))) (vmul (dN f) (atV x (nei f))) = vneg (vscale (sc (nei f)) (F f))) ->
      (forall b, b < nB -> vadd (vmul (bd b) (atV x (fc b))) (br b) = vscale (sc (fc b)) (F (nI + b))) ->
      forall c, c < nC ->
      residual p values' rhs' x c = vadd (residual p values rhs x c) (vscale (sc c) (cell_balance m F c)).
    Proof using Hm Hp Hpl HL HUL.
      intros Hv Hr H1 H2 H3 c Hc. unfold residual. rewrite !mat_row_mesh by done. rewrite Hr by done.
      rewrite (Hv (Diag c)) by done.
      rewrite (vsum_over_ext nI (fun f => if decide (own f = c) then vmul (atV values' (slot (Upper f))) (atV x (nei f)) else vzero)
         (fun f => vadd (if decide (own f = c) then vmul (atV values (slot (Upper f))) (atV x (nei f)) else vzero)
                        (if decide (own f = c) then vmul (up f) (atV x (nei f)) else vzero))).
      2:{ intros f Hf. destruct (decide _); [|ring]. rewrite (Hv (Upper f)) by done. simpl delta. ring. }
      rewrite (vsum_over_ext nI (fun f => if decide (nei f = c) then vmul (atV values' (slot (Lower f))) (atV x (own f)) else vzero)
         (fun f => vadd (if decide (nei f = c) then vmul (atV values (slot (Lower f))) (atV x (own f)) else vzero)
                        (if decide (nei f = c) then vmul (lo f) (atV x (own f)) else vzero))).
      2:{ intros f Hf. destruct (decide _); [|ring]. rewrite (Hv (Lower f)) by done. simpl delta. ring. }
      rewrite !vsum_over_add. unfold cell_balance. rewrite vscale_unit.
      assert (Hsc : forall n (g : nat -> V) k, vmul k (vsum_over n g) = vsum_over n (fun i => vmul k (g i))).
      { intros n g k. induction n as [|n IH]; [unfold vsum_over; simpl; ring|]. rewrite !vsum_over_S, <- IH. ring. }
      assert (Hmr : forall n (g : nat -> V) k, vmul (vsum_over n g) k = vsum_over n (fun i => vmul (g i) k)).
      { intros n g k. rewrite vmul_comm, Hsc. apply vsum_over_ext. intros; ring. }
      (* the three sums of the balance *)
      assert (E1 : vmul (vscale (sc c) vone) (vsum_over nI (fun f => if decide (own f = c) then F f else vzero))
        = vsub (vsum_over nI (fun f => if decide (own f = c) then vmul (up f) (atV x (nei f)) else vzero))
               (vmul (vsum_over nI (fun f => if decide (own f = c) then dO f else vzero)) (atV x c))).
      { rewrite Hsc, Hmr. unfold vsub. rewrite <- vsum_over_neg, <- vsum_over_add. apply vsum_over_ext. intros f Hf.
        destruct (decide (own f = c)) as [<-|]; [|ring]. rewrite <- vscale_unit, <- H1 by done. ring. }
      assert (E2 : vmul (vscale (sc c) vone) (vsum_over nI (fun f => if decide (nei f = c) then F f else vzero))
        = vneg (vsub (vsum_over nI (fun f => if decide (nei f = c) then vmul (lo f) (atV x (own f)) else vzero))
               (vmul (vsum_over nI (fun f => if decide (nei f = c) then dN f else vzero)) (atV x c)))).
      { rewrite Hsc, Hmr. unfold vsub. rewrite <- vsum_over_neg, <- vsum_over_add, <- vsum_over_neg. apply vsum_over_ext. intros f Hf.
        destruct (decide (nei f = c)) as [<-|]; [|ring]. rewrite <- vscale_unit.
        rewrite <- (vneg_neg (vscale (sc (nei f)) (F f))), <- H2 by done. ring. }
      assert (E3 : vmul (vscale (sc c) vone) (vsum_over nB (fun b => if decide (fc b = c) then F (nI + b) else vzero))
        = vadd (vmul (vsum_over nB (fun b => if decide (fc b = c) then bd b else vzero)) (atV x c))
               (vsum_over nB (fun b => if decide (fc b = c) then br b else vzero))).
      { rewrite Hsc, Hmr. rewrite <- vsum_over_add. apply vsum_over_ext. intros b Hb.
        destruct (decide (fc b = c)) as [<-|]; [|ring]. rewrite <- vscale_unit, <- H3 by done. ring. }
      match goal with |- _ = vadd _ (vmul ?k (vadd (vsub ?a ?b) ?d)) =>
        replace (vmul k (vadd (vsub a b) d)) with (vadd (vsub (vmul k a) (vmul k b)) (vmul k d)) by ring end.
      rewrite E1, E2, E3. simpl delta. ring.
    Qed.
  End faces.
End asm.
