(** The implicit operators under any arithmetic: specification and proofs.
    Nothing is assumed about [vadd], [vneg] and [vscale]; in particular they may
    be floating-point operations. *)
From Verif Require Import Base Par ParProofs Exec ExecProofs Value Kernel KernelProofs KernelAnyArith KernelMixed Mesh MeshSpec Coeff FV FVSpec FVProofs FVAnyArith
  Sparsity SparsitySpec Assembly AssemblySpec AssemblyProofs.

Section spec.
  Context {V : Type}.
  (** One term per internal face of cell [c], in the order of the faces: [gO] where
      the cell is the owner, [gN] where it is the neighbour. *)
  Definition cell_terms (m : mesh) (gO gN : nat -> V) (c : nat) : list V :=
    concat (map (fun f => (if decide (atn (faceOwner m) f = c) then [gO f] else []) ++
                          (if decide (atn (faceNeighbour m) f = c) then [gN f] else []))
                (seq 0 (nInternalFaces m))).
  (** One term per boundary face of cell [c]. *)
  Definition patch_terms (m : mesh) (g : nat -> V) (c : nat) : list V :=
    concat (map (fun b => if decide (atn (bFaceCells (bmesh m)) b = c) then [g b] else []) (seq 0 (nBoundaryFaces m))).

  Context `{ValueType V}.
  (** The system (values', rhs') is (values, rhs) with, one addition at a time:
      [lo f], [up f] added to the two off-diagonal coefficients of face [f];
      in the diagonal of cell [c] the terms of its internal faces in some order,
      then those of its boundary faces in some order; in the right-hand side the
      terms of its boundary faces in some order.  On the serial executor every
      order is that of the faces. *)
  Record assembled (e : executor) (m : mesh) (p : sparsity) (lo up dO dN bd br : nat -> V)
      (values rhs values' rhs' : list V) : Prop := {
    asm_ok : sys_ok m p values' rhs';
    asm_lower : forall f, f < nInternalFaces m ->
      atV values' (loc_slot m p (Lower f)) = vadd (atV values (loc_slot m p (Lower f))) (lo f);
    asm_upper : forall f, f < nInternalFaces m ->
      atV values' (loc_slot m p (Upper f)) = vadd (atV values (loc_slot m p (Upper f))) (up f);
    asm_diag : forall c, c < nCells m -> exists li lb,
      li ≡ₚ cell_terms m dO dN c /\ lb ≡ₚ patch_terms m bd c /\
      (e = SerialExecutor -> li = cell_terms m dO dN c /\ lb = patch_terms m bd c) /\
      atV values' (loc_slot m p (Diag c)) = foldl vadd (foldl vadd (atV values (loc_slot m p (Diag c))) li) lb;
    asm_rhs : forall c, c < nCells m -> exists lb, lb ≡ₚ patch_terms m br c /\
      (e = SerialExecutor -> lb = patch_terms m br c) /\
      atV rhs' c = foldl vadd (atV rhs c) lb;
  }.
End spec.

Lemma concat_pick_one {A} (x : nat -> A) n i : i < n -> concat (map (fun j => if decide (j = i) then [x j] else []) (seq 0 n)) = [x i].
Proof.
  intros Hi. assert (Hz : forall s k, (forall j, s <= j < s + k -> j <> i) -> concat (map (fun j => if decide (j = i) then [x j] else []) (seq s k)) = []).
  { intros s k. revert s. induction k as [|k IH]; intros s Hj; [done|]. cbn [seq map concat]. rewrite decide_False by (apply Hj; lia). cbn [app]. apply IH. intros j ?. apply Hj. lia. }
  replace n with (i + S (n - i - 1)) by lia. rewrite seq_app, map_app, concat_app, Hz by lia.
  cbn [seq app map concat Nat.add]. rewrite decide_True by done. cbn [app]. f_equal. apply Hz. lia.
Qed.
Lemma concat_none {A B} (l : list A) : concat (map (fun _ => [] : list B) l) = [].
Proof. by induction l. Qed.

Section asm.
  Context {V : Type} `{ValueType V} `{ValueUnit V}.
  Context (m : mesh) (Hm : valid_topology m) (p : sparsity) (Hpl : pattern_located m p).
  Notation mem := (list (list V)).
  Notation slot := (loc_slot m p).
  Notation own f := (atn (faceOwner m) f).
  Notation nei f := (atn (faceNeighbour m) f).
  Notation fc b := (atn (bFaceCells (bmesh m)) b).
  Notation nI := (nInternalFaces m).
  Notation nB := (nBoundaryFaces m).
  Notation nC := (nCells m).

  Lemma terms_cons a (s : stmt V) l : terms a (s :: l) = (if decide (stmt_addr s = a) then [term_of s] else []) ++ terms a l.
  Proof. unfold terms. rewrite filter_cons. by destruct (decide (stmt_addr s = a)). Qed.
  Lemma terms_nil a : terms a ([] : list (stmt V)) = [].
  Proof. done. Qed.
  Lemma slot_if {A} l l' (v : list A) : loc_valid m l -> loc_valid m l' ->
    (if decide ((0, slot l) = (0, slot l')) then v else []) = if decide (l = l') then v else [].
  Proof.
    intros Hl Hl'. destruct (decide ((0, slot l) = (0, slot l'))) as [E|E], (decide (l = l')) as [E'|E']; try done.
    - exfalso. apply E'. apply (pl_inj _ _ Hpl); congruence.
    - exfalso. apply E. congruence.
  Qed.
  Lemma mget0 (a b : list V) i : mget [a; b] (0, i) = a !! i.
  Proof. done. Qed.
  Lemma mget1' (a b : list V) i : mget [a; b] (1, i) = b !! i.
  Proof. done. Qed.

  Section faces.
    Context (lo up dO dN bd br : nat -> V) (kI kB : kernel V) (sb : nat -> stmt V).
    Context (HkI : forall f, f < nI -> kI f = Some (ibody m p lo up dO dN f)).
    Context (HkB : forall b, b < nB -> kB (nI + b) = Some [sb b; SSub (1, fc b) (br b)]).
    Context (Hsb : forall b, b < nB -> stmt_addr (sb b) = (0, slot (Diag (fc b))) /\ additive (sb b) = true /\ term_of (sb b) = bd b).

    Lemma internal_loc_terms l : loc_valid m l -> terms (0, slot l) (all_stmts 0 nI kI) =
      match l with
      | Diag c => cell_terms m (fun f => vneg (dO f)) (fun f => vneg (dN f)) c
      | Upper f => [up f]
      | Lower f => [lo f]
      end.
    Proof using HkI Hpl Hm.
      intros Hl. rewrite terms_all, Nat.sub_0_r.
      rewrite (map_ext_in _ (fun f => (if decide (Lower f = l) then [lo f] else []) ++ (if decide (Diag (own f) = l) then [vneg (dO f)] else []) ++
         (if decide (Upper f = l) then [up f] else []) ++ (if decide (Diag (nei f) = l) then [vneg (dN f)] else []))).
      2:{ intros f Hf%in_seq. unfold stmts_of. rewrite HkI by lia. unfold default, from_option, Datatypes.id. unfold ibody.
          rewrite !terms_cons, terms_nil, app_nil_r. cbn [stmt_addr term_of Datatypes.id].
          rewrite !slot_if by (try done; simpl; (lia || (apply (owner_lt m Hm); lia) || (apply nei_lt'; [done|lia]))). done. }
      destruct l as [c|f0|f0].
      - unfold cell_terms. f_equal. apply map_ext. intros f.
        rewrite (decide_False (P := Lower f = Diag c)), (decide_False (P := Upper f = Diag c)) by congruence. cbn [app].
        destruct (decide (Diag (own f) = Diag c)), (decide (own f = c)), (decide (Diag (nei f) = Diag c)), (decide (nei f = c)); try congruence; done.
      - etransitivity; [|apply (concat_pick_one up nI f0 Hl)]. f_equal. apply map_ext. intros f.
        rewrite (decide_False (P := Lower f = Upper f0)), (decide_False (P := Diag (own f) = Upper f0)), (decide_False (P := Diag (nei f) = Upper f0)) by congruence.
        cbn [app]. rewrite app_nil_r. destruct (decide (Upper f = Upper f0)), (decide (f = f0)); congruence.
      - etransitivity; [|apply (concat_pick_one lo nI f0 Hl)]. f_equal. apply map_ext. intros f.
        rewrite (decide_False (P := Upper f = Lower f0)), (decide_False (P := Diag (own f) = Lower f0)), (decide_False (P := Diag (nei f) = Lower f0)) by congruence.
        cbn [app]. rewrite app_nil_r. destruct (decide (Lower f = Lower f0)), (decide (f = f0)); congruence.
    Qed.
    Lemma internal_rhs_terms c : terms (1, c) (all_stmts 0 nI kI) = [].
    Proof using HkI.
      rewrite terms_all, Nat.sub_0_r. rewrite (map_ext_in _ (fun _ => [])); [apply concat_none|].
      intros f Hf%in_seq. unfold stmts_of. rewrite HkI by lia. unfold default, from_option, Datatypes.id. unfold ibody.
      rewrite !terms_cons. cbn [stmt_addr]. rewrite !decide_False by congruence. done.
    Qed.
    Lemma shift_seq : seq nI (nI + nB - nI) = map (Nat.add nI) (seq 0 nB).
    Proof. replace (nI + nB - nI) with nB by lia. symmetry. etransitivity; [apply (fmap_add_seq nI 0)|]. by rewrite Nat.add_0_r. Qed.
    Lemma boundary_loc_terms l : loc_valid m l -> terms (0, slot l) (all_stmts nI (nI + nB) kB) =
      match l with Diag c => patch_terms m bd c | _ => [] end.
    Proof using HkB Hsb Hpl Hm.
      intros Hl. rewrite terms_all, shift_seq, map_map.
      rewrite (map_ext_in _ (fun b => if decide (Diag (fc b) = l) then [bd b] else [])).
      2:{ intros b Hb%in_seq. unfold stmts_of. rewrite HkB by lia. unfold default, from_option, Datatypes.id.
          destruct (Hsb b ltac:(lia)) as (E & _ & Et). rewrite !terms_cons, terms_nil, E, Et. cbn [stmt_addr].
          rewrite (decide_False (P := (1, fc b) = (0, slot l))) by congruence.
          rewrite slot_if by (done || (simpl; apply fc_lt'; [done|lia])). cbn. by rewrite !app_nil_r. }
      destruct l as [c|f0|f0].
      - unfold patch_terms. f_equal. apply map_ext. intros b. destruct (decide (Diag (fc b) = Diag c)), (decide (fc b = c)); congruence.
      - apply concat_none.
      - apply concat_none.
    Qed.
    Lemma boundary_rhs_terms c : c < nC -> terms (1, c) (all_stmts nI (nI + nB) kB) = patch_terms m (fun b => vneg (br b)) c.
    Proof using HkB Hsb.
      intros Hc. rewrite terms_all, shift_seq, map_map. unfold patch_terms. f_equal. apply map_ext_in.
      intros b Hb%in_seq. unfold stmts_of. rewrite HkB by lia. unfold default, from_option, Datatypes.id.
      destruct (Hsb b ltac:(lia)) as (E & _). rewrite !terms_cons, terms_nil, E. cbn [stmt_addr term_of].
      rewrite (decide_False (P := (0, slot (Diag (fc b))) = (1, c))) by congruence. cbn [app]. rewrite app_nil_r.
      destruct (decide ((1, fc b) = (1, c))), (decide (fc b = c)); congruence.
    Qed.

    Theorem faces_any_arith e (values rhs : list V) : no_boundary_race e m -> sys_ok m p values rhs ->
      every_outcome (pseq (pfor e 0 nI kI) (pfor e nI (nI + nB) kB) [values; rhs])
        (fun sys => exists values' rhs', sys = [values'; rhs'] /\
          assembled e m p lo up (fun f => vneg (dO f)) (fun f => vneg (dN f)) bd (fun b => vneg (br b)) values rhs values' rhs').
    Proof using HkI HkB Hsb Hpl Hm.
      intros Hrace [Hlv Hlr].
      eapply (every_pseq _ _ _ (fun sys => exists values1, sys = [values1; rhs] /\ length values1 = sp_nnz p /\
        forall l, loc_valid m l -> exists ts, ts ≡ₚ terms (0, slot l) (all_stmts 0 nI kI) /\
          (e = SerialExecutor -> ts = terms (0, slot l) (all_stmts 0 nI kI)) /\
          atV values1 (slot l) = foldl vadd (atV values (slot l)) ts)).
      - destruct (pfor_accumulate_mixed e 0 nI kI [values; rhs]) as (Hn & He & Ha).
        { intros f Hf. exists (ibody m p lo up dO dN f). split; [apply HkI; lia|]. rewrite shape2, Hlv, Hlr. unfold ibody.
          repeat constructor; simpl; apply in_shape2_0, slot_lt; simpl; try done; try lia; (apply (owner_lt m Hm) || apply nei_lt'); try done; lia. }
        { intros f s Hf Hs. unfold stmts_of in Hs. rewrite HkI in Hs by lia. simpl in Hs. unfold ibody in Hs.
          repeat (apply elem_of_cons in Hs as [->|Hs]; [done|]). by apply elem_of_nil in Hs. }
        { left. apply (ibody_race m Hm p Hpl lo up dO dN kI HkI). }
        split; [done|]. split; [done|]. intros sys Hs. destruct (Ha sys Hs) as [Hsh Hg].
        rewrite shape2 in Hsh. apply shape2_inv in Hsh as (values1 & rhs1 & -> & Hlv1 & Hlr1). exists values1.
        assert (rhs1 = rhs) as ->.
        { apply list_eq. intros i. destruct (Hg (1, i)) as (l & Hp & _ & Hi). rewrite internal_rhs_terms in Hp.
          apply Permutation_nil_r in Hp as ->. rewrite !mget1' in Hi. rewrite Hi. by destruct (rhs !! i). }
        split; [done|]. split; [lia|]. intros l Hl. destruct (Hg (0, slot l)) as (ts & Hp & Hsr & Hi). exists ts. split; [done|]. split; [done|].
        pose proof (slot_lt m p Hpl l Hl). rewrite !mget0, !(lookup_atV _ (slot l)) in Hi by lia. simpl in Hi. by injection Hi.
      - intros sys (values1 & -> & Hlv1 & Hv1).
        assert (Hst : forall i, nI <= i < nI + nB -> kB i = Some [sb (i - nI); SSub (1, fc (i - nI)) (br (i - nI))]).
        { intros i Hi. replace i with (nI + (i - nI)) at 1 by lia. apply HkB. lia. }
        destruct (pfor_accumulate_mixed e nI (nI + nB) kB [values1; rhs]) as (Hn & He & Ha).
        { intros i Hi. eexists. split; [by apply Hst|]. rewrite shape2, Hlv1, Hlr.
          destruct (Hsb (i - nI) ltac:(lia)) as (E & _). repeat constructor; simpl.
          - rewrite E. apply in_shape2_0, slot_lt; [done|]. simpl. apply fc_lt'; [done|lia].
          - apply in_shape2_1, fc_lt'; [done|lia]. }
        { intros i s Hi Hs. unfold stmts_of in Hs. rewrite Hst in Hs by done. simpl in Hs.
          apply elem_of_cons in Hs as [->|Hs]; [apply Hsb; lia|]. by apply elem_of_list_singleton in Hs as ->. }
        { destruct Hrace as [->|Honce]; [by right|]. left.
          intros i j s t Hi Hj Hij Hs Ht E. exfalso. unfold stmts_of in Hs, Ht.
          rewrite Hst in Hs, Ht by done. simpl in Hs, Ht.
          destruct (Hsb (i - nI) ltac:(lia)) as (Ei & _). destruct (Hsb (j - nI) ltac:(lia)) as (Ej & _).
          assert (Hfc : fc (i - nI) = fc (j - nI)).
          { apply elem_of_cons in Hs as [->|Hs]; apply elem_of_cons in Ht as [->|Ht];
              try (apply elem_of_list_singleton in Hs as ->); try (apply elem_of_list_singleton in Ht as ->);
              rewrite ?Ei, ?Ej in E; simpl in E; try congruence.
            assert (Diag (fc (i - nI)) = Diag (fc (j - nI))) as [= ->]; [|done].
            apply (pl_inj _ _ Hpl); [simpl; apply fc_lt'; [done|lia]|simpl; apply fc_lt'; [done|lia]|congruence]. }
          apply Honce in Hfc; lia. }
        split; [done|]. split; [done|]. intros sys Hs. destruct (Ha sys Hs) as [Hsh Hg].
        rewrite shape2 in Hsh. apply shape2_inv in Hsh as (values2 & rhs2 & -> & Hlv2 & Hlr2). exists values2, rhs2. split; [done|].
        assert (Hv2 : forall l, loc_valid m l -> exists ts, ts ≡ₚ terms (0, slot l) (all_stmts nI (nI + nB) kB) /\
          (e = SerialExecutor -> ts = terms (0, slot l) (all_stmts nI (nI + nB) kB)) /\ atV values2 (slot l) = foldl vadd (atV values1 (slot l)) ts).
        { intros l Hl. destruct (Hg (0, slot l)) as (ts & Hp & Hsr & Hi). exists ts. split; [done|]. split; [done|].
          pose proof (slot_lt m p Hpl l Hl). rewrite !mget0, !(lookup_atV _ (slot l)) in Hi by lia. simpl in Hi. by injection Hi. }
        assert (Hoff : forall l v, loc_valid m l -> terms (0, slot l) (all_stmts 0 nI kI) = [v] -> terms (0, slot l) (all_stmts nI (nI + nB) kB) = [] ->
          atV values2 (slot l) = vadd (atV values (slot l)) v).
        { intros l v Hl E1 E2. destruct (Hv1 l Hl) as (t1 & P1 & _ & Q1).
          destruct (Hv2 l Hl) as (t2 & P2 & _ & Q2). rewrite E1 in P1. rewrite E2 in P2.
          apply Permutation_singleton_r in P1 as ->. apply Permutation_nil_r in P2 as ->. rewrite Q2. cbn. by rewrite Q1. }
        constructor.
        + split; lia.
        + intros f Hf. apply (Hoff (Lower f)); [done|by rewrite internal_loc_terms|by rewrite boundary_loc_terms].
        + intros f Hf. apply (Hoff (Upper f)); [done|by rewrite internal_loc_terms|by rewrite boundary_loc_terms].
        + intros c Hc. destruct (Hv1 (Diag c) Hc) as (t1 & P1 & S1 & Q1). destruct (Hv2 (Diag c) Hc) as (t2 & P2 & S2 & Q2).
          rewrite internal_loc_terms in P1, S1 by done. rewrite boundary_loc_terms in P2, S2 by done.
          exists t1, t2. split; [done|]. split; [done|]. split; [auto|]. by rewrite Q2, Q1.
        + intros c Hc. destruct (Hg (1, c)) as (ts & Hp & Hsr & Hi). rewrite boundary_rhs_terms in Hp, Hsr by done.
          exists ts. split; [done|]. split; [done|]. rewrite !mget1', !(lookup_atV _ c) in Hi by lia. simpl in Hi. by injection Hi.
    Qed.

    (** The diagonal of any one cell can see its terms in any order. *)
    Theorem faces_every_order_asm e (values rhs : list V) c li lb : e <> SerialExecutor -> sys_ok m p values rhs -> c < nC ->
      li ≡ₚ cell_terms m (fun f => vneg (dO f)) (fun f => vneg (dN f)) c -> lb ≡ₚ patch_terms m bd c ->
      exists values' rhs', pseq (pfor e 0 nI kI) (pfor e nI (nI + nB) kB) [values; rhs] (Some [values'; rhs']) /\ sys_ok m p values' rhs' /\
        atV values' (slot (Diag c)) = foldl vadd (foldl vadd (atV values (slot (Diag c))) li) lb.
    Proof using HkI HkB Hsb Hpl Hm.
      intros He [Hlv Hlr] Hc Hli Hlb.
      set (F1 := fun f => if decide (own f = c) then Some (vneg (dO f)) else if decide (nei f = c) then Some (vneg (dN f)) else None).
      set (F2 := fun i => if decide (fc (i - nI) = c) then Some (bd (i - nI)) else None).
      assert (T1 : forall order, (forall f, f ∈ order -> f < nI) -> terms (0, slot (Diag c)) (concat (map (stmts_of kI) order)) = omap F1 order).
      { intros order Ho. transitivity (concat (map (fun i => terms (0, slot (Diag c)) (stmts_of kI i)) order)).
        { clear. induction order as [|i l IH]; [done|]. simpl. by rewrite terms_app, IH. }
        apply concat_omap. intros f Hf. pose proof (Ho f Hf) as Hlt. unfold stmts_of. rewrite HkI by done. unfold default, from_option, Datatypes.id, ibody.
        rewrite !terms_cons, terms_nil, app_nil_r. cbn [stmt_addr term_of].
        rewrite !slot_if by (try done; simpl; (lia || (apply (owner_lt m Hm); lia) || (apply nei_lt'; [done|lia]))).
        rewrite (decide_False (P := Lower f = Diag c)), (decide_False (P := Upper f = Diag c)) by congruence. cbn [app]. unfold F1.
        pose proof (vt_owner _ Hm f Hlt).
        destruct (decide (Diag (own f) = Diag c)), (decide (own f = c)), (decide (Diag (nei f) = Diag c)), (decide (nei f = c)); try congruence; try done; lia. }
      assert (Hst : forall i, nI <= i < nI + nB -> kB i = Some [sb (i - nI); SSub (1, fc (i - nI)) (br (i - nI))]).
      { intros i Hi. replace i with (nI + (i - nI)) at 1 by lia. apply HkB. lia. }
      assert (T2 : forall order, (forall f, f ∈ order -> nI <= f < nI + nB) -> terms (0, slot (Diag c)) (concat (map (stmts_of kB) order)) = omap F2 order).
      { intros order Ho. transitivity (concat (map (fun i => terms (0, slot (Diag c)) (stmts_of kB i)) order)).
        { clear. induction order as [|i l IH]; [done|]. simpl. by rewrite terms_app, IH. }
        apply concat_omap. intros f Hf. pose proof (Ho f Hf) as Hlt. unfold stmts_of. rewrite Hst by done. unfold default, from_option, Datatypes.id.
        destruct (Hsb (f - nI) ltac:(lia)) as (E & _ & Et). rewrite !terms_cons, terms_nil, E, Et. cbn [stmt_addr].
        rewrite (decide_False (P := (1, fc (f - nI)) = (0, slot (Diag c)))) by congruence.
        rewrite slot_if by (done || (simpl; apply fc_lt'; [done|lia])). unfold F2. cbn [app].
        destruct (decide (Diag (fc (f - nI)) = Diag c)), (decide (fc (f - nI) = c)); try congruence; done. }
      assert (K1 : kernel_ok (shape [values; rhs]) 0 nI kI).
      { intros f Hf. exists (ibody m p lo up dO dN f). split; [apply HkI; lia|]. rewrite shape2, Hlv, Hlr. unfold ibody.
        repeat constructor; simpl; apply in_shape2_0, slot_lt; simpl; try done; try lia; (apply (owner_lt m Hm) || apply nei_lt'); try done; lia. }
      rewrite <- (internal_loc_terms (Diag c) Hc) in Hli. unfold all_stmts in Hli. rewrite T1 in Hli by (intros f Hf%elem_of_seq; lia).
      rewrite <- (boundary_loc_terms (Diag c) Hc) in Hlb. unfold all_stmts in Hlb. rewrite T2 in Hlb by (intros f Hf%elem_of_seq; lia).
      apply omap_order in Hli as (o1 & Ho1 & E1). apply omap_order in Hlb as (o2 & Ho2 & E2).
      assert (O1 : forall f, f ∈ o1 -> f < nI) by (intros f Hf; rewrite Ho1 in Hf; apply elem_of_seq in Hf; lia).
      assert (O2 : forall f, f ∈ o2 -> nI <= f < nI + nB) by (intros f Hf; rewrite Ho2 in Hf; apply elem_of_seq in Hf; lia).
      pose proof (pfor_every_order e 0 nI kI [values; rhs] o1 He K1 Ho1) as P1.
      assert (S1 : shape (foldl apply_stmt [values; rhs] (concat (map (stmts_of kI) o1))) = [length values; length rhs]) by (by rewrite shape_foldl).
      assert (G1 : mget (foldl apply_stmt [values; rhs] (concat (map (stmts_of kI) o1))) (0, slot (Diag c)) = Some (foldl vadd (atV values (slot (Diag c))) li)).
      { pose proof (slot_lt m p Hpl (Diag c) Hc). rewrite mget_foldl_terms.
        - rewrite mget0, lookup_atV, T1, E1 by (done || lia). done.
        - apply Forall_forall. intros s Hs. apply elem_of_list_In, in_concat in Hs as (b & Hb & Hs). apply in_map_iff in Hb as (f & <- & Hf).
          apply elem_of_list_In in Hf, Hs. unfold stmts_of in Hs. rewrite HkI in Hs by auto. simpl in Hs. unfold ibody in Hs.
          repeat (apply elem_of_cons in Hs as [->|Hs]; [done|]). by apply elem_of_nil in Hs.
        - apply Forall_forall. intros s Hs. apply elem_of_list_In, in_concat in Hs as (b & Hb & Hs). apply in_map_iff in Hb as (f & <- & Hf).
          apply elem_of_list_In in Hf, Hs. destruct (K1 f) as (b & Eb & Hin); [specialize (O1 f Hf); lia|]. unfold stmts_of in Hs. rewrite Eb in Hs. simpl in Hs.
          rewrite Forall_forall in Hin. by apply Hin. }
      apply shape2_inv in S1 as (values1 & rhs1 & Em1 & Hlv1 & Hlr1). rewrite Em1 in P1, G1. clear Em1.
      assert (K2 : kernel_ok (shape [values1; rhs1]) nI (nI + nB) kB).
      { intros i Hi. eexists. split; [by apply Hst|]. rewrite shape2, Hlv1, Hlr1, Hlv, Hlr.
        destruct (Hsb (i - nI) ltac:(lia)) as (E & _). repeat constructor; simpl.
        - rewrite E. apply in_shape2_0, slot_lt; [done|]. simpl. apply fc_lt'; [done|lia].
        - apply in_shape2_1, fc_lt'; [done|lia]. }
      pose proof (pfor_every_order e nI (nI + nB) kB [values1; rhs1] o2 He K2 Ho2) as P2.
      assert (S2 : shape (foldl apply_stmt [values1; rhs1] (concat (map (stmts_of kB) o2))) = [length values1; length rhs1]) by (by rewrite shape_foldl).
      assert (G2 : mget (foldl apply_stmt [values1; rhs1] (concat (map (stmts_of kB) o2))) (0, slot (Diag c)) =
        Some (foldl vadd (foldl vadd (atV values (slot (Diag c))) li) lb)).
      { rewrite mget_foldl_terms.
        - rewrite G1, T2, E2 by done. done.
        - apply Forall_forall. intros s Hs. apply elem_of_list_In, in_concat in Hs as (b & Hb & Hs). apply in_map_iff in Hb as (f & <- & Hf).
          apply elem_of_list_In in Hf, Hs. specialize (O2 f Hf). unfold stmts_of in Hs. rewrite Hst in Hs by done. simpl in Hs.
          apply elem_of_cons in Hs as [->|Hs]; [apply Hsb; lia|]. by apply elem_of_list_singleton in Hs as ->.
        - apply Forall_forall. intros s Hs. apply elem_of_list_In, in_concat in Hs as (b & Hb & Hs). apply in_map_iff in Hb as (f & <- & Hf).
          apply elem_of_list_In in Hf, Hs. destruct (K2 f) as (b & Eb & Hin); [auto|]. unfold stmts_of in Hs. rewrite Eb in Hs. simpl in Hs.
          rewrite Forall_forall in Hin. by apply Hin. }
      apply shape2_inv in S2 as (values2 & rhs2 & Em2 & Hlv2 & Hlr2). rewrite Em2 in P2, G2.
      exists values2, rhs2. split; [right; exists [values1; rhs1]; done|]. split; [split; lia|].
      rewrite mget0 in G2. unfold atV at 1. by rewrite G2.
    Qed.
  End faces.

  (** ** Cell-wise operators: one addition per diagonal, one result *)
  Section cells.
    Context (Hp : pattern_rows m p).
    Lemma rp_lookup_any c : c < nC -> sp_rowPtrs p !! c = Some (atn (sp_rowPtrs p) c).
    Proof using Hp. intros Hc. apply lookup_atn. rewrite (pr_rp_len _ _ Hp). lia. Qed.
    Lemma diag_lookup_any c : c < nC -> sp_diagOffset p !! c = Some (atn (sp_diagOffset p) c).
    Proof using Hp. intros Hc. apply lookup_atn. pose proof (pr_rows _ _ Hp). unfold sp_rows in *. lia. Qed.
    Lemma ownoff_lookup_any f : f < nI -> sp_ownerOffset p !! f = Some (atn (sp_ownerOffset p) f).
    Proof using Hp. intros Hf. apply lookup_atn. by rewrite (pr_own_len _ _ Hp). Qed.
    Lemma neioff_lookup_any f : f < nI -> sp_neighbourOffset p !! f = Some (atn (sp_neighbourOffset p) f).
    Proof using Hp. intros Hf. apply lookup_atn. by rewrite (pr_nei_len _ _ Hp). Qed.

    Context (k : kernel V) (dd rr : nat -> V) (both : bool).
    Context (Hk : forall c, c < nC -> k c = Some (SAdd (0, slot (Diag c)) (dd c) :: if both then [SAdd (1, c) (rr c)] else [])).

    Lemma cells_terms l : loc_valid m l -> terms (0, slot l) (all_stmts 0 nC k) = match l with Diag c => [dd c] | _ => [] end.
    Proof using Hk Hpl.
      intros Hl. rewrite terms_all, Nat.sub_0_r.
      rewrite (map_ext_in _ (fun c => if decide (Diag c = l) then [dd c] else [])).
      2:{ intros c Hc%in_seq. unfold stmts_of. rewrite Hk by lia. unfold default, from_option, Datatypes.id. rewrite terms_cons. cbn [stmt_addr term_of].
          rewrite slot_if by (done || (simpl; lia)). destruct both; rewrite ?terms_cons, ?terms_nil; cbn [stmt_addr];
            rewrite ?(decide_False (P := (1, c) = (0, slot l))) by congruence; by rewrite ?app_nil_r. }
      destruct l as [c|f0|f0]; [|apply concat_none|apply concat_none].
      etransitivity; [|apply (concat_pick_one dd nC c Hl)]. f_equal. apply map_ext. intros i.
      destruct (decide (Diag i = Diag c)), (decide (i = c)); congruence.
    Qed.
    Lemma cells_rhs_terms c : c < nC -> terms (1, c) (all_stmts 0 nC k) = if both then [rr c] else [].
    Proof using Hk.
      intros Hc. rewrite terms_all, Nat.sub_0_r.
      rewrite (map_ext_in _ (fun i => if both then if decide (i = c) then [rr i] else [] else [])).
      2:{ intros i Hi%in_seq. unfold stmts_of. rewrite Hk by lia. unfold default, from_option, Datatypes.id. rewrite terms_cons. cbn [stmt_addr term_of].
          rewrite (decide_False (P := (0, slot (Diag i)) = (1, c))) by congruence. destruct both; rewrite ?terms_cons, ?terms_nil; cbn [stmt_addr term_of]; [|done].
          rewrite app_nil_r. destruct (decide ((1, i) = (1, c))), (decide (i = c)); done || congruence. }
      destruct both; [|apply concat_none]. apply (concat_pick_one rr nC c Hc).
    Qed.
    Theorem cells_any_arith e (values rhs : list V) : sys_ok m p values rhs ->
      exists values' rhs', (forall r, pfor e 0 nC k [values; rhs] r <-> r = Some [values'; rhs']) /\ sys_ok m p values' rhs' /\
        (forall l, loc_valid m l -> atV values' (slot l) =
           match l with Diag c => vadd (atV values (slot (Diag c))) (dd c) | _ => atV values (slot l) end) /\
        (forall c, c < nC -> atV rhs' c = if both then vadd (atV rhs c) (rr c) else atV rhs c).
    Proof using Hk Hpl.
      intros [Hlv Hlr].
      assert (Hok : kernel_ok (shape [values; rhs]) 0 nC k).
      { intros c Hc. eexists. split; [apply Hk; lia|]. rewrite shape2, Hlv, Hlr. constructor.
        - simpl. apply in_shape2_0. apply (slot_lt m p Hpl (Diag c)). simpl. lia.
        - destruct both; repeat constructor. simpl. apply in_shape2_1. lia. }
      assert (Hadd : kernel_additive 0 nC k).
      { intros c s Hc Hs. unfold stmts_of in Hs. rewrite Hk in Hs by lia. simpl in Hs.
        apply elem_of_cons in Hs as [->|Hs]; [done|]. destruct both; [|by apply elem_of_nil in Hs].
        by apply elem_of_list_singleton in Hs as ->. }
      assert (Hdis : disjoint 0 nC k).
      { intros i j s t Hi Hj Hij Hs Ht E. unfold stmts_of in Hs, Ht. rewrite Hk in Hs, Ht by lia. simpl in Hs, Ht.
        assert (Ha : forall i s, s ∈ SAdd (0, slot (Diag i)) (dd i) :: (if both then [SAdd (1, i) (rr i)] else []) ->
          stmt_addr s = (0, slot (Diag i)) \/ stmt_addr s = (1, i)).
        { clear. intros i s Hs. apply elem_of_cons in Hs as [->|Hs]; [by left|]. destruct both; [|by apply elem_of_nil in Hs].
          apply elem_of_list_singleton in Hs as ->. by right. }
        apply Ha in Hs, Ht.
        destruct Hs as [Hs|Hs], Ht as [Ht|Ht]; rewrite Hs, Ht in E; try congruence.
        assert (Diag i = Diag j) as [= ->]; [|done]. apply (pl_inj _ _ Hpl); simpl; [lia|lia|]. injection E. done. }
      assert (S1 : shape (foldl apply_stmt [values; rhs] (all_stmts 0 nC k)) = [length values; length rhs]) by (by rewrite shape_foldl).
      assert (Hg : forall a, mget (foldl apply_stmt [values; rhs] (all_stmts 0 nC k)) a = (fun x => foldl vadd x (terms a (all_stmts 0 nC k))) <$> mget [values; rhs] a).
      { intros a. apply mget_foldl_terms; [by apply all_stmts_additive|by apply all_stmts_ok]. }
      assert (Hr : forall r, pfor e 0 nC k [values; rhs] r <-> r = Some (foldl apply_stmt [values; rhs] (all_stmts 0 nC k))) by (intros r; by apply pfor_disjoint_iff).
      apply shape2_inv in S1 as (values' & rhs' & Em & Hlv' & Hlr'). rewrite Em in Hg, Hr.
      exists values', rhs'. split; [done|]. split; [split; lia|]. split.
      - intros l Hl. pose proof (slot_lt m p Hpl l Hl). specialize (Hg (0, slot l)). rewrite !mget0, !(lookup_atV _ (slot l)), cells_terms in Hg by (done || lia).
        simpl in Hg. injection Hg as ->. by destruct l.
      - intros c Hc. specialize (Hg (1, c)). rewrite !mget1', !(lookup_atV _ c), cells_rhs_terms in Hg by lia. simpl in Hg. injection Hg as ->. by destruct both.
    Qed.
  End cells.
End asm.
