(** Passes over the faces that add the same contribution to both cells of a face,
    under any arithmetic (the Courant number, coNum.cpp:34-53). *)
From Verif Require Import Base Par ParProofs Exec ExecProofs Value Kernel KernelProofs KernelAnyArith Mesh MeshSpec Coeff FV FVSpec FVProofs FVAnyArith.
Section spec.
  Context {V : Type} `{ValueType V}.
  (** The contributions of the internal faces of cell [c]: those it owns or is the neighbour of. *)
  Definition around_terms (m : mesh) (flux : nat -> V) (c : nat) : list V :=
    concat (map (fun f => (if decide (atn (faceOwner m) f = c) then [flux f] else []) ++
                          (if decide (atn (faceNeighbour m) f = c) then [flux f] else []))
                (seq 0 (nInternalFaces m))).
  (** [y]: [x], then all contributions added one at a time, in some order. *)
  Definition sums_up (e : executor) (m : mesh) (flux : nat -> V) (c : nat) (x y : V) : Prop :=
    exists li lb, li ≡ₚ around_terms m flux c /\ lb ≡ₚ boundary_terms m flux c /\
      (e = SerialExecutor -> li = around_terms m flux c /\ lb = boundary_terms m flux c) /\
      y = foldl vadd (foldl vadd x li) lb.
End spec.
Section any.
  Context {V : Type} `{ValueType V}.
  Notation mem := (list (list V)).
  Section faces.

    Context (m : mesh) (Hm : valid_topology m).
    Notation nI := (nInternalFaces m).
    Notation nF := (nInternalFaces m + nBoundaryFaces m).

    (** A statement adding [v] to cell [c]; atomic unless the executor is serial. *)
    Definition adds_to (e : executor) (s : stmt V) (c : nat) (v : V) : Prop :=
      stmt_addr s = (0, c) /\ term_of s = v /\ additive s = true /\ (e = SerialExecutor \/ stmt_atomic s = true).

    Lemma term_one (e : executor) s c d v : adds_to e s c v -> terms (0, d) [s] = if decide (c = d) then [v] else [].
    Proof.
      intros (Ha & Ht & _). unfold terms. rewrite filter_cons, filter_nil, Ha.
      destruct (decide (c = d)) as [->|Hne].
      - rewrite decide_True by done. simpl. by rewrite Ht.
      - rewrite decide_False by congruence. done.
    Qed.

    Section passes.
    Context (e : executor) (k1 k2 : kernel V) (flux : nat -> V).
    Context (Hk1 : forall f, f < nI -> exists s t, k1 f = Some [s; t] /\
         adds_to e s (atn (faceOwner m) f) (flux f) /\ adds_to e t (atn (faceNeighbour m) f) (flux f)).
    Context (Hk2 : forall b, b < nBoundaryFaces m -> exists s, k2 (nI + b) = Some [s] /\
         adds_to e s (atn (bFaceCells (bmesh m)) b) (flux (nI + b))).
    Lemma pass1_ok : forall (r : list V), length r = nCells m -> kernel_ok (shape [r]) 0 nI k1.
    Proof.
      intros r Hr f Hf. destruct (Hk1 f) as (s & t & -> & Hs & Ht); [lia|]. exists [s; t]. split; [done|].
      rewrite shape1, Hr. constructor; [|constructor; [|done]].
      - destruct Hs as (-> & _). apply in_shape1, owner_lt; [done|lia].
      - destruct Ht as (-> & _). apply in_shape1, vt_nei; [done|lia].
    Qed.
    Lemma pass2_ok : forall (r : list V), length r = nCells m -> kernel_ok (shape [r]) nI nF k2.
    Proof.
      intros r Hr f Hf. destruct (Hk2 (f - nI)) as (s & Ek & Hs); [lia|].
      replace (nI + (f - nI)) with f in Ek by lia. exists [s]. split; [done|].
      rewrite shape1, Hr. constructor; [|done]. destruct Hs as (-> & _). apply in_shape1, vt_fc; [done|lia].
    Qed.
    Lemma pass1_additive : kernel_additive 0 nI k1.
    Proof.
      intros f s Hf Hs. destruct (Hk1 f) as (s1 & s2 & Ek & H1 & H2); [lia|]. unfold stmts_of in Hs. rewrite Ek in Hs.
      simpl in Hs. rewrite !elem_of_cons, elem_of_nil in Hs. destruct Hs as [->|[->|[]]]; [apply H1|apply H2].
    Qed.
    Lemma pass2_additive : kernel_additive nI nF k2.
    Proof.
      intros f s Hf Hs. destruct (Hk2 (f - nI)) as (s1 & Ek & H1); [lia|]. replace (nI + (f - nI)) with f in Ek by lia.
      unfold stmts_of in Hs. rewrite Ek in Hs. simpl in Hs. rewrite elem_of_list_singleton in Hs. subst. apply H1.
    Qed.
    Lemma pass1_atomic : e = SerialExecutor \/ kernel_atomic 0 nI k1.
    Proof.
      destruct (decide (e = SerialExecutor)) as [|Hne]; [by left|]. right.
      intros f s Hf Hs. destruct (Hk1 f) as (s1 & s2 & Ek & H1 & H2); [lia|]. unfold stmts_of in Hs. rewrite Ek in Hs.
      simpl in Hs. rewrite !elem_of_cons, elem_of_nil in Hs.
      destruct Hs as [->|[->|[]]]; [destruct H1 as (_ & _ & _ & [?|?])|destruct H2 as (_ & _ & _ & [?|?])]; done.
    Qed.
    Lemma pass2_atomic : e = SerialExecutor \/ kernel_atomic nI nF k2.
    Proof.
      destruct (decide (e = SerialExecutor)) as [|Hne]; [by left|]. right.
      intros f s Hf Hs. destruct (Hk2 (f - nI)) as (s1 & Ek & H1); [lia|]. replace (nI + (f - nI)) with f in Ek by lia.
      unfold stmts_of in Hs. rewrite Ek in Hs. simpl in Hs. rewrite elem_of_list_singleton in Hs. subst.
      destruct H1 as (_ & _ & _ & [?|?]); done.
    Qed.
    Lemma pass1_terms : forall c, terms (0, c) (all_stmts 0 nI k1) = around_terms m flux c.
    Proof.
      intros c. rewrite terms_all, Nat.sub_0_r. unfold around_terms. f_equal. apply map_ext_in. intros f Hf%in_seq.
      destruct (Hk1 f) as (s & t & Ek & Hs & Ht); [lia|]. unfold stmts_of. rewrite Ek. simpl.
      change [s; t] with ([s] ++ [t]). rewrite terms_app.
      by rewrite (term_one e s _ _ _ Hs), (term_one e t _ _ _ Ht).
    Qed.
    Lemma pass2_terms : forall c, terms (0, c) (all_stmts nI nF k2) = boundary_terms m flux c.
    Proof.
      intros c. rewrite terms_all. replace (nF - nI) with (nBoundaryFaces m) by lia. unfold boundary_terms. f_equal.
      replace (seq nI (nBoundaryFaces m)) with (map (Nat.add nI) (seq 0 (nBoundaryFaces m)))
        by (etransitivity; [apply (fmap_add_seq nI 0)|]; by rewrite Nat.add_0_r).
      rewrite map_map. apply map_ext_in. intros b Hb%in_seq.
      destruct (Hk2 b) as (s & Ek & Hs); [lia|]. unfold stmts_of. rewrite Ek. simpl. by rewrite (term_one e s _ _ _ Hs).
    Qed.

    Lemma faces_any (res : list V) : length res = nCells m ->
      every_outcome (pseq (pfor e 0 nI k1) (pfor e nI nF k2) [res])
        (fun m' => exists res', m' = [res'] /\ length res' = nCells m /\
           forall c, c < nCells m -> sums_up e m flux c (atV res c) (atV res' c)).
    Proof.
      intros Hres.
      eapply (every_pseq _ _ _ (fun m' => exists res1, m' = [res1] /\ length res1 = nCells m /\
        forall c, c < nCells m -> exists l, l ≡ₚ around_terms m flux c /\ (e = SerialExecutor -> l = around_terms m flux c) /\
          atV res1 c = foldl vadd (atV res c) l)).
      - destruct (pfor_accumulate_any e 0 nI k1 [res] (pass1_ok res Hres) pass1_additive pass1_atomic) as (Hn & He & Ha).
        split; [done|]. split; [done|]. intros m' Hm'. destruct (Ha m' Hm') as [Hsh Hget].
        rewrite shape1 in Hsh. apply shape1_inv in Hsh as (res1 & -> & Hl). exists res1. split; [done|]. split; [lia|].
        intros c Hc. destruct (Hget (0, c)) as (l & Hp & Hs & Hg). exists l. rewrite <- !pass1_terms. split; [done|]. split; [done|].
        rewrite !mget1, !(lookup_atV _ c) in Hg by lia. simpl in Hg. by injection Hg.
      - intros m1 (res1 & -> & Hl1 & Hc1).
        destruct (pfor_accumulate_any e nI nF k2 [res1] (pass2_ok res1 Hl1) pass2_additive pass2_atomic) as (Hn & He & Ha).
        split; [done|]. split; [done|]. intros m' Hm'. destruct (Ha m' Hm') as [Hsh Hget].
        rewrite shape1 in Hsh. apply shape1_inv in Hsh as (res2 & -> & Hl). exists res2. split; [done|]. split; [lia|].
        intros c Hc. destruct (Hget (0, c)) as (lb & Hp & Hs & Hg). destruct (Hc1 c Hc) as (li & Hp1 & Hs1 & Hg1).
        rewrite pass2_terms in *. exists li, lb. split; [done|]. split; [done|]. split; [auto|].
        rewrite !mget1, !(lookup_atV _ c) in Hg by lia. simpl in Hg. injection Hg as ->. by rewrite Hg1.
    Qed.

    End passes.
  End faces.
End any.
