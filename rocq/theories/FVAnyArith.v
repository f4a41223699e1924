(** The explicit operators under any arithmetic: specification and proofs.
    Nothing is assumed about [vadd], [vneg] and [vscale]; in particular they may
    be floating-point operations. *)
From Verif Require Import Base Par ParProofs Exec ExecProofs Value Kernel KernelProofs KernelAnyArith Mesh MeshSpec Coeff FV FVSpec FVProofs.

Section spec.
  Context {V : Type} `{ValueType V}.
  (** The contributions of the internal faces of cell [c], in the order of the
      faces: the flux of a face it owns, minus the flux of a face it is the
      neighbour of; and of its boundary faces. *)
  Definition internal_terms (m : mesh) (flux : nat -> V) (c : nat) : list V :=
    concat (map (fun f => (if decide (atn (faceOwner m) f = c) then [flux f] else []) ++
                          (if decide (atn (faceNeighbour m) f = c) then [vneg (flux f)] else []))
                (seq 0 (nInternalFaces m))).
  Definition boundary_terms (m : mesh) (flux : nat -> V) (c : nat) : list V :=
    concat (map (fun b => if decide (atn (bFaceCells (bmesh m)) b = c) then [flux (nInternalFaces m + b)] else [])
                (seq 0 (nBoundaryFaces m))).
  (** [y]: [x], then all contributions added one at a time: those of the internal
      faces in some order, those of the boundary faces in some order; on the
      serial executor in the order of the faces. *)
  Definition accumulated (e : executor) (m : mesh) (flux : nat -> V) (c : nat) (x y : V) : Prop :=
    exists li lb, li ≡ₚ internal_terms m flux c /\ lb ≡ₚ boundary_terms m flux c /\
      (e = SerialExecutor -> li = internal_terms m flux c /\ lb = boundary_terms m flux c) /\
      y = foldl vadd (foldl vadd x li) lb.
End spec.
(** The operation cannot be undefined, has an outcome, and every outcome satisfies [ok]. *)
Definition every_outcome {A} (op : option A -> Prop) (ok : A -> Prop) : Prop :=
  ~ op None /\ (exists a, op (Some a)) /\ forall a, op (Some a) -> ok a.

Lemma every_outcome_impl {A} (op : option A -> Prop) (P Q : A -> Prop) :
  every_outcome op P -> (forall a, P a -> Q a) -> every_outcome op Q.
Proof. intros (H1 & H2 & H3) Hi. split; [done|]. split; [done|]. auto. Qed.
Lemma every_outcome_always {A} (op : option A -> Prop) a (P : A -> Prop) : (forall r, op r <-> r = Some a) -> P a -> every_outcome op P.
Proof.
  intros Ho HP. split; [rewrite Ho; done|]. split; [exists a; by apply Ho|].
  intros b Hb. apply Ho in Hb. by injection Hb as ->.
Qed.

Section any.
  Context {V : Type} `{ValueType V}.
  Notation mem := (list (list V)).

  Lemma every_pseq (p q : mem -> option mem -> Prop) m (P Q : mem -> Prop) :
    every_outcome (p m) P -> (forall m1, P m1 -> every_outcome (q m1) Q) -> every_outcome (pseq p q m) Q.
  Proof.
    intros (Hn & (m1 & He) & Hp) Hq. split; [|split].
    - intros [[? _]|(m2 & H2 & H3)]; [done|]. by apply (proj1 (Hq m2 (Hp _ H2))).
    - destruct (Hq m1 (Hp _ He)) as (_ & (m2 & H2) & _). exists m2. right. eauto.
    - intros a [[? ?]|(m2 & H2 & H3)]; [done|]. by apply (proj2 (proj2 (Hq m2 (Hp _ H2)))).
  Qed.

  (** Associativity of [pseq]. *)
  Lemma pseq_assoc (p q w : mem -> option mem -> Prop) mm r : pseq p (pseq q w) mm r <-> pseq (pseq p q) w mm r.
  Proof.
    unfold pseq. split.
      - intros [[H1 ->]|(m1 & H1 & [[H2 ->]|(m2 & H2 & H3)])].
        + left. split; [left; done|done].
        + left. split; [right; eauto|done].
        + right. exists m2. split; [right; eauto|done].
      - intros [[[[H1 _]|(m1 & H1 & H2)] ->]|(m2 & [[H1 H2]|(m1 & H1 & H2)] & H3)].
        + left. done.
        + right. exists m1. split; [done|]. left. done.
        + done.
        + right. exists m1. split; [done|]. right. eauto.
  Qed.

  Section faces.
    Context (m : mesh) (Hm : valid_topology m).
    Notation nI := (nInternalFaces m).
    Notation nF := (nInternalFaces m + nBoundaryFaces m).

    (** A statement adding [v] to cell [c]; atomic unless the executor is serial. *)
    Definition adds_to (e : executor) (s : stmt V) (c : nat) (v : V) : Prop :=
      stmt_addr s = (0, c) /\ term_of s = v /\ additive s = true /\ (e = SerialExecutor \/ stmt_atomic s = true).

    Lemma term_one (e : executor) s c d v : adds_to e s c v -> terms (0, d) [s] = if decide (c = d) then [v] else [].
    Proof.
      intros (Ha & Ht & _). unfold terms. rewrite filter_cons, filter_nil, Ha.
      destruct (decide (c = d)) as [->|Hne].
      - rewrite decide_True by done. simpl. by rewrite Ht.
      - rewrite decide_False by congruence. done.
    Qed.

    Section passes.
    Context (e : executor) (k1 k2 : kernel V) (flux : nat -> V).
    Context (Hk1 : forall f, f < nI -> exists s t, k1 f = Some [s; t] /\
         adds_to e s (atn (faceOwner m) f) (flux f) /\ adds_to e t (atn (faceNeighbour m) f) (vneg (flux f))).
    Context (Hk2 : forall b, b < nBoundaryFaces m -> exists s, k2 (nI + b) = Some [s] /\
         adds_to e s (atn (bFaceCells (bmesh m)) b) (flux (nI + b))).
    Lemma pass1_ok : forall (r : list V), length r = nCells m -> kernel_ok (shape [r]) 0 nI k1.
    Proof.
      intros r Hr f Hf. destruct (Hk1 f) as (s & t & -> & Hs & Ht); [lia|]. exists [s; t]. split; [done|].
      rewrite shape1, Hr. constructor; [|constructor; [|done]].
      - destruct Hs as (-> & _). apply in_shape1, owner_lt; [done|lia].
      - destruct Ht as (-> & _). apply in_shape1, vt_nei; [done|lia].
    Qed.
    Lemma pass2_ok : forall (r : list V), length r = nCells m -> kernel_ok (shape [r]) nI nF k2.
    Proof.
      intros r Hr f Hf. destruct (Hk2 (f - nI)) as (s & Ek & Hs); [lia|].
      replace (nI + (f - nI)) with f in Ek by lia. exists [s]. split; [done|].
      rewrite shape1, Hr. constructor; [|done]. destruct Hs as (-> & _). apply in_shape1, vt_fc; [done|lia].
    Qed.
    Lemma pass1_additive : kernel_additive 0 nI k1.
    Proof.
      intros f s Hf Hs. destruct (Hk1 f) as (s1 & s2 & Ek & H1 & H2); [lia|]. unfold stmts_of in Hs. rewrite Ek in Hs.
      simpl in Hs. rewrite !elem_of_cons, elem_of_nil in Hs. destruct Hs as [->|[->|[]]]; [apply H1|apply H2].
    Qed.
    Lemma pass2_additive : kernel_additive nI nF k2.
    Proof.
      intros f s Hf Hs. destruct (Hk2 (f - nI)) as (s1 & Ek & H1); [lia|]. replace (nI + (f - nI)) with f in Ek by lia.
      unfold stmts_of in Hs. rewrite Ek in Hs. simpl in Hs. rewrite elem_of_list_singleton in Hs. subst. apply H1.
    Qed.
    Lemma pass1_atomic : e = SerialExecutor \/ kernel_atomic 0 nI k1.
    Proof.
      destruct (decide (e = SerialExecutor)) as [|Hne]; [by left|]. right.
      intros f s Hf Hs. destruct (Hk1 f) as (s1 & s2 & Ek & H1 & H2); [lia|]. unfold stmts_of in Hs. rewrite Ek in Hs.
      simpl in Hs. rewrite !elem_of_cons, elem_of_nil in Hs.
      destruct Hs as [->|[->|[]]]; [destruct H1 as (_ & _ & _ & [?|?])|destruct H2 as (_ & _ & _ & [?|?])]; done.
    Qed.
    Lemma pass2_atomic : e = SerialExecutor \/ kernel_atomic nI nF k2.
    Proof.
      destruct (decide (e = SerialExecutor)) as [|Hne]; [by left|]. right.
      intros f s Hf Hs. destruct (Hk2 (f - nI)) as (s1 & Ek & H1); [lia|]. replace (nI + (f - nI)) with f in Ek by lia.
      unfold stmts_of in Hs. rewrite Ek in Hs. simpl in Hs. rewrite elem_of_list_singleton in Hs. subst.
      destruct H1 as (_ & _ & _ & [?|?]); done.
    Qed.
    Lemma pass1_terms : forall c, terms (0, c) (all_stmts 0 nI k1) = internal_terms m flux c.
    Proof.
      intros c. rewrite terms_all, Nat.sub_0_r. unfold internal_terms. f_equal. apply map_ext_in. intros f Hf%in_seq.
      destruct (Hk1 f) as (s & t & Ek & Hs & Ht); [lia|]. unfold stmts_of. rewrite Ek. simpl.
      change [s; t] with ([s] ++ [t]). rewrite terms_app.
      by rewrite (term_one e s _ _ _ Hs), (term_one e t _ _ _ Ht).
    Qed.
    Lemma pass2_terms : forall c, terms (0, c) (all_stmts nI nF k2) = boundary_terms m flux c.
    Proof.
      intros c. rewrite terms_all. replace (nF - nI) with (nBoundaryFaces m) by lia. unfold boundary_terms. f_equal.
      replace (seq nI (nBoundaryFaces m)) with (map (Nat.add nI) (seq 0 (nBoundaryFaces m)))
        by (etransitivity; [apply (fmap_add_seq nI 0)|]; by rewrite Nat.add_0_r).
      rewrite map_map. apply map_ext_in. intros b Hb%in_seq.
      destruct (Hk2 b) as (s & Ek & Hs); [lia|]. unfold stmts_of. rewrite Ek. simpl. by rewrite (term_one e s _ _ _ Hs).
    Qed.

    Lemma faces_any (res : list V) : length res = nCells m ->
      every_outcome (pseq (pfor e 0 nI k1) (pfor e nI nF k2) [res])
        (fun m' => exists res', m' = [res'] /\ length res' = nCells m /\
           forall c, c < nCells m -> accumulated e m flux c (atV res c) (atV res' c)).
    Proof.
      intros Hres.
      eapply (every_pseq _ _ _ (fun m' => exists res1, m' = [res1] /\ length res1 = nCells m /\
        forall c, c < nCells m -> exists l, l ≡ₚ internal_terms m flux c /\ (e = SerialExecutor -> l = internal_terms m flux c) /\
          atV res1 c = foldl vadd (atV res c) l)).
      - destruct (pfor_accumulate_any e 0 nI k1 [res] (pass1_ok res Hres) pass1_additive pass1_atomic) as (Hn & He & Ha).
        split; [done|]. split; [done|]. intros m' Hm'. destruct (Ha m' Hm') as [Hsh Hget].
        rewrite shape1 in Hsh. apply shape1_inv in Hsh as (res1 & -> & Hl). exists res1. split; [done|]. split; [lia|].
        intros c Hc. destruct (Hget (0, c)) as (l & Hp & Hs & Hg). exists l. rewrite <- !pass1_terms. split; [done|]. split; [done|].
        rewrite !mget1, !(lookup_atV _ c) in Hg by lia. simpl in Hg. by injection Hg.
      - intros m1 (res1 & -> & Hl1 & Hc1).
        destruct (pfor_accumulate_any e nI nF k2 [res1] (pass2_ok res1 Hl1) pass2_additive pass2_atomic) as (Hn & He & Ha).
        split; [done|]. split; [done|]. intros m' Hm'. destruct (Ha m' Hm') as [Hsh Hget].
        rewrite shape1 in Hsh. apply shape1_inv in Hsh as (res2 & -> & Hl). exists res2. split; [done|]. split; [lia|].
        intros c Hc. destruct (Hget (0, c)) as (lb & Hp & Hs & Hg). destruct (Hc1 c Hc) as (li & Hp1 & Hs1 & Hg1).
        rewrite pass2_terms in *. exists li, lb. split; [done|]. split; [done|]. split; [auto|].
        rewrite !mget1, !(lookup_atV _ c) in Hg by lia. simpl in Hg. injection Hg as ->. by rewrite Hg1.
    Qed.

    (** Any one cell can see its contributions in any order. *)
    Definition internal_term (c f : nat) : option V :=
      if decide (atn (faceOwner m) f = c) then Some (flux f)
      else if decide (atn (faceNeighbour m) f = c) then Some (vneg (flux f)) else None.
    Definition boundary_term (c f : nat) : option V :=
      if decide (atn (bFaceCells (bmesh m)) (f - nI) = c) then Some (flux f) else None.
    Lemma concat_omap {A B} (G : A -> list B) (F : A -> option B) xs :
      (forall x, x ∈ xs -> G x = match F x with Some y => [y] | None => [] end) -> concat (map G xs) = omap F xs.
    Proof.
      induction xs as [|x xs IH]; intros HG; [done|]. cbn. rewrite HG by (by left). rewrite IH by (intros y Hy; apply HG; by right).
      by destruct (F x).
    Qed.
    Lemma terms_order1 c (order : list nat) : (forall f, f ∈ order -> f < nI) ->
      terms (0, c) (concat (map (stmts_of k1) order)) = omap (internal_term c) order.
    Proof.
      intros Ho. transitivity (concat (map (fun i => terms (0, c) (stmts_of k1 i)) order)).
      { clear. induction order as [|i l IH]; [done|]. simpl. by rewrite terms_app, IH. }
      apply concat_omap. intros f Hf. pose proof (Ho f Hf) as Hlt.
      destruct (Hk1 f) as (s & t & Ek & Hs & Ht); [lia|]. unfold stmts_of. rewrite Ek. simpl.
      change [s; t] with ([s] ++ [t]). rewrite terms_app, (term_one e s _ _ _ Hs), (term_one e t _ _ _ Ht).
      unfold internal_term. pose proof (vt_owner _ Hm f Hlt).
      destruct (decide (atn (faceOwner m) f = c)), (decide (atn (faceNeighbour m) f = c)); try done. lia.
    Qed.
    Lemma terms_order2 c (order : list nat) : (forall f, f ∈ order -> nI <= f < nF) ->
      terms (0, c) (concat (map (stmts_of k2) order)) = omap (boundary_term c) order.
    Proof.
      intros Ho. transitivity (concat (map (fun i => terms (0, c) (stmts_of k2 i)) order)).
      { clear. induction order as [|i l IH]; [done|]. simpl. by rewrite terms_app, IH. }
      apply concat_omap. intros f Hf. pose proof (Ho f Hf) as Hlt.
      destruct (Hk2 (f - nI)) as (s & Ek & Hs); [lia|]. replace (nI + (f - nI)) with f in * by lia.
      unfold stmts_of. rewrite Ek. simpl. rewrite (term_one e s _ _ _ Hs).
      unfold boundary_term. by destruct (decide (atn (bFaceCells (bmesh m)) (f - nI) = c)).
    Qed.
    Lemma faces_every_order (res : list V) c li lb : e <> SerialExecutor -> length res = nCells m -> c < nCells m ->
      li ≡ₚ internal_terms m flux c -> lb ≡ₚ boundary_terms m flux c ->
      exists res', pseq (pfor e 0 nI k1) (pfor e nI nF k2) [res] (Some [res']) /\ length res' = nCells m /\
        atV res' c = foldl vadd (foldl vadd (atV res c) li) lb.
    Proof.
      intros He Hres Hc Hli Hlb.
      rewrite <- pass1_terms in Hli. unfold all_stmts in Hli. rewrite terms_order1 in Hli by (intros f Hf%elem_of_seq; lia).
      rewrite <- pass2_terms in Hlb. unfold all_stmts in Hlb. rewrite terms_order2 in Hlb by (intros f Hf%elem_of_seq; lia).
      apply omap_order in Hli as (o1 & Ho1 & E1). apply omap_order in Hlb as (o2 & Ho2 & E2).
      destruct pass1_atomic as [?|A1]; [done|]. destruct pass2_atomic as [?|A2]; [done|].
      pose proof (pfor_any_order e 0 nI k1 [res] o1 He (pass1_ok res Hres) A1 Ho1) as P1.
      set (m1 := foldl apply_stmt [res] (concat (map (stmts_of k1) o1))) in P1.
      assert (Hs1 : shape m1 = [nCells m]) by (unfold m1; by rewrite shape_foldl, shape1, Hres).
      apply shape1_inv in Hs1 as (res1 & Em1 & Hl1).
      pose proof (pfor_any_order e nI nF k2 [res1] o2 He (pass2_ok res1 Hl1) A2 Ho2) as P2.
      set (m2 := foldl apply_stmt [res1] (concat (map (stmts_of k2) o2))) in P2.
      assert (Hs2 : shape m2 = [nCells m]) by (unfold m2; by rewrite shape_foldl, shape1, Hl1).
      apply shape1_inv in Hs2 as (res2 & Em2 & Hl2).
      exists res2. split; [|split; [done|]].
      - right. exists m1. split; [done|]. rewrite Em1. by rewrite <- Em2.
      - assert (G1 : res1 !! c = Some (foldl vadd (atV res c) li)).
        { rewrite <- mget1, <- Em1. unfold m1. rewrite mget_foldl_terms.
          - rewrite mget1, (lookup_atV res c) by lia. simpl. rewrite terms_order1, E1; [done|].
            intros f Hf. rewrite Ho1 in Hf. apply elem_of_seq in Hf. lia.
          - assert (Hp : concat (map (stmts_of k1) o1) ≡ₚ all_stmts 0 nI k1) by (unfold all_stmts; by rewrite Ho1).
            rewrite Hp. by apply all_stmts_additive, pass1_additive.
          - assert (Hp : concat (map (stmts_of k1) o1) ≡ₚ all_stmts 0 nI k1) by (unfold all_stmts; by rewrite Ho1).
            rewrite Hp. by apply all_stmts_ok, pass1_ok. }
        assert (G2 : res2 !! c = Some (foldl vadd (atV res1 c) lb)).
        { rewrite <- mget1, <- Em2. unfold m2. rewrite mget_foldl_terms.
          - rewrite mget1, (lookup_atV res1 c) by lia. simpl. rewrite terms_order2, E2; [done|].
            intros f Hf. rewrite Ho2 in Hf. apply elem_of_seq in Hf. lia.
          - assert (Hp : concat (map (stmts_of k2) o2) ≡ₚ all_stmts nI nF k2) by (unfold all_stmts; by rewrite Ho2).
            rewrite Hp. by apply all_stmts_additive, pass2_additive.
          - assert (Hp : concat (map (stmts_of k2) o2) ≡ₚ all_stmts nI nF k2) by (unfold all_stmts; by rewrite Ho2).
            rewrite Hp. by apply all_stmts_ok, pass2_ok. }
        unfold atV at 1. rewrite G2. simpl. unfold atV at 1. rewrite G1. done.
    Qed.
    End passes.

    (** with the final scaling by [g] *)
    Lemma faces_scaled_any e (k1 k2 k3 : kernel V) (flux : nat -> V) (g : nat -> Qc) (res : list V) :
      length res = nCells m ->
      (forall f, f < nI -> exists s t, k1 f = Some [s; t] /\
         adds_to e s (atn (faceOwner m) f) (flux f) /\ adds_to e t (atn (faceNeighbour m) f) (vneg (flux f))) ->
      (forall b, b < nBoundaryFaces m -> exists s, k2 (nI + b) = Some [s] /\
         adds_to e s (atn (bFaceCells (bmesh m)) b) (flux (nI + b))) ->
      (forall c, c < nCells m -> k3 c = Some [SScale (0, c) (g c)]) ->
      every_outcome (pseq (pfor e 0 nI k1) (pseq (pfor e nI nF k2) (pfor e 0 (nCells m) k3)) [res])
        (fun m' => exists res', m' = [res'] /\ length res' = nCells m /\
           forall c, c < nCells m -> exists y, accumulated e m flux c (atV res c) y /\ atV res' c = vscale (g c) y).
    Proof.
      intros Hres Hk1 Hk2 Hk3.
      destruct (faces_any e k1 k2 flux Hk1 Hk2 res Hres) as (Hn & He & Ha).
      assert (Hx : every_outcome (pseq (pseq (pfor e 0 nI k1) (pfor e nI nF k2)) (pfor e 0 (nCells m) k3) [res])
        (fun m' => exists res', m' = [res'] /\ length res' = nCells m /\
           forall c, c < nCells m -> exists y, accumulated e m flux c (atV res c) y /\ atV res' c = vscale (g c) y)).
      { eapply every_pseq; [split; [exact Hn|]; split; [exact He|exact Ha]|]. cbv beta.
        intros m1 (res1 & -> & Hl & Hc).
        destruct (scale_pass e (nCells m) k3 g res1 Hl Hk3) as (res2 & Hr & Hl2 & H2).
        eapply every_outcome_always; [exact Hr|]. exists res2. split; [done|]. split; [done|].
        intros c Hcc. exists (atV res1 c). split; [by apply Hc|]. unfold atV at 1. by rewrite (H2 c Hcc). }
      destruct Hx as (Hx1 & (m' & Hx2) & Hx3). split; [|split].
      - rewrite pseq_assoc. done.
      - exists m'. by apply pseq_assoc.
      - intros a Hra. apply Hx3. by apply pseq_assoc.
    Qed.

    Lemma faces_scaled_every_order e (k1 k2 k3 : kernel V) (flux : nat -> V) (g : nat -> Qc) (res : list V) c li lb :
      e <> SerialExecutor -> length res = nCells m -> c < nCells m ->
      (forall f, f < nI -> exists s t, k1 f = Some [s; t] /\
         adds_to e s (atn (faceOwner m) f) (flux f) /\ adds_to e t (atn (faceNeighbour m) f) (vneg (flux f))) ->
      (forall b, b < nBoundaryFaces m -> exists s, k2 (nI + b) = Some [s] /\
         adds_to e s (atn (bFaceCells (bmesh m)) b) (flux (nI + b))) ->
      (forall c, c < nCells m -> k3 c = Some [SScale (0, c) (g c)]) ->
      li ≡ₚ internal_terms m flux c -> lb ≡ₚ boundary_terms m flux c ->
      exists res', pseq (pfor e 0 nI k1) (pseq (pfor e nI nF k2) (pfor e 0 (nCells m) k3)) [res] (Some [res']) /\
        length res' = nCells m /\ atV res' c = vscale (g c) (foldl vadd (foldl vadd (atV res c) li) lb).
    Proof.
      intros He Hres Hc Hk1 Hk2 Hk3 Hli Hlb.
      destruct (faces_every_order e k1 k2 flux Hk1 Hk2 res c li lb He Hres Hc Hli Hlb) as (res1 & Hr & Hl & Hv).
      destruct (scale_pass e (nCells m) k3 g res1 Hl Hk3) as (res2 & Hr2 & Hl2 & H2).
      exists res2. split; [|split; [done|]].
      - apply pseq_assoc. right. exists [res1]. split; [done|]. by apply Hr2.
      - unfold atV at 1. rewrite (H2 c Hc). simpl. by rewrite Hv.
    Qed.
  End faces.
End any.
