(** CellToFaceStencil::computeStencil() lists the faces of each cell. *)
From Verif Require Import Base Par ParProofs Exec ExecProofs Kernel KernelProofs
  Reduce ReduceProofs Ticket TicketProofs Mesh MeshSpec Sparsity SparsitySpec SparsityProofs SparsityMain SparsityProps.

Lemma row_fill {A} (E : list A) (slot val : A -> nat) (vals : list nat) start n :
  NoDup E -> length E = n -> start + n <= length vals ->
  (forall x y, x ∈ E -> y ∈ E -> slot x = slot y -> x = y) ->
  (forall x, x ∈ E -> slot x < n) ->
  (forall x, x ∈ E -> vals !! (start + slot x) = Some (val x)) ->
  take n (drop start vals) ≡ₚ map val E.
Proof.
  intros Hnd Hl Hlen Hinj Hlt Hval.
  assert (Hp : map slot E ≡ₚ seq 0 n).
  { apply nodup_perm_seq.
    - by apply NoDup_map_inj.
    - by rewrite map_length.
    - intros x Hx. apply elem_of_list_fmap in Hx as (y & -> & Hy). auto. }
  assert (take n (drop start vals) = (fun s => atn vals (start + s)) <$> seq 0 n) as ->.
  { apply list_eq. intros i. rewrite list_lookup_fmap.
    destruct (decide (i < n)) as [Hi|Hi].
    - rewrite lookup_take, lookup_drop, lookup_seq_lt by done. simpl.
      destruct (lookup_lt_is_Some_2 vals (start + i)) as [x Hx]; [lia|].
      rewrite Hx. unfold atn. by rewrite Hx.
    - rewrite lookup_seq_ge by lia. simpl. apply lookup_take_ge. lia. }
  rewrite <- Hp. change (map ?f ?l) with (f <$> l). rewrite <- list_fmap_compose.
  match goal with |- ?a ≡ₚ ?b => assert (a = b) as ->; [|done] end.
  apply list_fmap_ext. intros i x Hx. apply elem_of_list_lookup_2 in Hx. simpl.
  apply atn_lookup. by apply Hval.
Qed.

Section stencil.
  Context (m : mesh) (Hcn : connectivity m).
  Notation nC := (nCells m).
  Notation nI := (nInternalFaces m).
  Notation nB := (length (bFaceCells (bmesh m))).
  Notation own := (atn (faceOwner m)).
  Notation nei := (atn (faceNeighbour m)).
  Notation fc := (atn (bFaceCells (bmesh m))).
  Notation nU := (nU m).
  Notation nL := (nL m).
  Definition nBd c := cntif (fun b => bool_decide (fc b = c)) nB.
  Definition slen c := nU c + nL c + nBd c.
  Definition sptr := psum slen.

  Lemma fc_lookup b : b < nB -> bFaceCells (bmesh m) !! b = Some (fc b).
  Proof using. intros H. destruct (lookup_lt_is_Some_2 _ _ H) as [c Hc]. unfold atn. by rewrite Hc. Qed.
  Lemma fc_lt b : b < nB -> fc b < nC.
  Proof using Hcn. intros H. apply (cn_fc m Hcn b). by apply fc_lookup. Qed.

  Definition stot := sptr nC.
  Lemma sptr_rows c c' : c < c' -> c' < nC -> sptr c + slen c <= sptr c'.
  Proof using. intros H _. by apply psum_rows. Qed.
  Lemma sptr_tot c : c < nC -> sptr c + slen c <= stot.
  Proof using. intros H. by apply psum_rows. Qed.

  Definition face_body (f : nat) : list tinstr :=
    [ TFetch (0, own f); TFetch (0, nei f);
      TPut 0 (fun seg => ((1, sptr (own f) + seg), f));
      TPut 1 (fun seg => ((1, sptr (nei f) + seg), f)) ].
  Definition bface_body (b : nat) : list tinstr :=
    [ TFetch (0, fc b); TPut 0 (fun seg => ((1, sptr (fc b) + seg), nI + b)) ].

  Definition st_shape : list nat := [nC; stot].

  Record face_post (mm mm' : imem) (tk : nat -> nat -> nat) : Prop := {
    fp_own : forall f, f < nI -> tk f 0 < nU (own f) + nL (own f) /\
      mget mm' (1, sptr (own f) + tk f 0) = Some f;
    fp_nei : forall f, f < nI -> tk f 1 < nU (nei f) + nL (nei f) /\
      mget mm' (1, sptr (nei f) + tk f 1) = Some f;
    fp_inj : forall f j f' j', f < nI -> f' < nI -> j < 2 -> j' < 2 -> (f, j) <> (f', j') ->
      (if j then own f else nei f) = (if j' then own f' else nei f') -> tk f j <> tk f' j';
    fp_count : forall c, c < nC -> mget mm' (0, c) = Some (nU c + nL c);
    fp_shape : shape mm' = st_shape;
  }.

  Lemma face_phase e mm k :
    shape mm = st_shape -> (forall c, c < nC -> mget mm (0, c) = Some 0) ->
    (forall f, f < nI -> k f = Some (face_body f)) ->
    goodp (tfor e 0 nI k mm) (fun mm' => exists tk, face_post mm mm' tk).
  Proof using Hcn.
    intros Hsh Hm0 Hk.
    set (bodies := map face_body (seq 0 nI)).
    assert (Htf : forall r, tfor e 0 nI k mm r <-> exec_result e (map tthread bodies) mm r).
    { intros r. unfold bodies. rewrite <- (Nat.sub_0_r nI) at 2. apply tfor_bodies.
      intros i Hi. simpl. apply Hk. lia. }
    assert (Hlk : forall i b, bodies !! i = Some b <-> i < nI /\ b = face_body i)
      by (intros; apply bodies_lookup).
    assert (Hft : forall i, fetches (face_body i) = [(0, own i); (0, nei i)]) by done.
    assert (Hc0 : forall c, cnt (0, c) bodies = nU c + nL c).
    { intros c. unfold bodies. rewrite cnt_bodies. unfold SparsityMain.nU, SparsityMain.nL, cntif.
      rewrite <- sum_list_map_add. apply sum_list_map_ext. intros f _.
      assert (cnt1 (0, c) (face_body f) = cnt1 (0, c) [TFetch (0, own f); TFetch (0, nei f)]) as -> by done.
      rewrite cnt1_two. f_equal.
      - destruct (decide (own f = c)) as [->|]; [rewrite !bool_decide_true by done|rewrite !bool_decide_false by congruence]; done.
      - destruct (decide (nei f = c)) as [->|]; [rewrite !bool_decide_true by done|rewrite !bool_decide_false by congruence]; done. }
    assert (Hc1 : forall x, cnt (1, x) bodies = 0).
    { intros x. apply cnt_other. intros b Hb. apply elem_of_list_lookup in Hb as [j Hj].
      apply Hlk in Hj as [_ ->]. rewrite Hft. intros H.
      apply elem_of_cons in H as [E|H]; [congruence|]. apply elem_of_list_singleton in H. congruence. }
    set (cell := fun i (j : nat) => if j then own i else nei i).
    assert (Hcell : forall i j, i < nI -> cell i j < nC).
    { intros i [|j] Hi; simpl; auto using own_lt, nei_lt. }
    assert (Hput : forall i p j f c, is_put bodies i p j f c -> i < nI /\ p = 2 + j /\ j < 2 /\ c = (0, cell i j) /\
       f = (fun seg => ((1, sptr (cell i j) + seg), i))).
    { intros i p j f c (b & Hb & Hp & Hj). apply Hlk in Hb as [Hi ->]. rewrite Hft in Hj.
      destruct p as [|[|[|[|p]]]]; simpl in Hp; try discriminate; injection Hp as <- <-;
        simpl in Hj; injection Hj as <-; split_and!; try done; lia. }
    assert (Hrg : forall c t, c < nC -> range_of mm bodies (0, c) t -> t < nU c + nL c).
    { intros c t Hc [_ Ht]. rewrite Hc0 in Ht. unfold start_of in Ht. rewrite Hm0 in Ht by done. simpl in Ht. lia. }
    assert (Hok : ticket_ok mm bodies).
    { constructor.
      - intros i b p ins Hb Hp. apply Hlk in Hb as [Hi ->].
        destruct p as [|[|[|[|p]]]]; simpl in Hp; try discriminate; injection Hp as <-.
        + rewrite Hsh. exists nC. split; [done|]. simpl. auto using own_lt.
        + rewrite Hsh. exists nC. split; [done|]. simpl. auto using nei_lt.
        + unfold fetches. simpl. lia.
        + unfold fetches. simpl. lia.
      - intros i p j f c t Hp Ht. apply Hput in Hp as (Hi & -> & Hj & -> & ->). simpl.
        split; [|apply Hc1]. rewrite Hsh. exists stot. split; [done|]. simpl.
        pose proof (Hcell i j Hi) as Hc. pose proof (Hrg _ t Hc Ht).
        pose proof (sptr_tot _ Hc). unfold slen in *. lia.
      - intros i p j f c t i' p' j' f' c' t' H1 H2 Ht Ht' Hne Htt _.
        apply Hput in H1 as (Hi & -> & Hj & -> & ->).
        apply Hput in H2 as (Hi' & -> & Hj' & -> & ->). simpl.
        intros E. injection E as E.
        pose proof (Hcell i j Hi) as Hc. pose proof (Hcell i' j' Hi') as Hc'.
        pose proof (Hrg _ t Hc Ht). pose proof (Hrg _ t' Hc' Ht').
        destruct (row_inj nC slen sptr sptr_rows (cell i j) (cell i' j') t t') as [E1 E2]; auto.
        + unfold slen. lia.
        + unfold slen. lia.
        + apply Htt; [|by rewrite E1|done]. intros E3. injection E3 as -> ->. done. }
    destruct (ticket_exec mm bodies Hok e) as [[m' Hm'] Hall]. split.
    - exists m'. by apply Htf.
    - intros r Hr. apply Htf in Hr. destruct (Hall r Hr) as (mf & -> & tk & HT). exists mf. split; [done|].
      exists tk.
      assert (Hr1 : forall f j, f < nI -> j < 2 -> tk f j < nU (cell f j) + nL (cell f j)).
      { intros f j Hf Hj. apply Hrg; [auto|].
        apply (tk_range _ _ _ _ HT f (face_body f)); [by apply Hlk|]. rewrite Hft.
        destruct j as [|[|j]]; [done|done|lia]. }
      constructor.
      + intros f Hf. split; [by apply (Hr1 f 0); [|lia]|].
        apply (tk_put _ _ _ _ HT f (face_body f) 0 (fun seg => ((1, sptr (own f) + seg), f))).
        * by apply Hlk.
        * by apply elem_of_list_lookup_2 with 2.
      + intros f Hf. split; [by apply (Hr1 f 1); [|lia]|].
        apply (tk_put _ _ _ _ HT f (face_body f) 1 (fun seg => ((1, sptr (nei f) + seg), f))).
        * by apply Hlk.
        * by apply elem_of_list_lookup_2 with 3.
      + intros f j f' j' Hf Hf' Hj Hj' Hne E.
        assert (Hfl : forall f j, j < 2 -> fetches (face_body f) !! j = Some (0, cell f j)).
        { intros f0 j0 Hj0. rewrite Hft. destruct j0 as [|[|j0]]; [done|done|lia]. }
        apply (tk_inj _ _ _ _ HT f (face_body f) j f' (face_body f') j' (0, cell f j)).
        * by apply Hlk.
        * by apply Hfl.
        * by apply Hlk.
        * rewrite Hfl by done. do 2 f_equal. unfold cell. congruence.
        * done.
      + intros c Hc. rewrite (tk_rest _ _ _ _ HT).
        * rewrite Hm0, Hc0 by done. done.
        * intros i b j f Hb Hin. apply Hlk in Hb as [Hi ->].
          apply elem_of_cons in Hin as [?|Hin]; [done|].
          apply elem_of_cons in Hin as [?|Hin]; [done|].
          apply elem_of_cons in Hin as [E|Hin]; [injection E as -> ->; simpl; congruence|].
          apply elem_of_list_singleton in Hin. injection Hin as -> ->. simpl. congruence.
      + rewrite (tk_shape _ _ _ _ HT). done.
  Qed.

  Record bface_post (mm mm' : imem) (tk : nat -> nat) : Prop := {
    bp_slot : forall b, b < nB -> nU (fc b) + nL (fc b) <= tk b < slen (fc b) /\
      mget mm' (1, sptr (fc b) + tk b) = Some (nI + b);
    bp_inj : forall b b', b < nB -> b' < nB -> b <> b' -> fc b = fc b' -> tk b <> tk b';
    bp_other : forall x, (forall b, b < nB -> x <> sptr (fc b) + tk b) -> mget mm' (1, x) = mget mm (1, x);
    bp_shape : shape mm' = st_shape;
  }.

  Lemma bface_phase e mm k :
    shape mm = st_shape -> (forall c, c < nC -> mget mm (0, c) = Some (nU c + nL c)) ->
    (forall b, b < nB -> k (nI + b) = Some (bface_body b)) ->
    goodp (tfor e nI (nI + nB) k mm) (fun mm' => exists tk, bface_post mm mm' tk).
  Proof using Hcn.
    intros Hsh Hm0 Hk.
    set (bodies := map bface_body (seq 0 nB)).
    assert (Htf : forall r, tfor e nI (nI + nB) k mm r <-> exec_result e (map tthread bodies) mm r).
    { intros r. unfold bodies. replace nB with (nI + nB - nI) at 2 by lia. apply tfor_bodies.
      intros i Hi. apply Hk. lia. }
    assert (Hlk : forall i b, bodies !! i = Some b <-> i < nB /\ b = bface_body i)
      by (intros; apply bodies_lookup).
    assert (Hft : forall i, fetches (bface_body i) = [(0, fc i)]) by done.
    assert (Hc0 : forall c, cnt (0, c) bodies = nBd c).
    { intros c. unfold bodies. rewrite cnt_bodies. unfold nBd, cntif.
      apply sum_list_map_ext. intros f _.
      assert (cnt1 (0, c) (bface_body f) = cnt1 (0, c) [TFetch (0, fc f)]) as -> by done.
      rewrite cnt1_one.
      destruct (decide (fc f = c)) as [->|]; [rewrite !bool_decide_true by done|rewrite !bool_decide_false by congruence]; done. }
    assert (Hc1 : forall x, cnt (1, x) bodies = 0).
    { intros x. apply cnt_other. intros b Hb. apply elem_of_list_lookup in Hb as [j Hj].
      apply Hlk in Hj as [_ ->]. rewrite Hft. intros H. apply elem_of_list_singleton in H. congruence. }
    assert (Hput : forall i p j f c, is_put bodies i p j f c -> i < nB /\ p = 1 /\ j = 0 /\ c = (0, fc i) /\
       f = (fun seg => ((1, sptr (fc i) + seg), nI + i))).
    { intros i p j f c (b & Hb & Hp & Hj). apply Hlk in Hb as [Hi ->]. rewrite Hft in Hj.
      destruct p as [|[|p]]; simpl in Hp; try discriminate; injection Hp as <- <-;
        simpl in Hj; injection Hj as <-; split_and!; try done; lia. }
    assert (Hrg : forall c t, c < nC -> range_of mm bodies (0, c) t -> nU c + nL c <= t < slen c).
    { intros c t Hc Ht. unfold range_of in Ht. rewrite Hc0 in Ht. unfold start_of in Ht. rewrite Hm0 in Ht by done.
      simpl in Ht. unfold slen. lia. }
    assert (Hok : ticket_ok mm bodies).
    { constructor.
      - intros i b p ins Hb Hp. apply Hlk in Hb as [Hi ->].
        destruct p as [|[|p]]; simpl in Hp; try discriminate; injection Hp as <-.
        + rewrite Hsh. exists nC. split; [done|]. simpl. auto using fc_lt.
        + unfold fetches. simpl. lia.
      - intros i p j f c t Hp Ht. apply Hput in Hp as (Hi & -> & -> & -> & ->). simpl.
        split; [|apply Hc1]. rewrite Hsh. exists stot. split; [done|]. simpl.
        pose proof (fc_lt i Hi) as Hc. pose proof (Hrg _ t Hc Ht).
        pose proof (sptr_tot _ Hc). lia.
      - intros i p j f c t i' p' j' f' c' t' H1 H2 Ht Ht' Hne Htt _.
        apply Hput in H1 as (Hi & -> & -> & -> & ->).
        apply Hput in H2 as (Hi' & -> & -> & -> & ->). simpl.
        intros E. injection E as E.
        pose proof (fc_lt i Hi) as Hc. pose proof (fc_lt i' Hi') as Hc'.
        pose proof (Hrg _ t Hc Ht). pose proof (Hrg _ t' Hc' Ht').
        destruct (row_inj nC slen sptr sptr_rows (fc i) (fc i') t t') as [E1 E2]; auto; try lia.
        apply Htt; [|by rewrite E1|done]. intros E3. injection E3 as ->. done. }
    destruct (ticket_exec mm bodies Hok e) as [[m' Hm'] Hall]. split.
    - exists m'. by apply Htf.
    - intros r Hr. apply Htf in Hr. destruct (Hall r Hr) as (mf & -> & tk & HT). exists mf. split; [done|].
      exists (fun b => tk b 0). constructor.
      + intros b Hb. split.
        * apply Hrg; [by apply fc_lt|]. apply (tk_range _ _ _ _ HT b (bface_body b)); [by apply Hlk|done].
        * apply (tk_put _ _ _ _ HT b (bface_body b) 0 (fun seg => ((1, sptr (fc b) + seg), nI + b))).
          -- by apply Hlk.
          -- by apply elem_of_list_lookup_2 with 1.
      + intros b b' Hb Hb' Hne E.
        apply (tk_inj _ _ _ _ HT b (bface_body b) 0 b' (bface_body b') 0 (0, fc b)).
        * by apply Hlk.
        * done.
        * by apply Hlk.
        * rewrite Hft. by rewrite E.
        * congruence.
      + intros x Hx. rewrite (tk_rest _ _ _ _ HT).
        * rewrite Hc1. destruct (mget mm (1, x)); simpl; [|done]. by rewrite Nat.add_0_r.
        * intros i b j f Hb Hin. apply Hlk in Hb as [Hi ->].
          apply elem_of_cons in Hin as [?|Hin]; [done|].
          apply elem_of_list_singleton in Hin. injection Hin as -> ->. simpl.
          intros E. injection E as E. by apply (Hx i Hi).
      + rewrite (tk_shape _ _ _ _ HT). done.
  Qed.

  (** Entities of a row. *)
  Inductive ent := EOwn (f : nat) | ENei (f : nat) | EBnd (b : nat).
  Definition ents c : list ent :=
    map EOwn (faces_owned m c) ++ map ENei (faces_neighboured m c) ++
    map EBnd (filter (fun b => fc b = c) (seq 0 nB)).
  Definition ent_val (x : ent) : nat := match x with EOwn f | ENei f => f | EBnd b => nI + b end.

  Lemma ents_vals c : map ent_val (ents c) = cell_faces m c.
  Proof using Hcn.
    unfold ents, cell_faces. rewrite !map_app, !map_map. simpl. rewrite !map_id.
    rewrite <- (cn_nb m Hcn). done.
  Qed.
  Lemma ents_NoDup c : NoDup (ents c).
  Proof using.
    unfold ents. apply NoDup_app. split; [|split].
    - apply (NoDup_fmap_2_strong EOwn); [by intros x y _ _ [= ->]|]. apply NoDup_filter, NoDup_seq.
    - intros x H1 H2. apply elem_of_list_fmap in H1 as (f & -> & _).
      apply elem_of_app in H2 as [H2|H2]; by apply elem_of_list_fmap in H2 as (? & ? & _).
    - apply NoDup_app. split; [|split].
      + apply (NoDup_fmap_2_strong ENei); [by intros x y _ _ [= ->]|]. apply NoDup_filter, NoDup_seq.
      + intros x H1 H2. apply elem_of_list_fmap in H1 as (f & -> & _).
        by apply elem_of_list_fmap in H2 as (? & ? & _).
      + apply (NoDup_fmap_2_strong EBnd); [by intros x y _ _ [= ->]|]. apply NoDup_filter, NoDup_seq.
  Qed.
  Lemma ents_length c : length (ents c) = slen c.
  Proof using.
    unfold ents, slen, SparsityMain.nU, SparsityMain.nL, nBd.
    rewrite (cntif_filter (fun f => own f = c)), (cntif_filter (fun f => nei f = c)), (cntif_filter (fun f => fc f = c)).
    rewrite !app_length, !map_length. unfold faces_owned, faces_neighboured. lia.
  Qed.
  Lemma elem_of_ents c x : x ∈ ents c ->
    match x with
    | EOwn f => f < nI /\ own f = c
    | ENei f => f < nI /\ nei f = c
    | EBnd b => b < nB /\ fc b = c
    end.
  Proof using.
    unfold ents. rewrite !elem_of_app, !elem_of_list_fmap.
    intros [(f & -> & H)|[(f & -> & H)|(f & -> & H)]]; apply elem_of_list_filter in H as [H1 H2];
      apply elem_of_seq in H2; split; auto; lia.
  Qed.

  Theorem stencil_good e junk : (forall n, length (junk n) = n) ->
    good (computeStencil e m junk) (fun res =>
      numSegments res.1 = nC /\ (length res.2 = seg_size res.1 /\ length res.2 = sptr nC) /\
      (forall k, k <= nC -> segments res.1 !! k = Some (sptr k)) /\
      forall c, c < nC -> segment_values res.1 res.2 c ≡ₚ cell_faces m c).
  Proof using Hcn.
    intros Hjunk. unfold computeStencil.
    eapply good_ubind.
    { apply (incr_phase e 0 nI _ (fun f => [TFetch (0, own f); TFetch (0, nei f)])).
      - intros f Hf. simpl. unfold st_count_kernel.
        rewrite own_lookup, nei_lookup by (done || lia). done.
      - intros f ins Hf Hin. apply elem_of_cons in Hin as [->|Hin].
        + eexists. split; [done|]. exists nC. simpl. rewrite replicate_length.
          split; [done|]. apply own_lt; [done|lia].
        + apply elem_of_list_singleton in Hin as ->. eexists. split; [done|].
          exists nC. simpl. rewrite replicate_length. split; [done|]. apply nei_lt; [done|lia]. }
    intros m1 [Hsh1 Hm1]. cbv beta in Hm1.
    eapply good_ubind.
    { apply (incr_phase e 0 nB _ (fun b => [TFetch (0, fc b)])).
      - intros f Hf. simpl. unfold st_bcount_kernel. rewrite fc_lookup by lia. done.
      - intros f ins Hf Hin. apply elem_of_list_singleton in Hin as ->. eexists. split; [done|].
        rewrite Hsh1. exists nC. simpl. rewrite replicate_length. split; [done|]. apply fc_lt. lia. }
    intros m2 [Hsh2 Hm2]. cbv beta in Hm2.
    rewrite Hsh1 in Hsh2.
    destruct m2 as [|counts [|? ?]]; [done| |by injection Hsh2]. 
    assert (L0 : length counts = nC).
    { unfold shape in Hsh2. simpl in Hsh2. rewrite replicate_length in Hsh2. by injection Hsh2. }
    assert (Hcounts : counts = map slen (seq 0 nC)).
    { apply list_eq. intros c. destruct (decide (c < nC)) as [Hc|Hc].
      - specialize (Hm2 (0, c)). rewrite Hm1 in Hm2. unfold mget in Hm2.
        cbn [fst snd lookup list_lookup mbind option_bind] in Hm2.
        etransitivity; [exact Hm2|]. rewrite (lookup_replicate_2 _ _ _ Hc). cbn [fmap option_fmap option_map].
        change (map ?f ?l) with (f <$> l). rewrite list_lookup_fmap, lookup_seq_lt by done. simpl. f_equal.
        rewrite !Nat.sub_0_r. unfold slen, SparsityMain.nU, SparsityMain.nL, nBd, cntif. f_equal.
        + rewrite <- sum_list_map_add. apply sum_list_map_ext. intros f _. rewrite cnt1_two. f_equal.
          * destruct (decide (own f = c)) as [->|]; [rewrite !bool_decide_true by done|rewrite !bool_decide_false by congruence]; done.
          * destruct (decide (nei f = c)) as [->|]; [rewrite !bool_decide_true by done|rewrite !bool_decide_false by congruence]; done.
        + apply sum_list_map_ext. intros f _. rewrite cnt1_one.
          destruct (decide (fc f = c)) as [->|]; [rewrite !bool_decide_true by done|rewrite !bool_decide_false by congruence]; done.
      - rewrite !lookup_ge_None_2; [done| |lia]. rewrite map_length, seq_length. lia. }
    assert (Hsf : forall chunks order, scan_plan (length counts) chunks order ->
       exists sg, segmentedField counts chunks order = Ok sg /\ seg_size sg = stot /\
         numSegments sg = nC /\ forall k, k <= nC -> segments sg !! k = Some (sptr k)).
    { intros chunks order Hpl. destruct (segmentedField_ok counts chunks order Hpl) as (sg & E & H1 & H2 & H3).
      exists sg. split; [done|]. split.
      - rewrite H1, Hcounts. done.
      - split; [lia|]. intros k Hk. rewrite H3 by lia. rewrite Hcounts, psum_take by lia. done. }
    set (K := fun sg => ubind (ifill e 0 counts)
            (fun zeros =>
            ubind (tfor e 0 nI (st_face_kernel m (segments sg)) [zeros; junk (seg_size sg)])
            (fun m3 =>
            ubind (tfor e nI (nI + nB) (st_bface_kernel m (segments sg)) m3)
            (fun m4 r =>
              match m4 with
              | [_; values] => r = Ok (sg, values)
              | _ => r = UB
              end)))).
    assert (HK : forall sg, seg_size sg = stot -> numSegments sg = nC ->
      (forall k, k <= nC -> segments sg !! k = Some (sptr k)) ->
      good (K sg) (fun res =>
        numSegments res.1 = nC /\ (length res.2 = seg_size res.1 /\ length res.2 = sptr nC) /\
        (forall k, k <= nC -> segments res.1 !! k = Some (sptr k)) /\
        forall c, c < nC -> segment_values res.1 res.2 c ≡ₚ cell_faces m c)).
    { intros sg Hsz Hns Hsg. unfold K.
      eapply good_ubind; [apply ifill_good|]. intros zeros ->. rewrite L0, Hsz.
      set (mz := [replicate nC 0; junk stot]).
      eapply good_ubind.
      { apply (face_phase e mz).
        - unfold mz, shape. cbn [fmap list_fmap]. rewrite replicate_length, Hjunk. done.
        - intros c Hc. unfold mz, mget. cbn [fst snd lookup list_lookup mbind option_bind].
          by apply lookup_replicate_2.
        - intros f Hf. unfold st_face_kernel. rewrite own_lookup, nei_lookup by done.
          cbn [mbind option_bind]. pose proof (own_lt m Hcn f Hf). pose proof (nei_lt m Hcn f Hf).
          rewrite !Hsg by lia. done. }
      intros m3 [tk HF]. cbv beta.
      eapply good_ubind.
      { apply (bface_phase e m3).
        - apply (fp_shape _ _ _ HF).
        - apply (fp_count _ _ _ HF).
        - intros b Hb. unfold st_bface_kernel. replace (nI + b - nI) with b by lia.
          rewrite fc_lookup by done. cbn [mbind option_bind]. pose proof (fc_lt b Hb).
          rewrite Hsg by lia. done. }
      intros m4 [tb HB]. cbv beta.
      pose proof (bp_shape _ _ _ HB) as Hsh4.
      destruct m4 as [|c4 [|values [|? ?]]]; try discriminate Hsh4.
      assert (Lv : length values = stot) by (by injection Hsh4).
      split; [eauto|]. intros r ->. eexists. split; [done|]. simpl.
      split; [done|]. split; [split; [congruence|done]|]. split; [done|].
      intros c Hc. unfold segment_values. rewrite <- ents_vals.
      rewrite (atn_lookup _ _ _ (Hsg (c + 1) ltac:(lia))), (atn_lookup _ _ _ (Hsg c ltac:(lia))).
      replace (sptr (c + 1) - sptr c) with (slen c) by (unfold sptr; rewrite psum_S; lia).
      assert (Hvals : forall x, values !! x = mget [c4; values] (1, x)) by done.
      apply (row_fill (ents c)
        (fun x => match x with EOwn f => tk f 0 | ENei f => tk f 1 | EBnd b => tb b end)).
      - apply ents_NoDup.
      - apply ents_length.
      - pose proof (sptr_tot c Hc). lia.
      - intros x y Hx Hy E. apply elem_of_ents in Hx, Hy.
        destruct x as [f|f|b], y as [f'|f'|b'].
        + destruct Hx as [Hx Ex], Hy as [Hy Ey].
          destruct (decide (f = f')) as [->|]; [done|].
          destruct (fp_inj _ _ _ HF f 0 f' 0); auto; congruence.
        + destruct Hx as [Hx Ex], Hy as [Hy Ey].
          destruct (fp_inj _ _ _ HF f 0 f' 1); auto; congruence.
        + destruct Hx as [Hx Ex], Hy as [Hy Ey].
          destruct (fp_own _ _ _ HF f Hx) as [H1 _]. destruct (bp_slot _ _ _ HB b' Hy) as [H2 _].
          rewrite Ex in H1. rewrite Ey in H2. lia.
        + destruct Hx as [Hx Ex], Hy as [Hy Ey].
          destruct (fp_inj _ _ _ HF f 1 f' 0); auto; congruence.
        + destruct Hx as [Hx Ex], Hy as [Hy Ey].
          destruct (decide (f = f')) as [->|]; [done|].
          destruct (fp_inj _ _ _ HF f 1 f' 1); auto; congruence.
        + destruct Hx as [Hx Ex], Hy as [Hy Ey].
          destruct (fp_nei _ _ _ HF f Hx) as [H1 _]. destruct (bp_slot _ _ _ HB b' Hy) as [H2 _].
          rewrite Ex in H1. rewrite Ey in H2. lia.
        + destruct Hx as [Hx Ex], Hy as [Hy Ey].
          destruct (fp_own _ _ _ HF f' Hy) as [H1 _]. destruct (bp_slot _ _ _ HB b Hx) as [H2 _].
          rewrite Ey in H1. rewrite Ex in H2. lia.
        + destruct Hx as [Hx Ex], Hy as [Hy Ey].
          destruct (fp_nei _ _ _ HF f' Hy) as [H1 _]. destruct (bp_slot _ _ _ HB b Hx) as [H2 _].
          rewrite Ey in H1. rewrite Ex in H2. lia.
        + destruct Hx as [Hx Ex], Hy as [Hy Ey].
          destruct (decide (b = b')) as [->|]; [done|].
          destruct (bp_inj _ _ _ HB b b'); auto; congruence.
      - intros x Hx. apply elem_of_ents in Hx. destruct x as [f|f|b]; destruct Hx as [Hx <-].
        + destruct (fp_own _ _ _ HF f Hx) as [H1 _]. unfold slen. lia.
        + destruct (fp_nei _ _ _ HF f Hx) as [H1 _]. unfold slen. lia.
        + destruct (bp_slot _ _ _ HB b Hx) as [H1 _]. lia.
      - intros x Hx. apply elem_of_ents in Hx. rewrite Hvals. destruct x as [f|f|b]; destruct Hx as [Hx <-]; simpl ent_val.
        + destruct (fp_own _ _ _ HF f Hx) as [H1 H2].
          rewrite (bp_other _ _ _ HB); [done|]. intros b Hb E.
          destruct (bp_slot _ _ _ HB b Hb) as [H3 _].
          destruct (row_inj nC slen sptr sptr_rows (own f) (fc b) (tk f 0) (tb b)) as [E1 E2];
            auto using own_lt, fc_lt; try (unfold slen in *; lia).
          rewrite E1 in H1. lia.
        + destruct (fp_nei _ _ _ HF f Hx) as [H1 H2].
          rewrite (bp_other _ _ _ HB); [done|]. intros b Hb E.
          destruct (bp_slot _ _ _ HB b Hb) as [H3 _].
          destruct (row_inj nC slen sptr sptr_rows (nei f) (fc b) (tk f 1) (tb b)) as [E1 E2];
            auto using nei_lt, fc_lt; try (unfold slen in *; lia).
          rewrite E1 in H1. lia.
        + by destruct (bp_slot _ _ _ HB b Hx) as [_ H2]. }
    cbv beta iota. split.
    - destruct (Hsf _ _ (serial_plan (length counts))) as (sg & E & H1 & H2 & H3).
      destruct (HK sg H1 H2 H3) as [[b Hb] _]. exists b.
      exists [seq 0 (length counts)], [0]. split; [apply serial_plan|]. rewrite E. exact Hb.
    - intros r (chunks & order & Hpl & Hr).
      destruct (Hsf _ _ Hpl) as (sg & E & H1 & H2 & H3). rewrite E in Hr.
      by apply (HK sg H1 H2 H3).
  Qed.
End stencil.

(** On a valid mesh no face occurs twice in a cell. *)
Lemma cell_faces_NoDup m c : valid_topology m -> NoDup (cell_faces m c).
Proof.
  intros Hv. unfold cell_faces, faces_owned, faces_neighboured. apply NoDup_app. split; [|split].
  - apply NoDup_filter, NoDup_seq.
  - intros f H1 H2. apply elem_of_list_filter in H1 as [E1 H1]. apply elem_of_seq in H1.
    apply elem_of_app in H2 as [H2|H2].
    + apply elem_of_list_filter in H2 as [E2 H2]. pose proof (vt_owner m Hv f). lia.
    + apply elem_of_list_fmap in H2 as (b & -> & _). lia.
  - apply NoDup_app. split; [|split].
    + apply NoDup_filter, NoDup_seq.
    + intros f H1 H2. apply elem_of_list_filter in H1 as [E1 H1]. apply elem_of_seq in H1.
      apply elem_of_list_fmap in H2 as (b & -> & _). lia.
    + apply (NoDup_fmap_2_strong (Nat.add (nInternalFaces m))); [intros; lia|]. apply NoDup_filter, NoDup_seq.
Qed.
