From stdpp Require Import gmap.
From Verif Require Import Base Exec FieldsProofs FieldMem.

Ltac cellsplit := split; [|split; [|split]].

Section proofs.
  Context {V : Type}.
  Context (alloc0 realloc0 : bool).
  Implicit Types (m : mem V) (s : vstate V) (d : list V) (o : fobj).

  Definition cell_ok m o (e : executor) d : Prop :=
    o_exec o = e /\ o_size o = length d /\
    (d <> [] -> exists a, o_ptr o = Some a /\ heap m !! a = Some d) /\
    (forall a, o_ptr o = Some a -> is_Some (heap m !! a)).

  Definition Rel m s : Prop :=
    (forall x, match objs m !! x, s !! x with
               | Some o, Some (e, d) => cell_ok m o e d
               | None, None => True
               | _, _ => False
               end) /\
    (forall x1 x2 o1 o2 a, objs m !! x1 = Some o1 -> objs m !! x2 = Some o2 ->
       o_ptr o1 = Some a -> o_ptr o2 = Some a -> x1 = x2) /\
    (forall a, is_Some (heap m !! a) -> a < next m).

  Lemma Rel_lookup m s x o :
    Rel m s -> objs m !! x = Some o -> exists e d, s !! x = Some (e, d) /\ cell_ok m o e d.
  Proof.
    intros (H & _) Hx. specialize (H x). rewrite Hx in H.
    destruct (s !! x) as [[e d]|]; [eauto|done].
  Qed.
  Lemma Rel_lookup_None m s x : Rel m s -> objs m !! x = None -> s !! x = None.
  Proof.
    intros (H & _) Hx. specialize (H x). rewrite Hx in H. by destruct (s !! x) as [[e d]|].
  Qed.

  Lemma read_ok m o e d : cell_ok m o e d -> read_obj m o = Some d.
  Proof.
    intros (He & Hs & Hp & _). unfold read_obj. rewrite Hs.
    destruct d as [|v d]; [done|]. simpl Nat.eqb. cbn iota.
    destruct Hp as (a & -> & ->); [done|].
    rewrite Nat.leb_refl. by rewrite firstn_all.
  Qed.

  (** Objects other than [x] do not notice a change that keeps their blocks. *)
  Lemma cell_ok_heap m m' o e d :
    (forall a, o_ptr o = Some a -> heap m' !! a = heap m !! a) ->
    cell_ok m o e d -> cell_ok m' o e d.
  Proof.
    intros Hh (He & Hs & Hp & Hl). cellsplit; auto.
    - intros Hd. destruct (Hp Hd) as (a & Ha & Hda). exists a. rewrite Hh; auto.
    - intros a Ha. rewrite Hh; auto.
  Qed.

  Lemma alloc_ok m s x e d m' p :
    Rel m s -> objs m !! x = None -> do_alloc alloc0 m d = (m', p) ->
    Rel (set_obj m' x (mkObj e (length d) p)) (<[x := (e, d)]> s).
  Proof.
    intros HR Hx Ha. destruct HR as (H1 & H2 & H3).
    assert (Hobj : objs m' = objs m).
    { unfold do_alloc in Ha. destruct (_ && _); injection Ha as <- <-; done. }
    assert (Hheap : forall a, is_Some (heap m !! a) -> heap m' !! a = heap m !! a).
    { intros a Hl. apply H3 in Hl. unfold do_alloc in Ha.
      destruct (_ && _); injection Ha as <- <-; [done|]. simpl.
      rewrite lookup_insert_ne by lia. done. }
    assert (Hp : forall a, p = Some a -> a = next m /\ heap m' !! a = Some d).
    { intros a Hpa. subst p. unfold do_alloc in Ha.
      destruct (_ && _); [by simplify_eq|]. simplify_eq. simpl. by rewrite lookup_insert. }
    assert (Hd : d <> [] -> is_Some p).
    { intros Hd. unfold do_alloc in Ha. destruct d; [done|]. simpl in Ha.
      injection Ha as <- <-. eauto. }
    split; [|split].
    - intros y. unfold set_obj. simpl. rewrite Hobj.
      destruct (decide (x = y)) as [<-|Hne].
      + rewrite !lookup_insert. cellsplit; simpl; auto.
        * intros Hdn. destruct (Hd Hdn) as [a Ea]. exists a.
          split; [done|]. apply (Hp a Ea).
        * intros a Ea. destruct (Hp a Ea) as [_ ->]. eauto.
      + rewrite !lookup_insert_ne by done. specialize (H1 y).
        destruct (objs m !! y) as [oy|] eqn:Ey, (s !! y) as [[ey dy]|]; auto.
        eapply cell_ok_heap; [|exact H1]. simpl. intros a Ha'. apply Hheap.
        destruct H1 as (_ & _ & _ & Hl). auto.
    - intros x1 x2 o1 o2 a. unfold set_obj. simpl. rewrite Hobj.
      assert (forall y oy, objs m !! y = Some oy -> o_ptr oy = Some a -> a < next m) as Hlt.
      { intros y oy Hy Hay. apply H3. specialize (H1 y). rewrite Hy in H1.
        destruct (s !! y) as [[ey dy]|]; [|done]. destruct H1 as (_ & _ & _ & Hl). auto. }
      destruct (decide (x = x1)) as [<-|N1], (decide (x = x2)) as [<-|N2]; auto.
      + rewrite lookup_insert, lookup_insert_ne by done. intros [= <-] Hy Hpa Hay. simpl in Hpa.
        apply Hp in Hpa as [-> _]. specialize (Hlt _ _ Hy Hay). lia.
      + rewrite lookup_insert, lookup_insert_ne by done. intros Hy [= <-] Hay Hpa. simpl in Hpa.
        apply Hp in Hpa as [-> _]. specialize (Hlt _ _ Hy Hay). lia.
      + rewrite !lookup_insert_ne by done. apply H2.
    - intros a. unfold set_obj. simpl. unfold do_alloc in Ha.
      destruct (_ && _); injection Ha as <- <-; [apply H3|]. simpl.
      destruct (decide (a = next m)) as [->|]; [lia|].
      rewrite lookup_insert_ne by done. intros Hl. apply H3 in Hl. lia.
  Qed.

  (** Store new contents of the same length. *)
  Lemma write_ok m s x o e d d' :
    Rel m s -> objs m !! x = Some o -> s !! x = Some (e, d) -> length d' = length d ->
    exists m', write_obj m o d' = Ok m' /\ Rel m' (<[x := (e, d')]> s).
  Proof.
    intros HR Hx Hsx Hl. destruct (Rel_lookup m s x o HR Hx) as (e0 & d0 & Hs0 & Hc).
    rewrite Hsx in Hs0. injection Hs0 as <- <-.
    destruct Hc as (He & Hs & Hp & Hlive). destruct HR as (H1 & H2 & H3).
    unfold write_obj. rewrite Hs. destruct d as [|v d].
    - destruct d' as [|]; [|done]. exists m. split; [done|].
      rewrite insert_id by done. done.
    - simpl Nat.eqb. cbn iota. destruct Hp as (a & Ea & Ha); [done|]. rewrite Ea, Ha, Nat.leb_refl.
      eexists. split; [done|].
      rewrite drop_all, app_nil_r.
      split; [|split]; simpl.
      + intros y. destruct (decide (x = y)) as [<-|Hne].
        * rewrite Hx, lookup_insert. cellsplit; simpl; auto; [congruence| |].
          -- intros _. exists a. by rewrite lookup_insert.
          -- intros b Hb. rewrite Ea in Hb. injection Hb as <-. rewrite lookup_insert. eauto.
        * rewrite lookup_insert_ne by done. specialize (H1 y).
          destruct (objs m !! y) as [oy|] eqn:Ey, (s !! y) as [[ey dy]|]; auto.
          eapply cell_ok_heap; [|exact H1]. simpl. intros b Hb.
          rewrite lookup_insert_ne; [done|]. intros ->. apply Hne. eapply (H2 x y); eauto.
      + apply H2.
      + intros b. destruct (decide (b = a)) as [->|].
        * intros _. apply H3. eauto.
        * rewrite lookup_insert_ne by done. apply H3.
  Qed.

  (** Dropping the block of object [x] and giving it a fresh one. *)
  Lemma resize_ok m s x o e d n junk :
    Rel m s -> objs m !! x = Some o -> s !! x = Some (e, d) -> n <= length junk ->
    exists m' o', do_resize alloc0 realloc0 m o n junk = Ok (m', o') /\
      objs m' = objs m /\
      Rel (set_obj m' x o') (<[x := (e, take n (d ++ junk))]> s).
  Proof.
    intros HR Hx Hsx Hn. destruct (Rel_lookup m s x o HR Hx) as (e0 & d0 & Hs0 & Hc).
    rewrite Hsx in Hs0. injection Hs0 as <- <-.
    destruct Hc as (He & Hs & Hp & Hlive).
    unfold do_resize. rewrite Hs. destruct d as [|v d].
    - (* empty: plain alloc, the old pointer is overwritten *)
      simpl Nat.eqb. cbn iota. simpl app.
      destruct (do_alloc alloc0 m (take n junk)) as [m' p] eqn:Ea.
      exists m', (mkObj (o_exec o) n p). split; [done|].
      assert (Hobj : objs m' = objs m).
      { unfold do_alloc in Ea. destruct (_ && _); injection Ea as <- <-; done. }
      split; [done|].
      (* remove x, then use the allocation lemma *)
      set (m0 := mkMem (heap m) (next m) (delete x (objs m))).
      assert (HR0 : Rel m0 (delete x s)).
      { destruct HR as (H1 & H2 & H3). split; [|split]; simpl; auto.
        - intros y. destruct (decide (x = y)) as [<-|Hne].
          + by rewrite !lookup_delete.
          + rewrite !lookup_delete_ne by done. apply H1.
        - intros x1 x2 o1 o2 a G1 G2.
          apply lookup_delete_Some in G1 as [_ G1]. apply lookup_delete_Some in G2 as [_ G2].
          eapply H2; eauto. }
      destruct (do_alloc alloc0 m0 (take n junk)) as [m0' p0] eqn:Ea0.
      assert (Hm : heap m0' = heap m' /\ next m0' = next m' /\ p0 = p /\ objs m0' = delete x (objs m)).
      { unfold do_alloc in Ea, Ea0. destruct (_ && _).
        - injection Ea as <- <-. injection Ea0 as <- <-. done.
        - injection Ea as <- <-. injection Ea0 as <- <-. done. }
      destruct Hm as (Hh & Hnx & -> & Ho0).
      pose proof (alloc_ok m0 (delete x s) x (o_exec o) (take n junk) m0' p HR0) as HA.
      assert (objs m0 !! x = None) as Hd0 by (simpl; apply lookup_delete).
      specialize (HA Hd0 Ea0). rewrite insert_delete_insert in HA.
      rewrite He in *.
      assert (Hset : set_obj m0' x (mkObj e (length (take n junk)) p) = set_obj m' x (mkObj e n p)).
      { unfold set_obj. rewrite Hh, Hnx, Ho0, Hobj, insert_delete_insert.
        rewrite take_length_le by lia. done. }
      rewrite Hset in HA. exact HA.
    - simpl Nat.eqb. cbn iota. destruct Hp as (a & Ea & Ha); [done|].
      unfold do_realloc. rewrite Ea, Ha.
      destruct HR as (H1 & H2 & H3).
      assert (Hlen : length (take n ((v :: d) ++ junk)) = n).
      { rewrite take_length_le; [done|]. rewrite app_length. simpl. lia. }
      assert (Hlta : a < next m) by (apply H3; eauto).
      assert (Hother : forall y oy b, y <> x -> objs m !! y = Some oy -> o_ptr oy = Some b ->
                b <> a /\ b < next m /\ is_Some (heap m !! b)).
      { intros y oy b Hne Hy Hb.
        assert (is_Some (heap m !! b)) as Hl.
        { specialize (H1 y). rewrite Hy in H1. destruct (s !! y) as [[ey dy]|]; [|done].
          destruct H1 as (_ & _ & _ & Hl). auto. }
        split; [|split]; auto. intros ->. apply Hne. symmetry. eapply (H2 x y); eauto. }
      destruct (Nat.eqb n 0 && negb realloc0) eqn:En; simpl obind.
      + apply andb_prop in En as [En _]. apply Nat.eqb_eq in En. subst n.
        eexists _, _. split; [done|]. split; [done|].
        split; [|split]; simpl.
        * intros y. destruct (decide (x = y)) as [<-|Hne].
          -- rewrite !lookup_insert. cellsplit; simpl; done.
          -- rewrite !lookup_insert_ne by done. specialize (H1 y).
             destruct (objs m !! y) as [oy|] eqn:Ey, (s !! y) as [[ey dy]|]; auto.
             eapply cell_ok_heap; [|exact H1]. simpl. intros b Hb.
             destruct (Hother y oy b) as [Hba _]; auto. by rewrite lookup_delete_ne.
        * intros x1 x2 o1 o2 b.
          destruct (decide (x = x1)) as [<-|N1], (decide (x = x2)) as [<-|N2]; auto.
          -- rewrite lookup_insert. by intros [= <-].
          -- rewrite (lookup_insert _ x). by intros _ [= <-].
          -- rewrite !lookup_insert_ne by done. apply H2.
        * intros b Hb. apply H3. destruct Hb as [w Hw].
          apply lookup_delete_Some in Hw as [_ Hw]. eauto.
      + eexists _, _. split; [done|]. split; [done|].
        split; [|split]; simpl.
        * intros y. destruct (decide (x = y)) as [<-|Hne].
          -- rewrite !lookup_insert. cellsplit; simpl; auto.
             ++ intros _. exists (next m). by rewrite lookup_insert.
             ++ intros b [= <-]. rewrite lookup_insert. eauto.
          -- rewrite !lookup_insert_ne by done. specialize (H1 y).
             destruct (objs m !! y) as [oy|] eqn:Ey, (s !! y) as [[ey dy]|]; auto.
             eapply cell_ok_heap; [|exact H1]. simpl. intros b Hb.
             destruct (Hother y oy b) as (Hba & Hlt & _); auto.
             rewrite lookup_insert_ne by lia. by rewrite lookup_delete_ne.
        * intros x1 x2 o1 o2 b.
          destruct (decide (x = x1)) as [<-|N1], (decide (x = x2)) as [<-|N2]; auto.
          -- rewrite lookup_insert, lookup_insert_ne by done.
             intros [= <-] Hy [= <-] Hb. simpl in *.
             destruct (Hother x2 o2 (next m)) as (_ & Hlt & _); auto. lia.
          -- rewrite lookup_insert, lookup_insert_ne by done.
             intros Hy [= <-] Hb [= <-]. simpl in *.
             destruct (Hother x1 o1 (next m)) as (_ & Hlt & _); auto. lia.
          -- rewrite !lookup_insert_ne by done. apply H2.
        * intros b Hb. destruct (decide (b = next m)) as [->|]; [lia|].
          rewrite lookup_insert_ne in Hb by done.
          destruct Hb as [w Hw]. apply lookup_delete_Some in Hw as [_ Hw].
          assert (b < next m) by (apply H3; eauto). lia.
  Qed.

  Lemma step_ok m s c :
    Rel m s ->
    match step alloc0 realloc0 m c, spec_step s c with
    | Ok m', Some s' => Rel m' s'
    | Exit, None => True
    | _, _ => False
    end.
  Proof.
    intros HR. destruct c as [x e junk|x e y|x y|x|x y junk|x n junk|x f]; simpl.
    - destruct (objs m !! x) as [o|] eqn:Hx.
      + destruct (Rel_lookup m s x o HR Hx) as (e0 & d0 & -> & _). done.
      + rewrite (Rel_lookup_None m s x HR Hx).
        destruct (do_alloc alloc0 m junk) as [m' p] eqn:Ea. eapply alloc_ok; eauto.
    - destruct (objs m !! x) as [o|] eqn:Hx.
      + destruct (Rel_lookup m s x o HR Hx) as (e0 & d0 & -> & _). done.
      + rewrite (Rel_lookup_None m s x HR Hx).
        destruct (objs m !! y) as [oy|] eqn:Hy.
        * destruct (Rel_lookup m s y oy HR Hy) as (e0 & d0 & -> & Hc).
          rewrite (read_ok _ _ _ _ Hc).
          destruct (do_alloc alloc0 m d0) as [m' p] eqn:Ea.
          destruct Hc as (_ & -> & _). eapply alloc_ok; eauto.
        * by rewrite (Rel_lookup_None m s y HR Hy).
    - destruct (objs m !! x) as [o|] eqn:Hx.
      + destruct (Rel_lookup m s x o HR Hx) as (e0 & d0 & -> & _). done.
      + rewrite (Rel_lookup_None m s x HR Hx).
        destruct (objs m !! y) as [oy|] eqn:Hy.
        * destruct (Rel_lookup m s y oy HR Hy) as (e0 & d0 & Hsy & Hc). rewrite Hsy.
          destruct HR as (H1 & H2 & H3).
          assert (x <> y) as Hxy by congruence.
          split; [|split]; simpl; auto.
          -- intros z. destruct (decide (z = y)) as [->|N].
             ++ rewrite !lookup_insert. destruct Hc as (-> & _). cellsplit; simpl; done.
             ++ rewrite !(lookup_insert_ne _ y z) by done.
                destruct (decide (z = x)) as [->|N'].
                ** rewrite !lookup_insert. exact Hc.
                ** rewrite !lookup_insert_ne by done. apply H1.
          -- intros x1 x2 o1 o2 a G1 G2 P1 P2.
             assert (forall z oz, <[y:=mkObj (o_exec oy) 0 None]> (<[x:=oy]> (objs m)) !! z = Some oz ->
                       o_ptr oz = Some a -> z <> y /\ (z = x /\ oz = oy \/ z <> x /\ objs m !! z = Some oz)) as Hz.
             { intros z oz Gz Pz. destruct (decide (z = y)) as [->|N].
               - rewrite lookup_insert in Gz. by injection Gz as <-.
               - split; [done|]. rewrite lookup_insert_ne in Gz by done.
                 destruct (decide (z = x)) as [->|].
                 + rewrite lookup_insert in Gz. injection Gz as <-. auto.
                 + rewrite lookup_insert_ne in Gz by done. auto. }
             destruct (Hz x1 o1 G1 P1) as [Ny1 [[-> ->]|[Nx1 K1]]];
             destruct (Hz x2 o2 G2 P2) as [Ny2 [[-> ->]|[Nx2 K2]]]; auto.
             ++ destruct Ny2. symmetry. eapply (H2 y x2); eauto.
             ++ destruct Ny1. eapply (H2 x1 y); eauto.
             ++ eapply H2; eauto.
        * by rewrite (Rel_lookup_None m s y HR Hy).
    - destruct (objs m !! x) as [o|] eqn:Hx.
      + destruct (Rel_lookup m s x o HR Hx) as (e0 & d0 & Hsx & Hc).
        destruct HR as (H1 & H2 & H3).
        destruct (o_ptr o) as [a|] eqn:Ea.
        * simpl. destruct Hc as (_ & _ & _ & Hl).
          destruct (Hl a Ea) as [w Hw]. rewrite Hw. simpl.
          split; [|split]; simpl.
          -- intros y. destruct (decide (x = y)) as [<-|Hne].
             ++ by rewrite !lookup_delete.
             ++ rewrite !(lookup_delete_ne _ x y) by done. specialize (H1 y).
                destruct (objs m !! y) as [oy|] eqn:Ey, (s !! y) as [[ey dy]|]; auto.
                eapply cell_ok_heap; [|exact H1]. simpl. intros b Hb.
                rewrite lookup_delete_ne; [done|]. intros ->. apply Hne. eapply (H2 x y); eauto.
          -- intros x1 x2 o1 o2 b G1 G2.
             apply lookup_delete_Some in G1 as [_ G1]. apply lookup_delete_Some in G2 as [_ G2].
             eapply H2; eauto.
          -- intros b [z Hz]. apply lookup_delete_Some in Hz as [_ Hz]. eauto.
        * simpl. split; [|split]; simpl; auto.
          -- intros y. destruct (decide (x = y)) as [<-|Hne].
             ++ by rewrite !lookup_delete.
             ++ rewrite !(lookup_delete_ne _ x y) by done. apply H1.
          -- intros x1 x2 o1 o2 b G1 G2.
             apply lookup_delete_Some in G1 as [_ G1]. apply lookup_delete_Some in G2 as [_ G2].
             eapply H2; eauto.
      + rewrite delete_notin; [done|]. eapply Rel_lookup_None; eauto.
    - destruct (objs m !! x) as [ox|] eqn:Hx.
      2: by rewrite (Rel_lookup_None m s x HR Hx).
      destruct (Rel_lookup m s x ox HR Hx) as (ex & dx & Hsx & Hcx). rewrite Hsx.
      destruct (objs m !! y) as [oy|] eqn:Hy.
      2: by rewrite (Rel_lookup_None m s y HR Hy).
      destruct (Rel_lookup m s y oy HR Hy) as (ey & dy & Hsy & Hcy). rewrite Hsy.
      rewrite (read_ok _ _ _ _ Hcy).
      pose proof Hcx as (Hex & Hlx & _). pose proof Hcy as (Hey & Hly & _).
      rewrite Hex, Hey, Hlx, Hly.
      destruct (exec_eqb ex ey); [|done].
      destruct (Nat.eqb_spec (length dx) (length dy)) as [Hl|Hl]; simpl.
      + destruct (write_ok m s x ox ex dx dy HR Hx Hsx) as (m' & -> & HR'); auto.
      + destruct (Nat.leb_spec (length dy) (length junk)) as [Hj|Hj]; [|done].
        destruct (resize_ok m s x ox ex dx (length dy) junk HR Hx Hsx Hj)
          as (m1 & o1 & -> & Hobj & HR1). simpl.
        assert (x <> y) as Hxy by congruence.
        assert (objs (set_obj m1 x o1) !! y = Some oy) as Hy1.
        { simpl. rewrite lookup_insert_ne by done. by rewrite Hobj. }
        destruct (Rel_lookup _ _ y oy HR1 Hy1) as (ey' & dy' & Hsy' & Hcy').
        rewrite lookup_insert_ne in Hsy' by done. rewrite Hsy in Hsy'. injection Hsy' as <- <-.
        rewrite (read_ok _ _ _ _ Hcy').
        assert (objs (set_obj m1 x o1) !! x = Some o1) as Hx1 by (simpl; apply lookup_insert).
        destruct (write_ok _ _ x o1 ex (take (length dy) (dx ++ junk)) dy HR1 Hx1) as (m' & -> & HR').
        * by rewrite lookup_insert.
        * rewrite take_length_le; [done|]. rewrite app_length. lia.
        * by rewrite insert_insert in HR'.
    - destruct (objs m !! x) as [ox|] eqn:Hx.
      2: by rewrite (Rel_lookup_None m s x HR Hx).
      destruct (Rel_lookup m s x ox HR Hx) as (ex & dx & Hsx & Hcx). rewrite Hsx.
      destruct (Nat.leb_spec n (length junk)) as [Hj|Hj]; [|done].
      destruct (resize_ok m s x ox ex dx n junk HR Hx Hsx Hj) as (m1 & o1 & -> & Hobj & HR1).
      done.
    - destruct (objs m !! x) as [ox|] eqn:Hx.
      2: by rewrite (Rel_lookup_None m s x HR Hx).
      destruct (Rel_lookup m s x ox HR Hx) as (ex & dx & Hsx & Hcx). rewrite Hsx.
      rewrite (read_ok _ _ _ _ Hcx).
      destruct (write_ok m s x ox ex dx (imap f dx) HR Hx Hsx) as (m' & -> & HR'); auto.
      by rewrite imap_length.
  Qed.

  Lemma Rel_empty : Rel empty_mem ∅.
  Proof.
    split; [|split]; simpl.
    - intros x. by rewrite !lookup_empty.
    - intros x1 x2 o1 o2 a H. by rewrite lookup_empty in H.
    - intros a H. rewrite lookup_empty in H. by destruct H.
  Qed.

  Lemma run_ok h : forall m s, Rel m s ->
    match run_ops alloc0 realloc0 m h, spec_run s h with
    | Ok m', Some s' => Rel m' s'
    | Exit, None => True
    | _, _ => False
    end.
  Proof.
    induction h as [|c h IH]; intros m s HR; simpl; [done|].
    pose proof (step_ok m s c HR) as Hs.
    destruct (step alloc0 realloc0 m c) as [m'| | |]; simpl; try done;
      destruct (spec_step s c); try done. by apply IH.
  Qed.

  Lemma Rel_observe m s x : Rel m s ->
    observe m x = match s !! x with Some (e, d) => Some (e, Some d) | None => None end.
  Proof.
    intros HR. unfold observe. destruct (objs m !! x) as [o|] eqn:Hx.
    - destruct (Rel_lookup m s x o HR Hx) as (e & d & -> & Hc).
      rewrite (read_ok _ _ _ _ Hc). by destruct Hc as (-> & _).
    - by rewrite (Rel_lookup_None m s x HR Hx).
  Qed.

  (** Every history: fields behave as independent values, no undefined
      behaviour. *)
  Lemma history_values h :
    match run_ops alloc0 realloc0 empty_mem h, spec_run (∅ : vstate V) h with
    | Ok m, Some s =>
        forall x, observe m x = match s !! x with
                                | Some (e, d) => Some (e, Some d)
                                | None => None
                                end
    | Exit, None => True
    | _, _ => False
    end.
  Proof.
    pose proof (run_ok h empty_mem ∅ Rel_empty) as H.
    destruct (run_ops alloc0 realloc0 empty_mem h), (spec_run (∅ : vstate V) h); try done.
    intros x. by apply Rel_observe.
  Qed.

  Lemma history_owner h m x1 x2 o1 o2 a :
    run_ops alloc0 realloc0 empty_mem h = Ok m ->
    objs m !! x1 = Some o1 -> objs m !! x2 = Some o2 ->
    o_ptr o1 = Some a -> o_ptr o2 = Some a -> x1 = x2.
  Proof.
    intros Hr. pose proof (run_ok h empty_mem ∅ Rel_empty) as H. rewrite Hr in H.
    destruct (spec_run (∅ : vstate V) h); [|done]. destruct H as (_ & H & _). by apply H.
  Qed.
End proofs.

(** * Leaks *)
Section leaks.
  Context {V : Type}.
  Implicit Types (m : mem V).

  (** Without zero-size blocks every allocation is owned. *)
  Definition tight m : Prop :=
    no_leak m /\ (forall x o a, objs m !! x = Some o -> o_ptr o = Some a -> o_size o <> 0).

  Lemma tight_step m s c m' :
    Rel m s -> tight m -> step false false m c = Ok m' -> tight m'.
  Proof.
    intros HR (Hn & Hz) Hs.
    assert (Halloc : forall x e d m1 p, objs m !! x = None -> do_alloc false m d = (m1, p) ->
              tight (set_obj m1 x (mkObj e (length d) p))).
    { intros x e d m1 p Hx Ha. unfold do_alloc in Ha. simpl in Ha. rewrite andb_true_r in Ha.
      destruct (Nat.eqb_spec (length d) 0) as [E|E]; injection Ha as <- <-.
      - split; simpl.
        + intros a Ha. destruct (Hn a Ha) as (y & oy & Hy & Hp). exists y, oy. simpl.
          rewrite lookup_insert_ne by congruence. done.
        + intros y oy a Hy Hp. destruct (decide (x = y)) as [<-|].
          * rewrite lookup_insert in Hy. by injection Hy as <-.
          * rewrite lookup_insert_ne in Hy by done. eauto.
      - split; simpl.
        + intros a Ha. destruct (decide (a = next m)) as [->|Hne].
          * exists x, (mkObj e (length d) (Some (next m))). simpl. by rewrite lookup_insert.
          * simpl in Ha. rewrite lookup_insert_ne in Ha by done.
            destruct (Hn a Ha) as (y & oy & Hy & Hp). exists y, oy. simpl.
            rewrite lookup_insert_ne by congruence. done.
        + intros y oy a Hy Hp. destruct (decide (x = y)) as [<-|].
          * rewrite lookup_insert in Hy. by injection Hy as <-.
          * rewrite lookup_insert_ne in Hy by done. eauto. }
    assert (Hwrite : forall m0 o d m1, tight m0 -> write_obj m0 o d = Ok m1 -> tight m1).
    { intros m0 o d m1 (Hn0 & Hz0) Hw. unfold write_obj in Hw.
      destruct (Nat.eqb (o_size o) 0); [by injection Hw as <-|].
      destruct (o_ptr o) as [a|]; [|done]. destruct (heap m0 !! a) eqn:Ha; [|done].
      destruct (Nat.leb _ _); [|done]. injection Hw as <-. split; simpl; [|done].
      intros b Hb. apply Hn0. destruct (decide (b = a)) as [->|]; [eauto|].
      simpl in Hb. by rewrite lookup_insert_ne in Hb. }
    assert (Hresize : forall x o n junk m1 o1, objs m !! x = Some o -> n <= length junk ->
              do_resize false false m o n junk = Ok (m1, o1) -> tight (set_obj m1 x o1)).
    { intros x o n junk m1 o1 Hx Hj Hr. unfold do_resize in Hr.
      destruct (Nat.eqb_spec (o_size o) 0) as [E|E].
      - assert (o_ptr o = None) as Hp0.
        { destruct (o_ptr o) as [a|] eqn:Ea; [|done]. by destruct (Hz x o a Hx Ea). }
        unfold do_alloc in Hr. simpl in Hr. rewrite andb_true_r in Hr.
        rewrite take_length_le in Hr by lia.
        destruct (Nat.eqb_spec n 0) as [En|En]; injection Hr as <- <-.
        + split; simpl.
          * intros a Ha. destruct (Hn a Ha) as (y & oy & Hy & Hp). exists y, oy. simpl.
            rewrite lookup_insert_ne by congruence. done.
          * intros y oy a Hy Hp. destruct (decide (x = y)) as [<-|].
            -- rewrite lookup_insert in Hy. by injection Hy as <-.
            -- rewrite lookup_insert_ne in Hy by done. eauto.
        + split; simpl.
          * intros a Ha. destruct (decide (a = next m)) as [->|Hne].
            -- exists x, (mkObj (o_exec o) n (Some (next m))). simpl. by rewrite lookup_insert.
            -- simpl in Ha. rewrite lookup_insert_ne in Ha by done.
               destruct (Hn a Ha) as (y & oy & Hy & Hp). exists y, oy. simpl.
               rewrite lookup_insert_ne by congruence. done.
          * intros y oy a Hy Hp. destruct (decide (x = y)) as [<-|].
            -- rewrite lookup_insert in Hy. by injection Hy as <-.
            -- rewrite lookup_insert_ne in Hy by done. eauto.
      - unfold do_realloc in Hr. destruct (o_ptr o) as [a0|] eqn:Ea; [|done].
        destruct (heap m !! a0) as [d0|] eqn:Hd; [|done]. simpl in Hr. rewrite andb_true_r in Hr.
        assert (Hoth : forall a, is_Some (delete a0 (heap m) !! a) ->
                  exists y oy, objs m !! y = Some oy /\ o_ptr oy = Some a /\ y <> x).
        { intros a [w Hw]. apply lookup_delete_Some in Hw as [Hne Hw].
          destruct (Hn a) as (y & oy & Hy & Hp); [eauto|].
          exists y, oy. split; [done|split; [done|congruence]]. }
        destruct (Nat.eqb_spec n 0) as [En|En]; simpl in Hr; injection Hr as <- <-.
        + split; simpl.
          * intros a Ha. destruct (Hoth a Ha) as (y & oy & Hy & Hp & Hne). exists y, oy. simpl.
            rewrite lookup_insert_ne by congruence. done.
          * intros y oy a Hy Hp. destruct (decide (x = y)) as [<-|].
            -- rewrite lookup_insert in Hy. by injection Hy as <-.
            -- rewrite lookup_insert_ne in Hy by done. eauto.
        + split; simpl.
          * intros a Ha. destruct (decide (a = next m)) as [->|Hne].
            -- exists x, (mkObj (o_exec o) n (Some (next m))). simpl. by rewrite lookup_insert.
            -- simpl in Ha. rewrite lookup_insert_ne in Ha by done.
               destruct (Hoth a Ha) as (y & oy & Hy & Hp & Hne'). exists y, oy. simpl.
               rewrite lookup_insert_ne by congruence. done.
          * intros y oy a Hy Hp. destruct (decide (x = y)) as [<-|].
            -- rewrite lookup_insert in Hy. by injection Hy as <-.
            -- rewrite lookup_insert_ne in Hy by done. eauto. }
    destruct c as [x e junk|x e y|x y|x|x y junk|x n junk|x f]; simpl in Hs.
    - destruct (objs m !! x) eqn:Hx; [by injection Hs as <-|].
      destruct (do_alloc false m junk) as [m1 p] eqn:Ea. injection Hs as <-. eapply Halloc; eauto.
    - destruct (objs m !! x) eqn:Hx; [by injection Hs as <-|].
      destruct (objs m !! y) as [oy|] eqn:Hy; [|by injection Hs as <-].
      destruct (read_obj m oy) as [d|] eqn:Hd; [|done].
      destruct (do_alloc false m d) as [m1 p] eqn:Ea. injection Hs as <-.
      destruct (Rel_lookup m s y oy HR Hy) as (e0 & d0 & _ & Hc).
      rewrite (read_ok _ _ _ _ Hc) in Hd. injection Hd as <-.
      destruct Hc as (_ & -> & _). eapply Halloc; eauto.
    - destruct (objs m !! x) eqn:Hx; [by injection Hs as <-|].
      destruct (objs m !! y) as [oy|] eqn:Hy; [|by injection Hs as <-]. injection Hs as <-.
      assert (x <> y) as Hxy by congruence.
      split; simpl.
      + intros a Ha. destruct (Hn a Ha) as (z & oz & Hz' & Hp).
        destruct (decide (z = y)) as [->|].
        * rewrite Hy in Hz'. injection Hz' as <-. exists x, oy. simpl.
          rewrite lookup_insert_ne by done. by rewrite lookup_insert.
        * exists z, oz. simpl. rewrite !lookup_insert_ne by congruence. done.
      + intros z oz a Hz' Hp. destruct (decide (z = y)) as [->|].
        * rewrite lookup_insert in Hz'. by injection Hz' as <-.
        * rewrite lookup_insert_ne in Hz' by done. destruct (decide (z = x)) as [->|].
          -- rewrite lookup_insert in Hz'. injection Hz' as <-. eauto.
          -- rewrite lookup_insert_ne in Hz' by done. eauto.
    - destruct (objs m !! x) as [o|] eqn:Hx; [|by injection Hs as <-].
      assert (Hk : forall y oy a, delete x (objs m) !! y = Some oy -> o_ptr oy = Some a -> o_size oy <> 0).
      { intros y oy a Hy. apply lookup_delete_Some in Hy as [_ Hy]. eauto. }
      destruct (o_ptr o) as [a0|] eqn:Ea; simpl in Hs.
      + destruct (heap m !! a0) eqn:Hd; [|done]. simpl in Hs. injection Hs as <-. split; simpl; auto.
        intros a [w Hw]. simpl in Hw. apply lookup_delete_Some in Hw as [Hne Hw].
        destruct (Hn a) as (y & oy & Hy & Hp); [eauto|]. exists y, oy. simpl.
        rewrite lookup_delete_ne by congruence. done.
      + injection Hs as <-. split; simpl; auto.
        intros a Ha. destruct (Hn a Ha) as (y & oy & Hy & Hp). exists y, oy. simpl.
        rewrite lookup_delete_ne by congruence. done.
    - destruct (objs m !! x) as [ox|] eqn:Hx; [|by injection Hs as <-].
      destruct (objs m !! y) as [oy|] eqn:Hy; [|by injection Hs as <-].
      destruct (exec_eqb _ _); [|done].
      destruct (Nat.eqb (o_size ox) (o_size oy)).
      + destruct (read_obj m oy); [|done]. eapply Hwrite; [|exact Hs]. done.
      + destruct (Nat.leb_spec (o_size oy) (length junk)) as [Hj|]; [|by injection Hs as <-].
        destruct (do_resize false false m ox (o_size oy) junk) as [[m1 o1]| | |] eqn:Hr; try done.
        simpl in Hs. destruct (read_obj _ oy); [|done].
        eapply Hwrite; [|exact Hs]. eapply Hresize; eauto.
    - destruct (objs m !! x) as [ox|] eqn:Hx; [|by injection Hs as <-].
      destruct (Nat.leb_spec n (length junk)) as [Hj|]; [|by injection Hs as <-].
      destruct (do_resize false false m ox n junk) as [[m1 o1]| | |] eqn:Hr; try done.
      simpl in Hs. injection Hs as <-. eapply Hresize; eauto.
    - destruct (objs m !! x) as [ox|] eqn:Hx; [|by injection Hs as <-].
      destruct (read_obj m ox); [|done]. eapply Hwrite; [|exact Hs]. done.
  Qed.

  Lemma tight_run h : forall m s m', Rel m s -> tight m ->
    run_ops false false m h = Ok m' -> tight m'.
  Proof.
    induction h as [|c h IH]; intros m s m' HR Ht Hr; simpl in Hr.
    - by injection Hr as <-.
    - pose proof (step_ok false false m s c HR) as Hs.
      destruct (step false false m c) as [m1| | |] eqn:Hst; try done.
      destruct (spec_step s c) as [s1|]; [|done]. simpl in Hr.
      apply (IH m1 s1 m'); auto. apply (tight_step m s c); auto.
  Qed.

  Lemma no_leak_history (h : list (op V)) m :
    run_ops false false empty_mem h = Ok m -> no_leak m.
  Proof.
    intros Hr. refine (proj1 (tight_run h empty_mem ∅ m (Rel_empty) _ Hr)).
    split; simpl; intros a.
    - intros [w H]. simpl in H. by rewrite lookup_empty in H.
    - intros o a' H. by rewrite lookup_empty in H.
  Qed.
End leaks.

(** * Concrete histories *)
Definition leak_history : list (op Qc) :=
  [New 0 SerialExecutor [0%Qc]; Resize 0 0 []; Resize 0 1 [0%Qc]; Destroy 0].

Lemma leak_witness : exists (h : list (op Qc)) m,
  run_ops false true empty_mem h = Ok m /\ objs m = ∅ /\ exists a, is_Some (heap m !! a).
Proof.
  exists leak_history.
  assert ((match run_ops false true empty_mem leak_history with
           | Ok m => bool_decide (objs m = ∅) && bool_decide (is_Some (heap m !! 1))
           | _ => false
           end) = true) as H by (vm_compute; reflexivity).
  destruct (run_ops false true empty_mem leak_history) as [m| | |]; try done.
  exists m. apply andb_true_iff in H as [H1 H2].
  split; [done|]. split; [by apply bool_decide_eq_true in H1|].
  exists 1. by apply bool_decide_eq_true in H2.
Qed.

Definition sample_history : list (op Qc) :=
  [New 0 SerialExecutor [1%Qc; 0%Qc]; CopyTo 1 CPUExecutor 0; MapAll 0 (fun _ v => v + 1)%Qc;
   Move 2 0; Resize 2 3 [0%Qc; 0%Qc; 0%Qc]; New 3 SerialExecutor []; Assign 3 2 [0%Qc; 0%Qc; 0%Qc];
   Destroy 0; Destroy 2].

Lemma sample_history_ok : exists m,
  run_ops false true (empty_mem : mem Qc) sample_history = Ok m /\
  observe m 1 = Some (CPUExecutor, Some [1%Qc; 0%Qc]) /\
  observe m 3 = Some (SerialExecutor, Some [(1+1)%Qc; (0+1)%Qc; 0%Qc]).
Proof.
  assert ((match run_ops false true (empty_mem : mem Qc) sample_history with
           | Ok m => bool_decide (observe m 1 = Some (CPUExecutor, Some [1%Qc; 0%Qc])) &&
                     bool_decide (observe m 3 = Some (SerialExecutor, Some [(1+1)%Qc; (0+1)%Qc; 0%Qc]))
           | _ => false
           end) = true) as H by (vm_compute; reflexivity).
  destruct (run_ops false true (empty_mem : mem Qc) sample_history) as [m| | |]; try done.
  exists m. apply andb_true_iff in H as [H1 H2].
  split; [done|]. split; [by apply bool_decide_eq_true in H1|by apply bool_decide_eq_true in H2].
Qed.
