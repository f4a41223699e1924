(** Which blocks leak, for every allocator (used by C58). *)
From stdpp Require Import gmap.
From Verif Require Import Base Exec FieldsProofs FieldMem FieldMemProofs.

Section leaks.
  Context {V : Type} (alloc0 realloc0 : bool).
  Implicit Types (m : mem V) (s : vstate V) (d : list V) (o : fobj).

  (** Some field owns the block. *)
  Definition owned m (a : nat) : Prop := exists x o, objs m !! x = Some o /\ o_ptr o = Some a.
  (** The block is allocated and no field owns it. *)
  Definition leaked m (a : nat) : Prop := is_Some (heap m !! a) /\ ~ owned m a.
  (** The operation resizes, or assigns a non-empty field to, an empty field that
      owns block [a]. *)
  Definition abandons m (c : op V) (a : nat) : Prop :=
    exists x o, objs m !! x = Some o /\ o_size o = 0 /\ o_ptr o = Some a /\
      ((exists n junk, c = Resize x n junk /\ n <= length junk) \/
       (exists y oy junk, c = Assign x y junk /\ objs m !! y = Some oy /\ o_exec oy = o_exec o /\ o_size oy <> 0 /\ o_size oy <= length junk)).

  Lemma owned_live m s a : Rel m s -> owned m a -> is_Some (heap m !! a).
  Proof. intros HR (x & o & Hx & Hp). destruct (Rel_lookup m s x o HR Hx) as (e & d & _ & (_ & _ & _ & Hl)). by apply Hl. Qed.
  Lemma owned_fresh m s : Rel m s -> ~ owned m (next m) /\ heap m !! next m = None.
  Proof.
    intros HR. pose proof HR as (_ & _ & H3).
    assert (Hn : heap m !! next m = None) by (destruct (heap m !! next m) eqn:E; [specialize (H3 (next m)); rewrite E in H3; pose proof (H3 (ex_intro _ l eq_refl)); lia|done]).
    split; [|done]. intros Ho. apply (owned_live m s) in Ho; [|done]. rewrite Hn in Ho. by destruct Ho.
  Qed.

  Lemma leaked_alloc m s x e d k m1 p : Rel m s -> objs m !! x = None -> do_alloc alloc0 m d = (m1, p) ->
    forall a, leaked (set_obj m1 x (mkObj e k p)) a <-> leaked m a.
  Proof.
    intros HR Hx Ha a. destruct (owned_fresh m s HR) as [Hf1 Hf2]. unfold do_alloc in Ha.
    destruct (Nat.eqb (length d) 0 && negb alloc0); injection Ha as <- <-; unfold leaked, owned; simpl.
    - split; intros [Hl Ho]; (split; [done|]); intros (y & oy & Hy & Hp); apply Ho.
      + exists y, oy. split; [|done]. rewrite lookup_insert_ne; [done|]. congruence.
      + destruct (decide (x = y)) as [<-|Hne]; [rewrite lookup_insert in Hy; by injection Hy as <-|].
        rewrite lookup_insert_ne in Hy by done. by exists y, oy.
    - split.
      + intros [Hl Ho]. assert (a <> next m) as Hne.
        { intros ->. apply Ho. exists x, (mkObj e k (Some (next m))). by rewrite lookup_insert. }
        rewrite lookup_insert_ne in Hl by done. split; [done|]. intros (y & oy & Hy & Hp). apply Ho.
        exists y, oy. split; [|done]. rewrite lookup_insert_ne; [done|]. congruence.
      + intros [Hl Ho]. assert (a <> next m) as Hne by (intros ->; rewrite Hf2 in Hl; by destruct Hl).
        rewrite lookup_insert_ne by done. split; [done|]. intros (y & oy & Hy & Hp). apply Ho.
        destruct (decide (x = y)) as [<-|Hxy]; [rewrite lookup_insert in Hy; injection Hy as <-; simpl in Hp; congruence|].
        rewrite lookup_insert_ne in Hy by done. by exists y, oy.
  Qed.

  Lemma leaked_write m o d m1 : write_obj m o d = Ok m1 -> forall a, leaked m1 a <-> leaked m a.
  Proof.
    intros Hw a. unfold write_obj in Hw. destruct (Nat.eqb (o_size o) 0); [by injection Hw as <-|].
    destruct (o_ptr o) as [b|]; [|done]. destruct (heap m !! b) eqn:Hb; [|done]. destruct (Nat.leb _ _); [|done]. injection Hw as <-.
    unfold leaked, owned. simpl. destruct (decide (a = b)) as [->|Hne]; [rewrite lookup_insert, Hb|by rewrite lookup_insert_ne].
    split; intros [_ Ho]; (split; [by eexists|done]).
  Qed.

  Lemma leaked_resize m s x o n junk m1 o1 : Rel m s -> objs m !! x = Some o -> n <= length junk ->
    do_resize alloc0 realloc0 m o n junk = Ok (m1, o1) ->
    forall a, leaked (set_obj m1 x o1) a <-> leaked m a \/ (o_size o = 0 /\ o_ptr o = Some a).
  Proof.
    intros HR Hx Hj Hr a. destruct (owned_fresh m s HR) as [Hf1 Hf2]. pose proof HR as (_ & Huniq & _).
    unfold do_resize in Hr. destruct (Nat.eqb_spec (o_size o) 0) as [E|E].
    - (* grown from nothing: the old pointer is forgotten *)
      assert (Hcore : forall m1 p, objs m1 = objs m -> (forall b, is_Some (heap m1 !! b) <-> is_Some (heap m !! b) \/ p = Some b) ->
        (p = None \/ p = Some (next m)) ->
        leaked (set_obj m1 x (mkObj (o_exec o) n p)) a <-> leaked m a \/ (o_size o = 0 /\ o_ptr o = Some a)).
      { intros m2 p Hobj Hlive Hp. unfold leaked, owned. simpl. rewrite Hobj, Hlive. split.
        - intros [Hl Ho]. destruct (decide (p = Some a)) as [->|Hpa].
          { exfalso. apply Ho. exists x, (mkObj (o_exec o) n (Some a)). by rewrite lookup_insert. }
          destruct Hl as [Hl|]; [|done]. destruct (decide (o_ptr o = Some a)) as [|Hoa]; [by right|left]. split; [done|].
          intros (y & oy & Hy & Hpy). apply Ho. exists y, oy. split; [|done]. rewrite lookup_insert_ne; [done|congruence].
        - intros Hcase. assert (Hl : is_Some (heap m !! a)).
          { destruct Hcase as [[Hl _]|[_ Hpo]]; [done|]. apply (owned_live m s); [done|]. by exists x, o. }
          assert (a <> next m) as Hne by (intros ->; rewrite Hf2 in Hl; by destruct Hl).
          split; [by left|]. intros (y & oy & Hy & Hpy). destruct (decide (x = y)) as [<-|Hxy].
          + rewrite lookup_insert in Hy. injection Hy as <-. simpl in Hpy. destruct Hp; congruence.
          + rewrite lookup_insert_ne in Hy by done. destruct Hcase as [[_ Ho]|[_ Hpo]].
            * apply Ho. by exists y, oy.
            * apply Hxy. by apply (Huniq x y o oy a). }
      unfold do_alloc in Hr. destruct (Nat.eqb _ 0 && negb alloc0); injection Hr as <- <-.
      + apply Hcore; [done| |by left]. intros b. split; [by left|]. by intros [|].
      + apply Hcore; [done| |by right]. intros b. simpl. destruct (decide (b = next m)) as [->|Hb].
        * rewrite lookup_insert. split; [by right|by eexists].
        * rewrite lookup_insert_ne by done. split; [by left|]. intros [|Hq]; [done|congruence].
    - unfold do_realloc in Hr. destruct (o_ptr o) as [a0|] eqn:Ea; [|done].
      destruct (heap m !! a0) as [d0|] eqn:Hd; [|done].
      assert (Hcore : forall m1 p, objs m1 = objs m -> (forall b, is_Some (heap m1 !! b) <-> (is_Some (heap m !! b) /\ b <> a0) \/ p = Some b) ->
        (p = None \/ p = Some (next m)) ->
        leaked (set_obj m1 x (mkObj (o_exec o) n p)) a <-> leaked m a \/ (o_size o = 0 /\ Some a0 = Some a)).
      { intros m2 p Hobj Hlive Hp. unfold leaked, owned. simpl. rewrite Hobj, Hlive. split.
        - intros [Hl Ho]. left. destruct (decide (p = Some a)) as [->|Hpa].
          { exfalso. apply Ho. exists x, (mkObj (o_exec o) n (Some a)). by rewrite lookup_insert. }
          destruct Hl as [[Hl Hne]|]; [|done]. split; [done|].
          intros (y & oy & Hy & Hpy). apply Ho. exists y, oy. split; [|done]. rewrite lookup_insert_ne; [done|congruence].
        - intros [[Hl Ho]|[? _]]; [|done].
          assert (a <> a0) as Hna by (intros ->; apply Ho; by exists x, o).
          assert (a <> next m) as Hne by (intros ->; rewrite Hf2 in Hl; by destruct Hl).
          split; [by left|]. intros (y & oy & Hy & Hpy). destruct (decide (x = y)) as [<-|Hxy].
          + rewrite lookup_insert in Hy. injection Hy as <-. simpl in Hpy. destruct Hp; congruence.
          + rewrite lookup_insert_ne in Hy by done. apply Ho. by exists y, oy. }
      destruct (Nat.eqb n 0 && negb realloc0); simpl in Hr; injection Hr as <- <-.
      + apply Hcore; [done| |by left]. intros b. simpl. rewrite lookup_delete_is_Some. split; [intros [? ?]; left; split; [done|congruence]|]. intros [[? ?]|]; [|done]. split; [congruence|done].
      + apply Hcore; [done| |by right]. intros b. simpl. destruct (decide (b = next m)) as [->|Hb].
        * rewrite lookup_insert. split; [by right|by eexists].
        * rewrite lookup_insert_ne by done. rewrite lookup_delete_is_Some. split; [intros [? ?]; left; split; [done|congruence]|].
          intros [[? ?]|Hq]; [split; [congruence|done]|congruence].
  Qed.

  Lemma leaked_step m s c m' : Rel m s -> step alloc0 realloc0 m c = Ok m' ->
    forall a, leaked m' a <-> leaked m a \/ abandons m c a.
  Proof.
    intros HR Hs a.
    assert (Hno : (forall x o, objs m !! x = Some o -> o_size o = 0 -> o_ptr o = Some a ->
        ~ ((exists n junk, c = Resize x n junk /\ n <= length junk) \/
           (exists y oy junk, c = Assign x y junk /\ objs m !! y = Some oy /\ o_exec oy = o_exec o /\ o_size oy <> 0 /\ o_size oy <= length junk))) ->
        (leaked m' a <-> leaked m a) -> leaked m' a <-> leaked m a \/ abandons m c a).
    { intros Hn ->. split; [by left|]. intros [|(x & o & H1 & H2 & H3 & H4)]; [done|]. by destruct (Hn x o H1 H2 H3). }
    destruct c as [x e junk|x e y|x y|x|x y junk|x n junk|x f]; simpl in Hs.
    - apply Hno; [intros ? ? ? ? ? [(?&?&?&?)|(?&?&?&?&?)]; discriminate|].
      destruct (objs m !! x) eqn:Hx; [by injection Hs as <-|].
      destruct (do_alloc alloc0 m junk) as [m1 p] eqn:Ea. injection Hs as <-. by apply (leaked_alloc m s x e junk).
    - apply Hno; [intros ? ? ? ? ? [(?&?&?&?)|(?&?&?&?&?)]; discriminate|].
      destruct (objs m !! x) eqn:Hx; [by injection Hs as <-|].
      destruct (objs m !! y) as [oy|] eqn:Hy; [|by injection Hs as <-].
      destruct (read_obj m oy) as [d|] eqn:Hd; [|done].
      destruct (do_alloc alloc0 m d) as [m1 p] eqn:Ea. injection Hs as <-. by apply (leaked_alloc m s x e d).
    - apply Hno; [intros ? ? ? ? ? [(?&?&?&?)|(?&?&?&?&?)]; discriminate|].
      destruct (objs m !! x) eqn:Hx; [by injection Hs as <-|].
      destruct (objs m !! y) as [oy|] eqn:Hy; [|by injection Hs as <-]. injection Hs as <-.
      assert (x <> y) as Hxy by congruence. unfold leaked, owned. simpl.
      split; intros [Hl Ho]; (split; [done|]); intros (z & oz & Hz & Hp); apply Ho.
      + destruct (decide (z = y)) as [->|].
        * rewrite Hy in Hz. injection Hz as <-. exists x, oy. split; [|done]. rewrite lookup_insert_ne by done. by rewrite lookup_insert.
        * exists z, oz. split; [|done]. rewrite !lookup_insert_ne by congruence. done.
      + destruct (decide (z = y)) as [->|].
        * rewrite lookup_insert in Hz. by injection Hz as <-.
        * rewrite lookup_insert_ne in Hz by done. destruct (decide (z = x)) as [->|].
          -- rewrite lookup_insert in Hz. injection Hz as <-. by exists y, oy.
          -- rewrite lookup_insert_ne in Hz by done. by exists z, oz.
    - apply Hno; [intros ? ? ? ? ? [(?&?&?&?)|(?&?&?&?&?)]; discriminate|].
      destruct (objs m !! x) as [o|] eqn:Hx; [|by injection Hs as <-]. pose proof HR as (_ & Huniq & _).
      assert (Hsub : forall z oz, delete x (objs m) !! z = Some oz -> z <> x /\ objs m !! z = Some oz).
      { intros z oz Hz. apply lookup_delete_Some in Hz as [? ?]. split; [congruence|done]. }
      destruct (o_ptr o) as [a0|] eqn:Ea; simpl in Hs.
      + destruct (heap m !! a0) eqn:Hd; [|done]. simpl in Hs. injection Hs as <-. unfold leaked, owned. simpl.
        rewrite lookup_delete_is_Some. split.
        * intros [[Hne Hl] Ho]. split; [done|]. intros (z & oz & Hz & Hp). apply Ho. exists z, oz. split; [|done].
          rewrite lookup_delete_ne; [done|]. congruence.
        * intros [Hl Ho]. split; [split; [|done]; intros <-; apply Ho; by exists x, o|].
          intros (z & oz & Hz & Hp). apply Hsub in Hz as [_ Hz]. apply Ho. by exists z, oz.
      + injection Hs as <-. unfold leaked, owned. simpl. split; intros [Hl Ho]; (split; [done|]); intros (z & oz & Hz & Hp); apply Ho.
        * exists z, oz. split; [|done]. rewrite lookup_delete_ne; [done|]. congruence.
        * apply Hsub in Hz as [_ Hz]. by exists z, oz.
    - destruct (objs m !! x) as [ox|] eqn:Hx.
      2:{ apply Hno; [|by injection Hs as <-]. intros z oz Hz _ _ [(?&?&?&?)|(?&?&?&E&?)]; [discriminate|]. injection E as <- <- <-. congruence. }
      destruct (objs m !! y) as [oy|] eqn:Hy.
      2:{ apply Hno; [|by injection Hs as <-]. intros z oz Hz _ _ [(?&?&?&?)|(?&?&?&E&?&?)]; [discriminate|]. injection E as <- <- <-. congruence. }
      destruct (exec_eqb (o_exec ox) (o_exec oy)) eqn:Ee; [|done]. assert (Ee' : o_exec ox = o_exec oy) by (destruct (o_exec ox), (o_exec oy); done). clear Ee; rename Ee' into Ee.
      destruct (Nat.eqb_spec (o_size ox) (o_size oy)) as [Es|Es].
      + apply Hno.
        { intros z oz Hz Hz0 _ [(?&?&?&?)|(?&?&?&E&Hy'&_&Hn0&_)]; [discriminate|]. injection E as <- <- <-. rewrite Hx in Hz. rewrite Hy in Hy'. congruence. }
        destruct (read_obj m oy); [|done]. by eapply leaked_write.
      + destruct (Nat.leb_spec (o_size oy) (length junk)) as [Hj|Hj].
        2:{ apply Hno; [|by injection Hs as <-]. intros z oz Hz _ _ [(?&?&?&?)|(?&?&?&E&Hy'&_&_&Hle)]; [discriminate|]. injection E as <- <- <-.
            rewrite Hy in Hy'. injection Hy' as <-. lia. }
        destruct (do_resize alloc0 realloc0 m ox (o_size oy) junk) as [[m1 o1]| | |] eqn:Hr; try done.
        simpl in Hs. destruct (read_obj _ oy); [|done].
        rewrite (leaked_write _ _ _ _ Hs a), (leaked_resize m s x ox _ _ _ _ HR Hx Hj Hr a). split; (intros [|Hb]; [by left|right]).
        * destruct Hb as [H0 Hp]. exists x, ox. split; [done|]. split; [done|]. split; [done|]. right. exists y, oy, junk.
          split; [done|]. split; [done|]. split; [done|]. split; [lia|done].
        * destruct Hb as (z & oz & Hz & Hz0 & Hp & [(?&?&E&?)|(?&?&?&E&?)]); [discriminate|]. injection E as <- <- <-.
          rewrite Hx in Hz. injection Hz as <-. done.
    - destruct (objs m !! x) as [ox|] eqn:Hx.
      2:{ apply Hno; [|by injection Hs as <-]. intros z oz Hz _ _ [(?&?&E&?)|(?&?&?&?&?)]; [|discriminate]. injection E as <- <- <-. congruence. }
      destruct (Nat.leb_spec n (length junk)) as [Hj|Hj].
      2:{ apply Hno; [|by injection Hs as <-]. intros z oz Hz _ _ [(?&?&E&?)|(?&?&?&?&?)]; [|discriminate]. injection E as <- <- <-. lia. }
      destruct (do_resize alloc0 realloc0 m ox n junk) as [[m1 o1]| | |] eqn:Hr; try done.
      simpl in Hs. injection Hs as <-. rewrite (leaked_resize m s x ox _ _ _ _ HR Hx Hj Hr a). split; (intros [|Hb]; [by left|right]).
      + destruct Hb as [H0 Hp]. exists x, ox. split; [done|]. split; [done|]. split; [done|]. left. by exists n, junk.
      + destruct Hb as (z & oz & Hz & Hz0 & Hp & [(?&?&E&?)|(?&?&?&E&?)]); [|discriminate]. injection E as <- <- <-.
        rewrite Hx in Hz. injection Hz as <-. done.
    - apply Hno; [intros ? ? ? ? ? [(?&?&?&?)|(?&?&?&?&?)]; discriminate|].
      destruct (objs m !! x) as [ox|] eqn:Hx; [|by injection Hs as <-].
      destruct (read_obj m ox); [|done]. by eapply leaked_write.
  Qed.

  (** The states after each operation of a history. *)
  Lemma run_app h1 : forall m h2 m', run_ops alloc0 realloc0 m (h1 ++ h2) = Ok m' ->
    exists m1, run_ops alloc0 realloc0 m h1 = Ok m1 /\ run_ops alloc0 realloc0 m1 h2 = Ok m'.
  Proof.
    induction h1 as [|c h1 IH]; intros m h2 m' Hr; simpl in *; [by exists m|].
    destruct (step alloc0 realloc0 m c) as [m1| | |]; try done. simpl in *. by apply IH.
  Qed.
  Lemma run_rel h m' : run_ops alloc0 realloc0 empty_mem h = Ok m' -> exists s, Rel m' s.
  Proof.
    intros Hr. assert (Hg : forall h m s m', Rel m s -> run_ops alloc0 realloc0 m h = Ok m' -> exists s', Rel m' s').
    { clear. induction h as [|c h IH]; intros m s m' HR Hr; simpl in Hr; [injection Hr as <-; by exists s|].
      pose proof (step_ok alloc0 realloc0 m s c HR) as Hs. destruct (step alloc0 realloc0 m c) as [m1| | |]; try done.
      destruct (spec_step s c) as [s1|]; [|done]. simpl in Hr. by apply (IH m1 s1). }
    apply (Hg h empty_mem ∅); [apply Rel_empty|done].
  Qed.
  Lemma leaked_history h : forall m', run_ops alloc0 realloc0 empty_mem h = Ok m' ->
    forall a, leaked m' a <-> exists h1 c h2 m, h = h1 ++ c :: h2 /\ run_ops alloc0 realloc0 empty_mem h1 = Ok m /\ abandons m c a.
  Proof.
    induction h as [|c h IH] using rev_ind; intros m' Hr a.
    - injection Hr as <-. split.
      + intros [[w Hw] _]. simpl in Hw. by rewrite lookup_empty in Hw.
      + intros (h1 & c & h2 & m & E & _). by destruct h1.
    - destruct (run_app h _ _ _ Hr) as (m1 & H1 & H2). simpl in H2.
      destruct (step alloc0 realloc0 m1 c) as [m2| | |] eqn:Hst; try done. simpl in H2. injection H2 as ->.
      destruct (run_rel h m1 H1) as (s & HR). rewrite (leaked_step m1 s c m' HR Hst a), (IH m1 H1 a). split.
      + intros [(h1 & c1 & h2 & m & -> & Hm & Hab)|Hab].
        * exists h1, c1, (h2 ++ [c]), m. split; [by rewrite <- app_assoc|done].
        * exists h, c, [], m1. done.
      + intros (h1 & c1 & h2 & m & E & Hm & Hab). destruct h2 as [|c2 h2 _] using rev_ind.
        * apply app_inj_tail in E as [-> ->]. right. congruence.
        * left. exists h1, c1, h2, m. split; [|done].
          assert (E2 : h1 ++ c1 :: h2 ++ [c2] = (h1 ++ c1 :: h2) ++ [c2]) by (by rewrite <- app_assoc).
          rewrite E2 in E. by apply app_inj_tail in E as [-> _].
  Qed.
End leaks.
