(** Reference counts and origins of the stencil objects of MeshObj.v. *)
From stdpp Require Import list.
From Verif Require Import Base MeshObj MeshObjSpec.

Section proofs.
  Context {C : Type}.
  Implicit Types (w : world C) (l : list (option (stencilObj C))).

  Definition cnt l (o : nat) : nat := match mjoin (l !! o) with Some s => so_count s | None => 0 end.
  Definition core l (o : nat) : option (stencil * C * nat) :=
    s ← mjoin (l !! o); Some (so_kind s, so_built_from s, so_mesh s).
  Definition wf l : Prop := forall o s, l !! o = Some (Some s) -> 0 < so_count s.
  Definition is (b : bool) : nat := if b then 1 else 0.
  Definition refers (x : option nat) (o : nat) : nat := is (bool_decide (x = Some o)).
  Lemma is_none o : refers None o = 0.
  Proof. unfold refers. by rewrite bool_decide_eq_false_2. Qed.
  Lemma refers_some y o : refers (Some y) o = is (bool_decide (y = o)).
  Proof. unfold refers. f_equal. apply bool_decide_ext. split; congruence. Qed.
  Global Arguments refers : simpl never.

  Lemma cnt_core l o : wf l -> 0 < cnt l o <-> is_Some (core l o).
  Proof.
    intros Hw. unfold cnt, core. destruct (l !! o) as [[s|]|] eqn:E; cbn; split; intros H; try lia;
      try (by destruct H); try (by eexists). exact (Hw o s E).
  Qed.

  Lemma add_ref_at l o o' :
    mjoin (add_ref o l !! o') =
    (if decide (o = o') then (fun s => StencilObj (so_kind s) (so_built_from s) (so_mesh s) (S (so_count s))) <$> mjoin (l !! o')
     else mjoin (l !! o')).
  Proof.
    unfold add_ref. destruct (decide (o = o')) as [->|Hn].
    - rewrite list_lookup_alter. by destruct (l !! o') as [[s|]|].
    - by rewrite list_lookup_alter_ne.
  Qed.
  Lemma drop_ref_at l o o' :
    mjoin (drop_ref o l !! o') =
    (if decide (o = o') then
       s ← mjoin (l !! o');
       match so_count s with
       | S (S n) => Some (StencilObj (so_kind s) (so_built_from s) (so_mesh s) (S n))
       | _ => None
       end
     else mjoin (l !! o')).
  Proof.
    unfold drop_ref. destruct (decide (o = o')) as [->|Hn].
    - rewrite list_lookup_alter. by destruct (l !! o') as [[s|]|].
    - by rewrite list_lookup_alter_ne.
  Qed.

  Lemma add_ref_core l o o' : core (add_ref o l) o' = core l o'.
  Proof.
    unfold core. rewrite add_ref_at. destruct (decide (o = o')); [|done].
    by destruct (mjoin (l !! o')).
  Qed.
  Lemma add_ref_cnt l o o' : is_Some (core l o) ->
    cnt (add_ref o l) o' = cnt l o' + is (bool_decide (o = o')).
  Proof.
    unfold core, cnt. rewrite add_ref_at. intros H. destruct (decide (o = o')) as [->|Hn].
    - rewrite bool_decide_eq_true_2 by done. destruct (mjoin (l !! o')) as [s|]; cbn; [lia|].
      by destruct H.
    - rewrite bool_decide_eq_false_2 by done. cbn. lia.
  Qed.
  Lemma mjoin_lookup l o s : mjoin (l !! o) = Some s <-> l !! o = Some (Some s).
  Proof. destruct (l !! o) as [[s'|]|]; cbn; split; intros H; congruence. Qed.
  Lemma wf_at l : wf l <-> forall o s, mjoin (l !! o) = Some s -> 0 < so_count s.
  Proof. unfold wf. setoid_rewrite mjoin_lookup. done. Qed.
  Lemma add_ref_wf l o : wf l -> wf (add_ref o l).
  Proof.
    rewrite !wf_at. intros Hw o' s. rewrite add_ref_at. destruct (decide (o = o')) as [->|Hn]; [|apply Hw].
    destruct (mjoin (l !! o')); cbn; [|done]. intros [= <-]. cbn. lia.
  Qed.
  Lemma add_ref_length l o : length (add_ref o l) = length l.
  Proof. apply alter_length. Qed.
  Lemma drop_ref_length l o : length (drop_ref o l) = length l.
  Proof. apply alter_length. Qed.

  Lemma drop_ref_wf l o : wf l -> wf (drop_ref o l).
  Proof.
    rewrite !wf_at. intros Hw o' s. rewrite drop_ref_at. destruct (decide (o = o')) as [->|Hn]; [|apply Hw].
    destruct (mjoin (l !! o')) as [s'|]; cbn; [|done]. destruct (so_count s') as [|[|n]]; try done.
    intros [= <-]. cbn. lia.
  Qed.
  Lemma drop_ref_cnt l o o' : cnt (drop_ref o l) o' = cnt l o' - is (bool_decide (o = o')).
  Proof.
    unfold cnt. rewrite drop_ref_at. destruct (decide (o = o')) as [->|Hn].
    - rewrite bool_decide_eq_true_2 by done. destruct (mjoin (l !! o')) as [s|]; cbn; [|done].
      destruct (so_count s) as [|[|n]]; cbn; lia.
    - rewrite bool_decide_eq_false_2 by done. cbn. lia.
  Qed.
  Lemma drop_ref_core l o o' x : core (drop_ref o l) o' = Some x -> core l o' = Some x.
  Proof.
    unfold core. rewrite drop_ref_at. destruct (decide (o = o')); [|done].
    destruct (mjoin (l !! o')) as [s|]; cbn; [|done]. by destruct (so_count s) as [|[|n]].
  Qed.

  (** References held by the meshes and by the operators. *)
  Definition ref_mesh (o : nat) (x : option (meshObj C)) : nat :=
    match x with
    | None => 0
    | Some m => refers (mo_geometry m) o + refers (mo_sparsity m) o
    end.
  Definition ref_handle (o : nat) (x : option nat) : nat := refers x o.
  Definition refs w o := sum_list (map (ref_mesh o) (meshes w)) + sum_list (map (ref_handle o) (handles w)).

  Lemma sum_list_insert_map {A} (f : A -> nat) (ls : list A) i x y :
    ls !! i = Some x -> sum_list (map f (<[i := y]> ls)) + f x = sum_list (map f ls) + f y.
  Proof.
    revert i. induction ls as [|a ls IH]; intros [|i] H; cbn in H |- *; try done.
    - injection H as ->. lia.
    - specialize (IH i H). change (f a + sum_list (map f (<[i:=y]> ls)) + f x = f a + sum_list (map f ls) + f y). lia.
  Qed.
  Lemma sum_list_app_map {A} (f : A -> nat) (ls : list A) x : sum_list (map f (ls ++ [x])) = sum_list (map f ls) + f x.
  Proof. induction ls as [|a ls IH]; cbn; [lia|]. rewrite IH. lia. Qed.
  Lemma sum_list_elem {A} (f : A -> nat) (ls : list A) i x : ls !! i = Some x -> f x <= sum_list (map f ls).
  Proof.
    revert i. induction ls as [|a ls IH]; intros [|i] H; cbn in *; try done.
    - injection H as ->. lia.
    - specialize (IH i H). lia.
  Qed.
  Lemma sum_list_pos {A} (f : A -> nat) (ls : list A) : 0 < sum_list (map f ls) -> exists i x, ls !! i = Some x /\ 0 < f x.
  Proof.
    induction ls as [|a ls IH]; cbn; [lia|]. intros H. destruct (f a) as [|n] eqn:E.
    - destruct (IH H) as (i & x & Hi & Hx). by exists (S i), x.
    - exists 0, a. split; [done|]. lia.
  Qed.

  Definition entry_ok l (m : meshObj C) : Prop :=
    forall t o, mo_entry t m = Some o -> exists c n, core l o = Some (t, c, n) /\ mo_data m = Some c.

  Record Inv w : Prop := {
    inv_wf : wf (stencils w);
    inv_cnt : forall o, cnt (stencils w) o = refs w o;
    inv_entry : forall i m, meshes w !! i = Some (Some m) -> entry_ok (stencils w) m;
    inv_range : forall o t c n, core (stencils w) o = Some (t, c, n) -> n < length (meshes w);
    inv_builder : forall o t c n m, core (stencils w) o = Some (t, c, n) -> meshes w !! n = Some (Some m) ->
      mo_data m = None \/ mo_entry t m = Some o;
    inv_unique : forall o o' t c c' n, core (stencils w) o = Some (t, c, n) -> core (stencils w) o' = Some (t, c', n) -> o = o';
  }.

  Lemma Inv_empty : Inv empty_world.
  Proof. split; cbn; try done. Qed.

  Lemma mesh_at_lookup w m x : mesh_at w m = Some x <-> meshes w !! m = Some (Some x).
  Proof. unfold mesh_at. destruct (meshes w !! m) as [[y|]|]; cbn; split; intros H; congruence. Qed.
  Lemma handle_at_lookup w m x : handle_at w m = Some x <-> handles w !! m = Some (Some x).
  Proof. unfold handle_at. destruct (handles w !! m) as [[y|]|]; cbn; split; intros H; congruence. Qed.

  Lemma ref_mesh_entry t m o : mo_entry t m = Some o -> 0 < ref_mesh o (Some m).
  Proof. destruct t; cbn; intros ->; rewrite refers_some, bool_decide_eq_true_2 by done; cbn; lia. Qed.

  Lemma entry_alive w : Inv w -> forall i m t o, meshes w !! i = Some (Some m) -> mo_entry t m = Some o ->
    is_Some (core (stencils w) o).
  Proof. intros HI i m t o Hi Ho. destruct (inv_entry w HI i m Hi t o Ho) as (c & n & -> & _). by eexists. Qed.
  Lemma handle_alive w : Inv w -> forall h o, handles w !! h = Some (Some o) -> is_Some (core (stencils w) o).
  Proof.
    intros HI h o Hh. apply (cnt_core _ _ (inv_wf w HI)). rewrite (inv_cnt w HI). unfold refs.
    pose proof (sum_list_elem (ref_handle o) _ _ _ Hh) as H. unfold ref_handle at 1 in H.
    rewrite refers_some, bool_decide_eq_true_2 in H by done. cbn in H. lia.
  Qed.

  (** Adding references. *)
  Lemma opt_add_core x l o : core (opt_ref add_ref x l) o = core l o.
  Proof. destruct x; cbn; [apply add_ref_core|done]. Qed.
  Lemma opt_add_wf x l : wf l -> wf (opt_ref add_ref x l).
  Proof. destruct x; cbn; [apply add_ref_wf|done]. Qed.
  Lemma opt_add_cnt x l o : (forall y, x = Some y -> is_Some (core l y)) ->
    cnt (opt_ref add_ref x l) o = cnt l o + refers x o.
  Proof.
    destruct x as [y|]; cbn; intros H; [|rewrite is_none; lia].
    rewrite add_ref_cnt by (by apply H). by rewrite refers_some.
  Qed.
  Lemma opt_drop_wf x l : wf l -> wf (opt_ref drop_ref x l).
  Proof. destruct x; cbn; [apply drop_ref_wf|done]. Qed.
  Lemma opt_drop_cnt x l o : cnt (opt_ref drop_ref x l) o = cnt l o - refers x o.
  Proof.
    destruct x as [y|]; cbn; [|rewrite is_none; lia]. by rewrite drop_ref_cnt, refers_some.
  Qed.
  Lemma opt_drop_core x l o y : core (opt_ref drop_ref x l) o = Some y -> core l o = Some y.
  Proof. destruct x; cbn; [apply drop_ref_core|done]. Qed.

  (** A step that only drops references keeps [Inv] when the counts are right. *)
  Lemma Inv_drop w ms l hs :
    Inv w ->
    wf l -> (forall o, cnt l o = refs (World ms l hs) o) ->
    (forall o y, core l o = Some y -> core (stencils w) o = Some y) ->
    length ms = length (meshes w) ->
    (forall i m, ms !! i = Some (Some m) -> meshes w !! i = Some (Some m)) ->
    Inv (World ms l hs).
  Proof.
    intros HI Hw Hc Hcore Hlen Hms. split; cbn; auto.
    - intros i m Hi t o Ho. destruct (inv_entry w HI i m (Hms i m Hi) t o Ho) as (c & n & Hco & Hd).
      exists c, n. split; [|done].
      assert (Hpos : 0 < cnt l o).
      { rewrite Hc. unfold refs; cbn. pose proof (sum_list_elem (ref_mesh o) ms i _ Hi).
        pose proof (ref_mesh_entry t m o Ho). lia. }
      apply (cnt_core _ _ Hw) in Hpos. destruct Hpos as [y Hy]. rewrite Hy. f_equal.
      apply Hcore in Hy. congruence.
    - intros o t c n Ho. rewrite Hlen. exact (inv_range w HI o t c n (Hcore _ _ Ho)).
    - intros o t c n m Ho Hm. exact (inv_builder w HI o t c n m (Hcore _ _ Ho) (Hms _ _ Hm)).
    - intros o o' t c c' n H1 H2. exact (inv_unique w HI o o' t c c' n (Hcore _ _ H1) (Hcore _ _ H2)).
  Qed.

  Lemma Inv_new c w : Inv w -> Inv (mesh_new c w).
  Proof.
    intros HI. split; cbn.
    - apply HI.
    - intros o. rewrite (inv_cnt w HI). unfold refs. cbn. rewrite sum_list_app_map. cbn. rewrite ?is_none. lia.
    - intros i m Hi. apply lookup_app_Some in Hi as [Hi|[_ Hi]]; [exact (inv_entry w HI i m Hi)|].
      apply list_lookup_singleton_Some in Hi as [_ [= <-]]. intros [|] o; cbn; done.
    - intros o t c' n Ho. rewrite app_length. pose proof (inv_range w HI o t c' n Ho). lia.
    - intros o t c' n m Ho Hm. pose proof (inv_range w HI o t c' n Ho).
      rewrite lookup_app_l in Hm by done. exact (inv_builder w HI o t c' n m Ho Hm).
    - apply HI.
  Qed.

  Lemma Inv_copy m w w' : Inv w -> mesh_copy m w = Ok w' -> Inv w'.
  Proof.
    intros HI. unfold mesh_copy. destruct (mesh_at w m) as [x|] eqn:Hx; [|done]. intros [= <-].
    apply mesh_at_lookup in Hx.
    assert (Hg : forall y, mo_geometry x = Some y -> is_Some (core (stencils w) y)).
    { intros y. exact (entry_alive w HI m x Geometry y Hx). }
    assert (Hs : forall y, mo_sparsity x = Some y -> is_Some (core (opt_ref add_ref (mo_geometry x) (stencils w)) y)).
    { intros y. rewrite opt_add_core. exact (entry_alive w HI m x Sparsity y Hx). }
    split; cbn.
    - apply opt_add_wf, opt_add_wf, HI.
    - intros o. rewrite opt_add_cnt by done. rewrite opt_add_cnt by done. rewrite (inv_cnt w HI). unfold refs. cbn.
      rewrite sum_list_app_map. cbn. rewrite ?is_none. lia.
    - intros i y Hi t o Ho. rewrite !opt_add_core.
      apply lookup_app_Some in Hi as [Hi|[_ Hi]]; [exact (inv_entry w HI i y Hi t o Ho)|].
      apply list_lookup_singleton_Some in Hi as [_ [= <-]]. exact (inv_entry w HI m x Hx t o Ho).
    - intros o t c' n Ho. rewrite !opt_add_core in Ho. rewrite app_length.
      pose proof (inv_range w HI o t c' n Ho). lia.
    - intros o t c' n y Ho Hm. rewrite !opt_add_core in Ho. pose proof (inv_range w HI o t c' n Ho).
      rewrite lookup_app_l in Hm by done. exact (inv_builder w HI o t c' n y Ho Hm).
    - intros o o' t c c' n. rewrite !opt_add_core. apply HI.
  Qed.

  Lemma Inv_move m w w' : Inv w -> mesh_move m w = Ok w' -> Inv w'.
  Proof.
    intros HI. unfold mesh_move. destruct (mesh_at w m) as [x|] eqn:Hx; [|done]. intros [= <-].
    apply mesh_at_lookup in Hx. pose proof (lookup_lt_Some _ _ _ Hx) as Hlt.
    split; cbn.
    - apply HI.
    - intros o. rewrite (inv_cnt w HI). unfold refs. cbn. rewrite sum_list_app_map.
      pose proof (sum_list_insert_map (ref_mesh o) _ _ _ (Some (MeshObj None None None)) Hx) as H. cbn in H |- *. rewrite ?is_none in H. lia.
    - intros i y Hi. apply lookup_app_Some in Hi as [Hi|[_ Hi]].
      + apply list_lookup_insert_Some in Hi as [(<- & Hi & _)|[_ Hi]].
        * injection Hi as <-. intros [|] o; cbn; done.
        * exact (inv_entry w HI i y Hi).
      + apply list_lookup_singleton_Some in Hi as [_ [= <-]]. exact (inv_entry w HI m x Hx).
    - intros o t c' n Ho. rewrite app_length, insert_length. pose proof (inv_range w HI o t c' n Ho). lia.
    - intros o t c' n y Ho Hm. pose proof (inv_range w HI o t c' n Ho).
      rewrite lookup_app_l in Hm by (by rewrite insert_length).
      apply list_lookup_insert_Some in Hm as [(<- & Hi & _)|[_ Hi]].
      + injection Hi as <-. by left.
      + exact (inv_builder w HI o t c' n y Ho Hi).
    - apply HI.
  Qed.

  Lemma Inv_destroy m w w' : Inv w -> mesh_destroy m w = Ok w' -> Inv w'.
  Proof.
    intros HI. unfold mesh_destroy. destruct (mesh_at w m) as [x|] eqn:Hx; [|done]. intros [= <-].
    apply mesh_at_lookup in Hx.
    apply (Inv_drop w); try done.
    - apply opt_drop_wf, opt_drop_wf, HI.
    - intros o. rewrite !opt_drop_cnt, (inv_cnt w HI). unfold refs. cbn.
      pose proof (sum_list_insert_map (ref_mesh o) _ _ _ None Hx) as H. cbn in H. lia.
    - intros o y H. by apply opt_drop_core, opt_drop_core in H.
    - apply insert_length.
    - intros i y Hi. apply list_lookup_insert_Some in Hi as [(_ & Hi & _)|[_ Hi]]; [done|exact Hi].
  Qed.

  Lemma Inv_release h w w' : Inv w -> release h w = Ok w' -> Inv w'.
  Proof.
    intros HI. unfold release. destruct (handle_at w h) as [o|] eqn:Hh; [|done]. intros [= <-].
    apply handle_at_lookup in Hh.
    apply (Inv_drop w); try done.
    - apply drop_ref_wf, HI.
    - intros o'. rewrite drop_ref_cnt, (inv_cnt w HI). unfold refs. cbn.
      pose proof (sum_list_insert_map (ref_handle o') _ _ _ None Hh) as H.
      assert (Hr : ref_handle o' (Some o) = is (bool_decide (o = o'))).
      { apply refers_some. }
      rewrite Hr in H. assert (Hz : ref_handle o' None = 0) by apply is_none. rewrite Hz in H. lia.
    - intros o' y H. by apply drop_ref_core in H.
  Qed.

  Lemma core_app l s o : core (l ++ [Some s]) o =
    if decide (o = length l) then Some (so_kind s, so_built_from s, so_mesh s) else core l o.
  Proof.
    unfold core. destruct (decide (o = length l)) as [->|Hn].
    - rewrite lookup_app_r by lia. by rewrite Nat.sub_diag.
    - destruct (decide (o < length l)) as [Hlt|Hge].
      + by rewrite lookup_app_l by done.
      + rewrite (lookup_ge_None_2 (l ++ _)) by (rewrite app_length; cbn; lia).
        by rewrite (lookup_ge_None_2 l) by lia.
  Qed.
  Lemma core_lt l o x : core l o = Some x -> o < length l.
  Proof. unfold core. destruct (l !! o) eqn:E; [|done]. intros _. by apply lookup_lt_Some in E. Qed.

  Lemma Inv_get t m w h w' : Inv w -> readOrCreate t m w = Ok (h, w') -> Inv w'.
  Proof.
    intros HI. unfold readOrCreate. destruct (mesh_at w m) as [x|] eqn:Hx; [|done].
    apply mesh_at_lookup in Hx. destruct (mo_entry t x) as [o|] eqn:Ho.
    - intros [= <- <-]. pose proof (entry_alive w HI m x t o Hx Ho) as Hal. split; cbn.
      + apply add_ref_wf, HI.
      + intros o'. rewrite add_ref_cnt by done. rewrite (inv_cnt w HI). unfold refs. cbn. rewrite sum_list_app_map.
        assert (Hr : ref_handle o' (Some o) = is (bool_decide (o = o'))).
        { apply refers_some. }
        rewrite Hr. lia.
      + intros i y Hi t' o' Ho'. rewrite add_ref_core. exact (inv_entry w HI i y Hi t' o' Ho').
      + intros o' t' c n. rewrite add_ref_core. apply HI.
      + intros o' t' c n y. rewrite add_ref_core. apply HI.
      + intros o' o'' t' c c' n. rewrite !add_ref_core. apply HI.
    - destruct (mo_data x) as [c|] eqn:Hd; [|done]. intros [= <- <-].
      set (o := length (stencils w)). pose proof (lookup_lt_Some _ _ _ Hx) as Hlt.
      assert (Hcore : forall o', core (add_ref o (stencils w ++ [Some (StencilObj t c m 1)])) o' =
                if decide (o' = o) then Some (t, c, m) else core (stencils w) o').
      { intros o'. by rewrite add_ref_core, core_app. }
      assert (Hfresh : refs w o = 0).
      { rewrite <- (inv_cnt w HI). unfold cnt. by rewrite (lookup_ge_None_2 (stencils w)) by (unfold o; lia). }
      assert (Hr : forall o', ref_handle o' (Some o) = is (bool_decide (o = o'))).
      { intros o'. apply refers_some. }
      split; cbn.
      + apply add_ref_wf. intros o' s Hs. apply lookup_app_Some in Hs as [Hs|[_ Hs]]; [exact (inv_wf w HI o' s Hs)|].
        apply list_lookup_singleton_Some in Hs as [_ [= <-]]. cbn. lia.
      + intros o'. rewrite add_ref_cnt by (rewrite core_app, decide_True by done; by eexists).
        unfold refs. cbn. rewrite sum_list_app_map, Hr.
        pose proof (sum_list_insert_map (ref_mesh o') _ _ _ (Some (set_entry t o x)) Hx) as H.
        assert (Hm : ref_mesh o' (Some (set_entry t o x)) = ref_mesh o' (Some x) + is (bool_decide (o = o'))).
        { destruct t; cbn in Ho |- *; rewrite Ho, refers_some, is_none; lia. }
        rewrite Hm in H.
        assert (Hc : cnt (stencils w ++ [Some (StencilObj t c m 1)]) o' = refs w o' + is (bool_decide (o = o'))).
        { destruct (decide (o = o')) as [<-|Hn].
          - rewrite bool_decide_eq_true_2 by done. rewrite Hfresh. unfold cnt, o.
            rewrite lookup_app_r by lia. by rewrite Nat.sub_diag.
          - rewrite bool_decide_eq_false_2 by done. rewrite <- (inv_cnt w HI). cbn. rewrite Nat.add_0_r. unfold cnt.
            destruct (decide (o' < length (stencils w))) as [Hl|Hge].
            + by rewrite lookup_app_l by done.
            + rewrite (lookup_ge_None_2 (_ ++ _)) by (rewrite app_length; cbn; unfold o in Hn; lia).
              by rewrite (lookup_ge_None_2 (stencils w)) by lia. }
        rewrite Hc. unfold refs. lia.
      + intros i y Hi t' o' Ho'. rewrite Hcore.
        apply list_lookup_insert_Some in Hi as [(<- & Hi & _)|[_ Hi]].
        * injection Hi as <-. destruct (decide (t' = t)) as [->|Hn].
          -- assert (o' = o) as -> by (destruct t; cbn in Ho'; congruence).
             rewrite decide_True by done. exists c, m. split; [done|]. by destruct t.
          -- assert (Ho2 : mo_entry t' x = Some o') by (by destruct t, t').
             destruct (inv_entry w HI m x Hx t' o' Ho2) as (c' & n & Hc' & Hd').
             rewrite decide_False by (intros ->; apply core_lt in Hc'; unfold o in Hc'; lia).
             exists c', n. split; [done|]. by destruct t.
        * destruct (inv_entry w HI i y Hi t' o' Ho') as (c' & n & Hc' & Hd').
          rewrite decide_False by (intros ->; apply core_lt in Hc'; unfold o in Hc'; lia).
          by exists c', n.
      + intros o' t' c' n. rewrite Hcore, insert_length. case_decide; [congruence|apply HI].
      + intros o' t' c' n y. rewrite Hcore. case_decide as Hd'.
        * intros [= <- <- <-] Hy. rewrite list_lookup_insert in Hy by done. injection Hy as <-. right. subst o'. by destruct t.
        * intros Hc' Hy. apply list_lookup_insert_Some in Hy as [(-> & Hi & _)|[_ Hi]].
          -- injection Hi as <-. destruct (inv_builder w HI o' t' c' n x Hc' Hx) as [Hb|Hb]; [congruence|].
             right. destruct t, t'; cbn in *; congruence.
          -- exact (inv_builder w HI o' t' c' n y Hc' Hi).
      + intros o1 o2 t' c1 c2 n. rewrite !Hcore. repeat case_decide; try congruence.
        * intros [= <- <- <-] H2. destruct (inv_builder w HI o2 t c2 m x H2 Hx); congruence.
        * intros H2 [= <- <- <-]. destruct (inv_builder w HI o1 t c1 m x H2 Hx); congruence.
        * apply HI.
  Qed.

  Lemma Inv_step op w w' : Inv w -> mstep w op = Ok w' -> Inv w'.
  Proof.
    intros HI. destruct op as [c|m|m|m|t m|h]; cbn [mstep].
    - intros [= <-]. by apply Inv_new.
    - by apply Inv_copy.
    - by apply Inv_move.
    - by apply Inv_destroy.
    - destruct (readOrCreate t m w) as [[h w1]| | |] eqn:E; cbn; try done. intros [= <-]. exact (Inv_get _ _ _ _ _ HI E).
    - by apply Inv_release.
  Qed.
  Lemma Inv_run ops w w' : Inv w -> mrun ops w = Ok w' -> Inv w'.
  Proof.
    revert w. induction ops as [|op ops IH]; intros w HI; cbn.
    - by intros [= <-].
    - destruct (mstep w op) as [w1| | |] eqn:E; cbn; try done. apply IH. exact (Inv_step _ _ _ HI E).
  Qed.

  (** The specification's view of a world. *)
  Definition origin_of l (m : meshObj C) (t : stencil) : option nat :=
    o ← mo_entry t m; x ← core l o; Some x.2.
  Definition sees l (x : option (meshObj C)) (y : option (smesh C)) : Prop :=
    match x, y with
    | Some m, Some s => mo_data m = s_data s /\ (forall t, origin_of l m t = s_origin s t)
    | None, None => True
    | _, _ => False
    end.
  Definition Sim w (sp : list (option (smesh C))) : Prop := Forall2 (sees (stencils w)) (meshes w) sp.

  Lemma sees_core l l' x y :
    (forall m t o, x = Some m -> mo_entry t m = Some o -> core l' o = core l o) -> sees l x y -> sees l' x y.
  Proof.
    destruct x as [m|], y as [s|]; cbn; try done. intros Hc [Hd Ho]. split; [done|]. intros t. rewrite <- Ho.
    unfold origin_of. destruct (mo_entry t m) as [o|] eqn:E; cbn; [|done]. by rewrite (Hc m t o eq_refl E).
  Qed.
  Lemma Sim_core w l' sp :
    (forall i m t o, meshes w !! i = Some (Some m) -> mo_entry t m = Some o -> core l' o = core (stencils w) o) ->
    Sim w sp -> Forall2 (sees l') (meshes w) sp.
  Proof.
    intros Hc HS. apply Forall2_same_length_lookup. split; [exact (Forall2_length _ _ _ HS)|].
    intros i x y Hx Hy. apply (sees_core (stencils w)).
    - intros m t o -> Ho. exact (Hc i m t o Hx Ho).
    - exact (Forall2_lookup_lr _ _ _ _ _ _ HS Hx Hy).
  Qed.
  Lemma Sim_lookup w sp m x : Sim w sp -> meshes w !! m = Some (Some x) ->
    exists y, sp !! m = Some (Some y) /\ sees (stencils w) (Some x) (Some y).
  Proof.
    intros HS Hx. destruct (Forall2_lookup_l _ _ _ _ _ HS Hx) as ([y|] & Hy & Hs); [|done]. by exists y.
  Qed.

  Lemma Forall2_insert_r {A B} (P : A -> B -> Prop) k1 k2 i x y :
    Forall2 P k1 k2 -> P x y -> Forall2 P (<[i := x]> k1) (<[i := y]> k2).
  Proof. intros. by apply Forall2_insert. Qed.

  Lemma Sim_drop w ms l hs sp' :
    Inv w -> Inv (World ms l hs) ->
    (forall o y, core l o = Some y -> core (stencils w) o = Some y) ->
    (forall i m, ms !! i = Some (Some m) -> meshes w !! i = Some (Some m)) ->
    Forall2 (sees (stencils w)) ms sp' -> Sim (World ms l hs) sp'.
  Proof.
    intros HI HI' Hc Hms HS. unfold Sim. cbn. apply Forall2_same_length_lookup. split; [exact (Forall2_length _ _ _ HS)|].
    intros i x y Hx Hy. apply (sees_core (stencils w)); [|exact (Forall2_lookup_lr _ _ _ _ _ _ HS Hx Hy)].
    intros m t o -> Ho. destruct (entry_alive _ HI' i m t o Hx Ho) as [z Hz]. cbn in Hz. rewrite Hz. symmetry. exact (Hc _ _ Hz).
  Qed.

  Lemma Sim_step op w w' sp : Inv w -> Sim w sp -> mstep w op = Ok w' -> Sim w' (spec_step sp op).
  Proof.
    intros HI HS E. pose proof (Inv_step op w w' HI E) as HI'. destruct op as [c|m|m|m|t m|h]; cbn [mstep] in E.
    - injection E as <-. apply Forall2_app; [exact HS|]. constructor; [|constructor]. split; [done|]. by intros [|].
    - unfold mesh_copy in E. destruct (mesh_at w m) as [x|] eqn:Hx; [|done]. injection E as <-.
      apply mesh_at_lookup in Hx. destruct (Sim_lookup w sp m x HS Hx) as (y & Hy & Hs).
      unfold Sim. cbn. rewrite Hy. cbn. apply Forall2_app; [|constructor; [|constructor]].
      + apply (Sim_core w); [|done]. intros. by rewrite !opt_add_core.
      + apply (sees_core (stencils w)); [|done]. intros. by rewrite !opt_add_core.
    - unfold mesh_move in E. destruct (mesh_at w m) as [x|] eqn:Hx; [|done]. injection E as <-.
      apply mesh_at_lookup in Hx. destruct (Sim_lookup w sp m x HS Hx) as (y & Hy & Hs).
      unfold Sim. cbn [meshes stencils spec_step]. rewrite Hy. cbn [mjoin option_join]. apply Forall2_app; [|constructor; [done|constructor]].
      apply Forall2_insert_r; [exact HS|]. split; [done|]. by intros [|].
    - unfold mesh_destroy in E. destruct (mesh_at w m) as [x|] eqn:Hx; [|done]. injection E as <-.
      cbn [spec_step]. apply (Sim_drop w); try done.
      + intros o y H. by apply opt_drop_core, opt_drop_core in H.
      + intros i y Hi. apply list_lookup_insert_Some in Hi as [(_ & Hi & _)|[_ Hi]]; [done|exact Hi].
      + by apply Forall2_insert_r.
    - destruct (readOrCreate t m w) as [[h w1]| | |] eqn:Er; cbn in E; try done. injection E as <-.
      unfold readOrCreate in Er. destruct (mesh_at w m) as [x|] eqn:Hx; [|done].
      apply mesh_at_lookup in Hx. destruct (Sim_lookup w sp m x HS Hx) as (y & Hy & [Hd Hor]).
      cbn [spec_step].
      assert (Halt : alter (fmap (requested t m)) m sp = <[m := Some (requested t m y)]> sp).
      { apply list_eq. intros i. destruct (decide (i = m)) as [->|Hn].
        - rewrite list_lookup_alter, Hy, list_lookup_insert by (by apply lookup_lt_Some in Hy). done.
        - by rewrite list_lookup_alter_ne, list_lookup_insert_ne by done. }
      destruct (mo_entry t x) as [o|] eqn:Ho.
      + injection Er as <- <-. destruct (inv_entry w HI m x Hx t o Ho) as (c & n & Hc & _).
        assert (Hid : requested t m y = y).
        { unfold requested. rewrite <- Hor. unfold origin_of. rewrite Ho. cbn. by rewrite Hc. }
        rewrite Halt, Hid, list_insert_id by done.
        unfold Sim. cbn [meshes stencils]. apply (Sim_core w); [|done]. intros. by rewrite add_ref_core.
      + destruct (mo_data x) as [c|] eqn:Hdx; [|done]. injection Er as <- <-.
        assert (Hcore : forall o', is_Some (core (stencils w) o') ->
                  core (add_ref (length (stencils w)) (stencils w ++ [Some (StencilObj t c m 1)])) o' = core (stencils w) o').
        { intros o' [z Hz]. rewrite add_ref_core, core_app, decide_False; [done|]. apply core_lt in Hz. lia. }
        rewrite Halt. unfold Sim. cbn [meshes stencils]. apply Forall2_insert_r.
        * apply (Sim_core w); [|done]. intros i m' t' o' Hi Ho'. apply Hcore. exact (entry_alive w HI i m' t' o' Hi Ho').
        * assert (Hnone : s_origin y t = None).
          { rewrite <- Hor. unfold origin_of. by rewrite Ho. }
          unfold requested. rewrite Hnone. split; [destruct t; cbn; congruence|]. intros t'. cbn [s_origin].
          unfold origin_of. destruct (decide (t' = t)) as [->|Hn].
          -- assert (mo_entry t (set_entry t (length (stencils w)) x) = Some (length (stencils w))) as -> by (by destruct t).
             cbn. rewrite add_ref_core, core_app, decide_True by done. done.
          -- assert (mo_entry t' (set_entry t (length (stencils w)) x) = mo_entry t' x) as -> by (by destruct t, t').
             rewrite <- Hor. unfold origin_of. destruct (mo_entry t' x) as [o'|] eqn:Ho'; cbn; [|done].
             rewrite Hcore; [done|]. exact (entry_alive w HI m x t' o' Hx Ho').
    - unfold release in E. destruct (handle_at w h) as [o|] eqn:Hh; [|done]. injection E as <-.
      apply (Sim_drop w); try done. intros o' y H. by apply drop_ref_core in H.
  Qed.

  Lemma Sim_run ops w w' sp : Inv w -> Sim w sp -> mrun ops w = Ok w' -> Sim w' (foldl spec_step sp ops).
  Proof.
    revert w sp. induction ops as [|op ops IH]; intros w sp HI HS; cbn.
    - by intros [= <-].
    - destruct (mstep w op) as [w1| | |] eqn:E; cbn; try done.
      apply IH; [exact (Inv_step _ _ _ HI E)|exact (Sim_step _ _ _ _ HI HS E)].
  Qed.
  Lemma reach ops w : mrun ops empty_world = Ok w -> Inv w /\ Sim w (spec_run ops).
  Proof.
    intros H. split; [exact (Inv_run _ _ _ Inv_empty H)|].
    apply (Sim_run _ _ _ _ Inv_empty); [constructor|exact H].
  Qed.

  (** What the handle returned by [readOrCreate] refers to. *)
  Lemma readOrCreate_handle t m w h w' : Inv w -> readOrCreate t m w = Ok (h, w') ->
    h = length (handles w) /\
    exists x o c n, mesh_at w m = Some x /\ handle_at w' h = Some o /\ core (stencils w') o = Some (t, c, n) /\ mo_data x = Some c /\
      n = default m (origin_of (stencils w) x t) /\
      (forall k, is_Some (mesh_at w' k) <-> is_Some (mesh_at w k)).
  Proof.
    intros HI. unfold readOrCreate. destruct (mesh_at w m) as [x|] eqn:Hx; [|done].
    pose proof (proj1 (mesh_at_lookup _ _ _) Hx) as Hx'.
    assert (Hh : forall (ms : list (option (meshObj C))) ss o, handle_at (World ms ss (handles w ++ [Some o])) (length (handles w)) = Some o).
    { intros. unfold handle_at. cbn. rewrite lookup_app_r by lia. by rewrite Nat.sub_diag. }
    destruct (mo_entry t x) as [o|] eqn:Ho.
    - intros [= <- <-]. split; [done|]. destruct (inv_entry w HI m x Hx' t o Ho) as (c & n & Hc & Hd).
      exists x, o, c, n. split; [done|]. rewrite Hh. split; [done|]. split; [by cbn; rewrite add_ref_core|]. split; [done|].
      split; [|done]. unfold origin_of. rewrite Ho. cbn. by rewrite Hc.
    - destruct (mo_data x) as [c|] eqn:Hd; [|done]. intros [= <- <-]. split; [done|].
      exists x, (length (stencils w)), c, m. split; [done|]. rewrite Hh. split; [done|].
      split; [by cbn; rewrite add_ref_core, core_app, decide_True by done|]. split; [done|].
      split; [unfold origin_of; by rewrite Ho|].
      intros k. unfold mesh_at. cbn. destruct (decide (k = m)) as [->|Hn].
      + rewrite list_lookup_insert by (by apply lookup_lt_Some in Hx'). rewrite Hx'. cbn. split; by eexists.
      + by rewrite list_lookup_insert_ne by done.
  Qed.

  (** A handle keeps its object until it is released. *)
  Lemma handle_step op w w' h o : Inv w -> mstep w op = Ok w' -> op <> MRelease h ->
    handles w !! h = Some (Some o) -> handles w' !! h = Some (Some o) /\ core (stencils w') o = core (stencils w) o.
  Proof.
    intros HI E Hop Hh. pose proof (Inv_step op w w' HI E) as HI'. destruct (handle_alive w HI h o Hh) as [z Hz].
    assert (Hkey : handles w' !! h = Some (Some o) ->
              (forall y, core (stencils w') o = Some y -> core (stencils w) o = Some y) ->
              handles w' !! h = Some (Some o) /\ core (stencils w') o = core (stencils w) o).
    { intros H1 H2. split; [done|]. destruct (handle_alive w' HI' h o H1) as [y Hy]. rewrite Hy. symmetry. by apply H2. }
    apply Hkey; clear Hkey HI'; destruct op as [c|m|m|m|t m|h']; cbn [mstep] in E.
    - by injection E as <-.
    - unfold mesh_copy in E. destruct (mesh_at w m); [|done]. by injection E as <-.
    - unfold mesh_move in E. destruct (mesh_at w m); [|done]. by injection E as <-.
    - unfold mesh_destroy in E. destruct (mesh_at w m); [|done]. by injection E as <-.
    - unfold readOrCreate in E. destruct (mesh_at w m) as [x|]; [|done]. destruct (mo_entry t x).
      + injection E as <-. cbn. by apply lookup_app_l_Some.
      + destruct (mo_data x); [|done]. injection E as <-. cbn. by apply lookup_app_l_Some.
    - unfold release in E. destruct (handle_at w h'); [|done]. injection E as <-. cbn.
      rewrite list_lookup_insert_ne; [done|]. intros ->. done.
    - by injection E as <-.
    - unfold mesh_copy in E. destruct (mesh_at w m); [|done]. injection E as <-. cbn. intros y. by rewrite !opt_add_core.
    - unfold mesh_move in E. destruct (mesh_at w m); [|done]. by injection E as <-.
    - unfold mesh_destroy in E. destruct (mesh_at w m); [|done]. injection E as <-. cbn. intros y H.
      by apply opt_drop_core, opt_drop_core in H.
    - unfold readOrCreate in E. destruct (mesh_at w m) as [x|]; [|done]. destruct (mo_entry t x).
      + injection E as <-. cbn. intros y. by rewrite add_ref_core.
      + destruct (mo_data x); [|done]. injection E as <-. cbn. intros y. rewrite add_ref_core, core_app, decide_False; [done|].
        apply core_lt in Hz. lia.
    - unfold release in E. destruct (handle_at w h'); [|done]. injection E as <-. cbn. intros y H. by apply drop_ref_core in H.
  Qed.
  Lemma handle_run ops w w' h o : Inv w -> mrun ops w = Ok w' -> MRelease h ∉ ops ->
    handles w !! h = Some (Some o) -> handles w' !! h = Some (Some o) /\ core (stencils w') o = core (stencils w) o.
  Proof.
    revert w. induction ops as [|op ops IH]; intros w HI; cbn.
    - by intros [= <-].
    - destruct (mstep w op) as [w1| | |] eqn:E; cbn; try done. intros Hr Hn Hh.
      apply not_elem_of_cons in Hn as [Hn1 Hn2].
      destruct (handle_step op w w1 h o HI E (not_eq_sym Hn1) Hh) as [H1 H2].
      rewrite <- H2. exact (IH w1 (Inv_step _ _ _ HI E) Hr Hn2 H1).
  Qed.
End proofs.
