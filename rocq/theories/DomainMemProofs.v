(** DomainField objects behave as independent values. *)
From stdpp Require Import gmap.
From Verif Require Import Base Exec ExecProofs FieldMem FieldMemProofs DomainMem DomainSpec.

Section proofs.
  Context {V : Type} (alloc0 realloc0 : bool).
  Notation run := (run_ops alloc0 realloc0).

  Lemma run_app (h1 h2 : list (op V)) m :
    run m (h1 ++ h2) = let! m' := run m h1 in run m' h2.
  Proof.
    revert m. induction h1 as [|c h1 IH]; intros m; [done|]. cbn [app run_ops].
    destruct (step alloc0 realloc0 m c); cbn; [apply IH|done..].
  Qed.
  Lemma spec_app (h1 h2 : list (op V)) s :
    spec_run s (h1 ++ h2) = match spec_run s h1 with Some s' => spec_run s' h2 | None => None end.
  Proof.
    revert s. induction h1 as [|c h1 IH]; intros s; [done|]. cbn [app spec_run].
    destruct (spec_step s c); [apply IH|done].
  Qed.

  Lemma exec_eqb_eq e e' : exec_eqb e e' = true <-> e = e'.
  Proof. by destruct e, e'. Qed.

  (** Operations on one array each, each in its own column. *)
  Lemma run_cols (cs : nat -> op V) (x : nat) (F : nat -> option (option (executor * list V))) (l : list nat) :
    NoDup l -> (forall k, k ∈ l -> k < 7) -> forall σ : vstate V,
    (forall k σ', k ∈ l -> (forall a, σ' !! (7 * a + k) = σ !! (7 * a + k)) ->
       spec_step σ' (cs k) = match F k with Some g => Some (partial_alter (fun _ => g) (7 * x + k) σ') | None => None end) ->
    match mapM F l with
    | Some _ => exists σ', spec_run σ (map cs l) = Some σ' /\
        forall a k, k < 7 -> σ' !! (7 * a + k) =
          if decide (a = x /\ k ∈ l) then (match F k with Some g => g | None => None end) else σ !! (7 * a + k)
    | None => spec_run σ (map cs l) = None
    end.
  Proof.
    induction l as [|k l IH]; intros Hn Hk σ Hs.
    - cbn. exists σ. split; [done|]. intros a k _. destruct (decide (a = x /\ k ∈ [])) as [[_ H]|]; [|done].
      by apply elem_of_nil in H.
    - apply NoDup_cons in Hn as [Hkl Hn]. cbn [map spec_run].
      rewrite (Hs k σ) by (done || apply elem_of_list_here || (intros; reflexivity)).
      change (mapM F (k :: l)) with (F k ≫= fun g => mapM F l ≫= fun gs => Some (g :: gs)).
      destruct (F k) as [g|] eqn:EF; cbn [mbind option_bind]; [|done].
      specialize (IH Hn ltac:(intros; apply Hk; by apply elem_of_list_further) (partial_alter (fun _ => g) (7 * x + k) σ)).
      assert (forall j, j ∈ l -> j <> k) as Hjk by (intros j Hj ->; done).
      feed specialize IH.
      { intros j σ' Hj Ha. apply Hs; [by apply elem_of_list_further|]. intros a. rewrite Ha.
        apply lookup_partial_alter_ne. pose proof (Hk j ltac:(by apply elem_of_list_further)).
        pose proof (Hk k ltac:(apply elem_of_list_here)). pose proof (Hjk j Hj). lia. }
      destruct (mapM F l) as [gs|]; [|done]. destruct IH as (σ' & Hr & Hl). exists σ'. split; [done|].
      intros a j Hj. rewrite Hl by done.
      destruct (decide (a = x /\ j ∈ l)) as [[-> Hj']|Hno].
      + rewrite decide_True; [done|]. split; [done|]. by apply elem_of_list_further.
      + destruct (decide (a = x /\ j ∈ k :: l)) as [[-> Hj']|Hno'].
        * apply elem_of_cons in Hj' as [->|Hj']; [|naive_solver]. rewrite lookup_partial_alter. by rewrite EF.
        * apply lookup_partial_alter_ne. pose proof (Hk k ltac:(apply elem_of_list_here)). intros Heq.
          apply Hno'. assert (a = x /\ j = k) as [-> ->] by lia. split; [done|]. apply elem_of_list_here.
  Qed.

  Definition rel (σ : vstate V) (s : gmap nat (dvalue V)) (t : gmap nat dtags) : Prop :=
    (forall x k, k < 7 -> σ !! (7 * x + k) = match s !! x with Some v => dv_arr v !! k | None => None end) /\
    (forall x (v : dvalue V), s !! x = Some v -> length (dv_arr v) = 7) /\
    (forall x, t !! x = dv_tags <$> s !! x).

  Definition inv (m : dmem V) (s : gmap nat (dvalue V)) : Prop :=
    exists h σ, run empty_mem h = Ok (d_mem m) /\ spec_run ∅ h = Some σ /\ rel σ s (d_tags m).

  Lemma obs_of (m : mem V) (σ : vstate V) h : run empty_mem h = Ok m -> spec_run ∅ h = Some σ ->
    forall z e d, σ !! z = Some (e, d) -> exec_of m z = e /\ size_of m z = length d.
  Proof.
    intros Hr Hs z e d Hz. pose proof (history_values alloc0 realloc0 h) as H. rewrite Hr, Hs in H.
    specialize (H z). rewrite Hz in H. unfold observe in H. unfold exec_of, size_of.
    destruct (objs m !! z) as [o|]; [|done]. assert (o_exec o = e) as -> by congruence.
    assert (read_obj m o = Some d) as Hd by congruence. split; [done|].
    unfold read_obj in Hd. destruct (Nat.eqb_spec (o_size o) 0) as [E|E].
    - rewrite E. by assert (d = []) as -> by congruence.
    - destruct (o_ptr o); [|done]. destruct (heap m !! _) as [d0|]; [|done].
      destruct (Nat.leb_spec (o_size o) (length d0)); [|done]. injection Hd as <-. rewrite take_length. lia.
  Qed.

  Lemma rel_live σ s t : rel σ s t -> forall x, bool_decide (is_Some (t !! x)) = dlive s x.
  Proof.
    intros (_ & _ & Ht) x. unfold dlive. rewrite Ht. apply bool_decide_ext. by rewrite fmap_is_Some.
  Qed.

  Lemma well_scoped_ext (l1 l2 : nat -> bool) (c : dop V) : (forall x, l1 x = l2 x) -> well_scoped l1 c = well_scoped l2 c.
  Proof. intros H. destruct c; cbn; by rewrite ?H. Qed.

  Lemma elem_seq7 k : k ∈ seq 0 7 <-> k < 7.
  Proof. rewrite elem_of_seq. lia. Qed.

  Lemma mapM_all (F : nat -> option (option (executor * list V))) l :
    (forall k, k ∈ l -> is_Some (F k)) -> is_Some (mapM F l).
  Proof.
    induction l as [|k l IH]; intros H; [by eexists|].
    change (mapM F (k :: l)) with (F k ≫= fun g => mapM F l ≫= fun gs => Some (g :: gs)).
    destruct (H k ltac:(apply elem_of_list_here)) as [g ->].
    destruct (IH ltac:(intros; apply H; by apply elem_of_list_further)) as [gs ->]. by eexists.
  Qed.
  Lemma mapM_some (F : nat -> option (option (executor * list V))) l gs :
    mapM F l = Some gs -> forall k, k ∈ l -> is_Some (F k).
  Proof.
    revert gs. induction l as [|k l IH]; intros gs H j Hj; [by apply elem_of_nil in Hj|].
    change (mapM F (k :: l)) with (F k ≫= fun g => mapM F l ≫= fun gs => Some (g :: gs)) in H.
    destruct (F k) as [g|] eqn:E; [|done]. cbn in H. destruct (mapM F l) as [gs'|] eqn:E'; [|done].
    apply elem_of_cons in Hj as [->|Hj]; [by rewrite E|]. by eapply IH.
  Qed.

  (** All operations succeed. *)
  Lemma run_cols_ok (cs : nat -> op V) (x : nat) (G : nat -> option (executor * list V)) (l : list nat) (σ : vstate V) :
    NoDup l -> (forall k, k ∈ l -> k < 7) ->
    (forall k σ', k ∈ l -> (forall a, σ' !! (7 * a + k) = σ !! (7 * a + k)) ->
       spec_step σ' (cs k) = Some (partial_alter (fun _ => G k) (7 * x + k) σ')) ->
    exists σ', spec_run σ (map cs l) = Some σ' /\
        forall a k, k < 7 -> σ' !! (7 * a + k) = if decide (a = x /\ k ∈ l) then G k else σ !! (7 * a + k).
  Proof.
    intros Hn Hk Hs. pose proof (run_cols cs x (fun k => Some (G k)) l Hn Hk σ Hs) as H.
    destruct (mapM_all (fun k => Some (G k)) l ltac:(by eexists)) as [gs E]. rewrite E in H. done.
  Qed.

  (** What has to be shown for one operation: the array operations take the
      encoding of the state to the encoding of the next one. *)
  Lemma step_from m s c :
    inv m s ->
    (forall σ h, run empty_mem h = Ok (d_mem m) -> spec_run ∅ h = Some σ -> rel σ s (d_tags m) ->
       well_scoped (dlive s) c = true ->
       match dspec_step s c with
       | Some s' => exists σ', spec_run σ (field_ops (d_mem m) c) = Some σ' /\ rel σ' s' (tags_step (d_tags m) c)
       | None => spec_run σ (field_ops (d_mem m) c) = None
       end) ->
    match dstep alloc0 realloc0 m c, dspec_step s c with
    | Ok m', Some s' => inv m' s'
    | Exit, None => True
    | _, _ => False
    end.
  Proof.
    intros (h & σ & Hr & Hs & Hrel) H. unfold dstep.
    rewrite (well_scoped_ext _ (dlive s)) by exact (rel_live _ _ _ Hrel).
    destruct (well_scoped (dlive s) c) eqn:W.
    - specialize (H σ h Hr Hs Hrel eq_refl).
      pose proof (history_values alloc0 realloc0 (h ++ field_ops (d_mem m) c)) as HV.
      pose proof (run_app h (field_ops (d_mem m) c) empty_mem) as RA. rewrite Hr in RA. cbn in RA.
      rewrite RA, spec_app, Hs in HV.
      destruct (dspec_step s c) as [s'|].
      + destruct H as (σ' & Hc & Hrel'). rewrite Hc in HV.
        destruct (run (d_mem m) (field_ops (d_mem m) c)) as [m'| | |] eqn:E; try done. cbn.
        exists (h ++ field_ops (d_mem m) c), σ'. cbn [d_mem d_tags]. split; [by rewrite RA|]. split; [by rewrite spec_app, Hs|]. done.
      + rewrite H in HV. destruct (run (d_mem m) (field_ops (d_mem m) c)); done.
    - unfold dspec_step. rewrite W. exists h, σ. done.
  Qed.

  Lemma live_some (s : gmap nat (dvalue V)) x : dlive s x = true -> exists v, s !! x = Some v.
  Proof. unfold dlive. intros H%bool_decide_eq_true. destruct H as [v H]. eauto. Qed.
  Lemma live_none (s : gmap nat (dvalue V)) x : negb (dlive s x) = true -> s !! x = None.
  Proof. unfold dlive. intros H%negb_true_iff%bool_decide_eq_false. destruct (s !! x) eqn:E; [|done]. destruct H. eauto. Qed.

  Lemma in7 k : k ∈ seq 0 7 -> k < 7.
  Proof. rewrite elem_of_seq. lia. Qed.

  Lemma arr_some (s : gmap nat (dvalue V)) σ t x v : rel σ s t -> s !! x = Some v ->
    forall k, k < 7 -> exists e d, dv_arr v !! k = Some (e, d) /\ σ !! (7 * x + k) = Some (e, d).
  Proof.
    intros (Hσ & Hlen & _) Hx k Hk. destruct (lookup_lt_is_Some_2 (dv_arr v) k) as [[e d] E].
    { by rewrite (Hlen x v Hx). }
    exists e, d. split; [done|]. by rewrite Hσ, Hx.
  Qed.

  Lemma cols_new x e cells vals refs fracs grads types offs σ s t :
    rel σ s t -> s !! x = None ->
    exists σ', spec_run σ (field_ops empty_mem (DNew x e cells vals refs fracs grads types offs)) = Some σ' /\
      forall a k, k < 7 -> σ' !! (7 * a + k) =
        if decide (a = x) then map (pair e) [cells; vals; refs; fracs; grads; types; offs] !! k else σ !! (7 * a + k).
  Proof.
    intros (Hσ & _ & _) Hx. set (L := [cells; vals; refs; fracs; grads; types; offs]).
    change (field_ops empty_mem (DNew x e cells vals refs fracs grads types offs))
      with (map (fun k => New (7 * x + k) e (default [] (L !! k))) (seq 0 7)).
    destruct (run_cols_ok (fun k => New (7 * x + k) e (default [] (L !! k))) x
                (fun k => map (pair e) L !! k) (seq 0 7) σ (NoDup_seq 0 7) in7) as (σ' & Hr & Hl).
    - intros k σ' Hk Ha. apply in7 in Hk. cbn [spec_step]. rewrite Ha, Hσ, Hx by done.
      change (map (pair e) L) with (pair e <$> L). rewrite list_lookup_fmap.
      destruct (lookup_lt_is_Some_2 L k) as [d ->]; [done|]. done.
    - exists σ'. split; [done|]. intros a k Hk. rewrite Hl by done.
      destruct (decide (a = x)) as [->|Ne].
      + rewrite decide_True; [done|]. split; [done|]. apply elem_of_seq. lia.
      + rewrite decide_False; [done|]. naive_solver.
  Qed.

  Lemma cols_copy (ee : nat -> executor) x y l (σ : vstate V) (v : dvalue V) :
    NoDup l -> (forall k, k ∈ l -> k < 7) ->
    (forall k, k ∈ l -> σ !! (7 * x + k) = None) ->
    (forall k, k ∈ l -> exists e d, dv_arr v !! k = Some (e, d) /\ σ !! (7 * y + k) = Some (e, d)) ->
    exists σ', spec_run σ (map (fun k => CopyTo (7 * x + k) (ee k) (7 * y + k)) l) = Some σ' /\
      forall a k, k < 7 -> σ' !! (7 * a + k) =
        if decide (a = x /\ k ∈ l) then (fun p => (ee k, p.2)) <$> dv_arr v !! k else σ !! (7 * a + k).
  Proof.
    intros Hn Hl Hx Hy.
    apply (run_cols_ok (fun k => CopyTo (7 * x + k) (ee k) (7 * y + k)) x (fun k => (fun p => (ee k, p.2)) <$> dv_arr v !! k)); [done..|].
    intros k σ' Hk Ha. cbn [spec_step]. rewrite !Ha, Hx by done. destruct (Hy k Hk) as (e & d & -> & ->). done.
  Qed.
  Lemma rel_intro σ s t σ' s' t' :
    rel σ s t ->
    (forall x k, k < 7 -> σ' !! (7 * x + k) = match s' !! x with Some v => dv_arr v !! k | None => None end) ->
    (forall x (v : dvalue V), s' !! x = Some v -> length (dv_arr v) = 7) ->
    (forall x, t' !! x = dv_tags <$> s' !! x) -> rel σ' s' t'.
  Proof. done. Qed.

  Lemma step_ok m s c : inv m s ->
    match dstep alloc0 realloc0 m c, dspec_step s c with
    | Ok m', Some s' => inv m' s'
    | Exit, None => True
    | _, _ => False
    end.
  Proof.
    intros Hi. apply step_from; [done|]. intros σ h Hr Hs Hrel W.
    pose proof Hrel as (Hσ & Hlen & Ht). unfold dspec_step. rewrite W.
    destruct c as [x e cells vals refs fracs grads types offs|x e y|x y|x y|x y junk|x|x k f]; cbn [well_scoped] in W.
    - (* DNew *)
      apply live_none in W.
      destruct (cols_new x e cells vals refs fracs grads types offs σ s _ Hrel W) as (σ' & Hc & Hl).
      exists σ'. split; [exact Hc|]. apply (rel_intro σ s (d_tags m)); [done|..].
      + intros a k Hk. rewrite Hl by done. destruct (decide (a = x)) as [->|Ne].
        * by rewrite lookup_insert.
        * rewrite lookup_insert_ne by done. by apply Hσ.
      + intros a v Hv. apply lookup_insert_Some in Hv as [[<- <-]|[_ Hv]]; [done|]. by eapply Hlen.
      + intros a. cbn [tags_step]. destruct (decide (a = x)) as [->|Ne]; [by rewrite !lookup_insert|].
        rewrite !lookup_insert_ne by done. apply Ht.
    - (* DCopyTo *)
      apply andb_true_iff in W as [Wx Wy]. apply live_none in Wx. apply live_some in Wy as [v Hv]. rewrite Hv.
      destruct (cols_copy (fun _ => e) x y (seq 0 7) σ v (NoDup_seq 0 7) in7) as (σ' & Hc & Hl).
      { intros k Hk%in7. by rewrite Hσ, Wx. }
      { intros k Hk%in7. by apply (arr_some s σ (d_tags m) y v). }
      exists σ'. split; [exact Hc|]. apply (rel_intro σ s (d_tags m)); [done|..].
      + intros a k Hk. rewrite Hl by done. destruct (decide (a = x)) as [->|Ne].
        * rewrite lookup_insert, decide_True by (split; [done|]; apply elem_of_seq; lia).
          cbn [dv_arr]. change (map ?g ?l) with (g <$> l). by rewrite list_lookup_fmap.
        * rewrite decide_False by naive_solver. rewrite lookup_insert_ne by done. by apply Hσ.
      + intros a w Hw. apply lookup_insert_Some in Hw as [[<- <-]|[_ Hw]]; [cbn; rewrite map_length; by eapply Hlen|]. by eapply Hlen.
      + intros a. cbn [tags_step]. rewrite (Ht y), Hv. cbn [fmap option_fmap option_map].
        destruct (decide (a = x)) as [->|Ne]; [by rewrite !lookup_insert|]. rewrite !lookup_insert_ne by done. apply Ht.
    - (* DCopy *)
      apply andb_true_iff in W as [Wx Wy]. apply live_none in Wx. apply live_some in Wy as [v Hv]. rewrite Hv.
      destruct (cols_copy (fun k => exec_of (d_mem m) (7 * y + k)) x y (seq 0 7) σ v (NoDup_seq 0 7) in7) as (σ' & Hc & Hl).
      { intros k Hk%in7. by rewrite Hσ, Wx. }
      { intros k Hk%in7. by apply (arr_some s σ (d_tags m) y v). }
      exists σ'. split; [exact Hc|]. apply (rel_intro σ s (d_tags m)); [done|..].
      + intros a k Hk. rewrite Hl by done. destruct (decide (a = x)) as [->|Ne].
        * rewrite lookup_insert, decide_True by (split; [done|]; apply elem_of_seq; lia).
          destruct (arr_some s σ (d_tags m) y v Hrel Hv k Hk) as (e & d & E & Eσ). destruct (obs_of (d_mem m) σ h Hr Hs _ _ _ Eσ) as [-> _].
          by rewrite E.
        * rewrite decide_False by naive_solver. rewrite lookup_insert_ne by done. by apply Hσ.
      + intros a w Hw. apply lookup_insert_Some in Hw as [[<- <-]|[_ Hw]]; by eapply Hlen.
      + intros a. cbn [tags_step]. rewrite (Ht y), Hv. cbn [fmap option_fmap option_map].
        destruct (decide (a = x)) as [->|Ne]; [by rewrite !lookup_insert|]. rewrite !lookup_insert_ne by done. apply Ht.
    - (* DMove *)
      apply andb_true_iff in W as [Wx Wy]. apply live_none in Wx. apply live_some in Wy as [v Hv]. rewrite Hv.
      assert (x <> y) as Hxy by congruence.
      destruct (arr_some s σ (d_tags m) y v Hrel Hv 0 ltac:(lia)) as (e0 & d0 & E0 & Eσ0).
      set (σ1 := <[7 * y + 0 := (e0, [])]> (<[7 * x + 0 := (e0, d0)]> σ)).
      assert (spec_step σ (Move (7 * x + 0) (7 * y + 0)) = Some σ1) as Hm.
      { cbn [spec_step]. rewrite Hσ, Wx, Eσ0 by lia. done. }
      destruct (cols_copy (fun k => exec_of (d_mem m) (7 * y + k)) x y (seq 1 6) σ1 v (NoDup_seq 1 6)) as (σ' & Hc & Hl).
      { intros k Hk%elem_of_seq. lia. }
      { intros k Hk%elem_of_seq. unfold σ1. rewrite !lookup_insert_ne by lia. rewrite Hσ by lia. by rewrite Wx. }
      { intros k Hk%elem_of_seq. unfold σ1. rewrite !lookup_insert_ne by lia. apply (arr_some s σ (d_tags m) y v Hrel Hv). lia. }
      exists σ'. split.
      { cbn [field_ops spec_run]. rewrite Hm. exact Hc. }
      apply (rel_intro σ s (d_tags m)); [done|..].
      + intros a k Hk. rewrite Hl by done. destruct (decide (a = x)) as [->|Ne].
        * rewrite lookup_insert_ne by congruence. rewrite lookup_insert. destruct (decide (k = 0)) as [->|Hk0].
          -- rewrite decide_False by (intros [_ H%elem_of_seq]; lia). unfold σ1.
             rewrite lookup_insert_ne by lia. by rewrite lookup_insert.
          -- rewrite decide_True by (split; [done|]; apply elem_of_seq; lia).
             destruct (arr_some s σ (d_tags m) y v Hrel Hv k Hk) as (e & d & E & Eσ). destruct (obs_of (d_mem m) σ h Hr Hs _ _ _ Eσ) as [-> _].
             by rewrite E.
        * rewrite decide_False by naive_solver. unfold σ1. destruct (decide (a = y)) as [->|Ney].
          -- rewrite lookup_insert. destruct (decide (k = 0)) as [->|Hk0].
             ++ rewrite lookup_insert. cbn [dv_arr]. destruct (dv_arr v) as [|[e' d'] r]; [done|]. cbn in E0 |- *. congruence.
             ++ rewrite !lookup_insert_ne by lia. rewrite Hσ, Hv by done. cbn [dv_arr].
                destruct (dv_arr v) as [|[e' d'] r]; [done|]. by destruct k.
          -- rewrite !lookup_insert_ne by lia. by apply Hσ.
      + intros a w Hw. apply lookup_insert_Some in Hw as [[<- <-]|[_ Hw]].
        * cbn [dv_arr]. specialize (Hlen y v Hv). destruct (dv_arr v) as [|[e' d'] r]; done.
        * apply lookup_insert_Some in Hw as [[<- <-]|[_ Hw]]; by eapply Hlen.
      + intros a. cbn [tags_step]. rewrite (Ht y), Hv. cbn [fmap option_fmap option_map].
        destruct (decide (a = y)) as [->|Ney].
        * rewrite lookup_insert_ne by congruence. rewrite lookup_insert, (Ht y), Hv. done.
        * rewrite (lookup_insert_ne _ y) by congruence. destruct (decide (a = x)) as [->|Ne]; [by rewrite !lookup_insert|].
          rewrite !lookup_insert_ne by done. apply Ht.
    - (* DAssign *)
      apply andb_true_iff in W as [Wx Wy]. apply live_some in Wx as [v Hv]. apply live_some in Wy as [w Hw]. rewrite Hv, Hw.
      set (cs := fun k => Assign (7 * x + k) (7 * y + k) (map (junk k) (seq 0 (size_of (d_mem m) (7 * y + k))))).
      pose proof (run_cols cs x
        (fun k => match dv_arr v !! k, dv_arr w !! k with
                  | Some p, Some q => if exec_eqb p.1 q.1 then Some (Some q) else None
                  | _, _ => None end) (seq 0 7) (NoDup_seq 0 7) in7 σ) as H.
      feed specialize H.
      { intros k σ' Hk Ha. apply in7 in Hk. unfold cs. cbn [spec_step]. rewrite !Ha.
        destruct (arr_some s σ (d_tags m) x v Hrel Hv k Hk) as (e & d & E & Eσ).
        destruct (arr_some s σ (d_tags m) y w Hrel Hw k Hk) as (e' & d' & E' & Eσ'). rewrite E, E', Eσ, Eσ'. cbn [fst].
        destruct (exec_eqb e e') eqn:Ee; [|done].
        rewrite map_length, seq_length. destruct (obs_of (d_mem m) σ h Hr Hs _ _ _ Eσ') as [_ ->].
        rewrite Nat.leb_refl, orb_true_r. apply exec_eqb_eq in Ee as ->. done. }
      assert (forall k, k < 7 -> exists p q, dv_arr v !! k = Some p /\ dv_arr w !! k = Some q) as Hpq.
      { intros k Hk. destruct (lookup_lt_is_Some_2 (dv_arr v) k) as [p ->]; [by rewrite (Hlen x v Hv)|].
        destruct (lookup_lt_is_Some_2 (dv_arr w) k) as [q ->]; [by rewrite (Hlen y w Hw)|]. eauto. }
      match type of H with match mapM ?F _ with _ => _ end => destruct (mapM F (seq 0 7)) as [gs|] eqn:EM end.
      + pose proof (mapM_some _ _ _ EM) as Hall. destruct H as (σ' & Hc & Hl).
        assert (forall k, k < 7 -> fst <$> dv_arr v !! k = fst <$> dv_arr w !! k) as Hex.
        { intros k Hk. specialize (Hall k ltac:(apply elem_of_seq; lia)). cbn beta in Hall.
          destruct (Hpq k Hk) as (p & q & Ep & Eq). rewrite Ep, Eq in Hall |- *. destruct (exec_eqb p.1 q.1) eqn:Ee; [|by destruct Hall].
          apply exec_eqb_eq in Ee. cbn. by rewrite Ee. }
        rewrite decide_True.
        2: { apply list_eq. intros k. change (map fst (dv_arr v)) with (fst <$> dv_arr v). change (map fst (dv_arr w)) with (fst <$> dv_arr w).
             rewrite !list_lookup_fmap. destruct (decide (k < 7)) as [Hk|Hk]; [by apply Hex|].
             rewrite (lookup_ge_None_2 (dv_arr v) k), (lookup_ge_None_2 (dv_arr w) k); [done|rewrite (Hlen y w Hw); lia|rewrite (Hlen x v Hv); lia]. }
        exists σ'. split; [exact Hc|]. apply (rel_intro σ s (d_tags m)); [done|..].
        * intros a k Hk. rewrite Hl by done. destruct (decide (a = x)) as [->|Ne].
          -- rewrite lookup_insert, decide_True by (split; [done|]; apply elem_of_seq; lia). cbn [dv_arr].
             specialize (Hall k ltac:(apply elem_of_seq; lia)). cbn beta in Hall.
             destruct (Hpq k Hk) as (p & q & Ep & Eq). rewrite Ep, Eq in Hall |- *. destruct (exec_eqb p.1 q.1); [done|]. by destruct Hall.
          -- rewrite decide_False by naive_solver. rewrite lookup_insert_ne by done. by apply Hσ.
        * intros a u Hu. apply lookup_insert_Some in Hu as [[<- <-]|[_ Hu]]; [by apply (Hlen y w)|by eapply Hlen].
        * intros a. cbn [tags_step]. rewrite (Ht x), (Ht y), Hv, Hw. cbn [fmap option_fmap option_map].
          destruct (decide (a = x)) as [->|Ne]; [by rewrite !lookup_insert|]. rewrite !lookup_insert_ne by done. apply Ht.
      + rewrite decide_False; [exact H|]. intros Heq.
        assert (is_Some (None : option (list (option (executor * list V))))) as [? ?]; [|done].
        rewrite <- EM. apply mapM_all. intros k Hk%in7. destruct (Hpq k Hk) as (p & q & Ep & Eq). rewrite Ep, Eq.
        assert (p.1 = q.1) as ->.
        { assert (fst <$> dv_arr v !! k = fst <$> dv_arr w !! k) as Hf
            by (rewrite <- !list_lookup_fmap; exact (f_equal (fun l => l !! k) Heq)).
          rewrite Ep, Eq in Hf. cbn in Hf. congruence. }
        rewrite (proj2 (exec_eqb_eq q.1 q.1) eq_refl). by eexists.
    - (* DDestroy *)
      destruct (run_cols_ok (fun k => Destroy (7 * x + k)) x (fun _ => None) (rev (seq 0 7)) σ) as (σ' & Hc & Hl).
      { apply NoDup_ListNoDup, NoDup_rev, NoDup_ListNoDup, NoDup_seq. }
      { intros k Hk. apply in7. by apply elem_of_list_In, in_rev, elem_of_list_In. }
      { intros k σ' Hk Ha. done. }
      exists σ'. split; [exact Hc|]. apply (rel_intro σ s (d_tags m)); [done|..].
      + intros a k Hk. rewrite Hl by done. destruct (decide (a = x)) as [->|Ne].
        * rewrite lookup_delete, decide_True; [done|]. split; [done|]. apply elem_of_list_In, in_rev. rewrite rev_involutive.
          apply elem_of_list_In, elem_of_seq. lia.
        * rewrite decide_False by naive_solver. rewrite lookup_delete_ne by done. by apply Hσ.
      + intros a u Hu. apply lookup_delete_Some in Hu as [_ Hu]. by eapply Hlen.
      + intros a. cbn [tags_step]. destruct (decide (a = x)) as [->|Ne]; [by rewrite !lookup_delete|].
        rewrite !lookup_delete_ne by done. apply Ht.
    - (* DWrite *)
      apply live_some in W as [v Hv]. rewrite Hv. cbn [field_ops].
      destruct (Nat.ltb_spec k 7) as [Hk|Hk].
      + destruct (arr_some s σ (d_tags m) x v Hrel Hv k Hk) as (e & d & E & Eσ).
        cbn [spec_run spec_step]. rewrite Eσ. eexists. split; [reflexivity|]. apply (rel_intro σ s (d_tags m)); [done|..].
        * intros a j Hj. destruct (decide (a = x)) as [->|Ne].
          -- rewrite (lookup_insert s). cbn [dv_arr]. destruct (decide (j = k)) as [->|Hjk].
             ++ by rewrite lookup_insert, list_lookup_alter, E.
             ++ rewrite lookup_insert_ne by lia. rewrite list_lookup_alter_ne by done. by rewrite Hσ, Hv.
          -- rewrite !lookup_insert_ne by (done || lia). by apply Hσ.
        * intros a u Hu. apply lookup_insert_Some in Hu as [[<- <-]|[_ Hu]]; [cbn; rewrite alter_length; by eapply Hlen|by eapply Hlen].
        * intros a. cbn [tags_step]. destruct (decide (a = x)) as [->|Ne]; [by rewrite lookup_insert, Ht, Hv|].
          rewrite lookup_insert_ne by done. apply Ht.
      + exists σ. split; [done|]. apply (rel_intro σ s (d_tags m)); [done|..].
        * intros a j Hj. destruct (decide (a = x)) as [->|Ne].
          -- rewrite lookup_insert. cbn [dv_arr]. rewrite list_lookup_alter_ne by lia. by rewrite Hσ, Hv.
          -- rewrite lookup_insert_ne by done. by apply Hσ.
        * intros a u Hu. apply lookup_insert_Some in Hu as [[<- <-]|[_ Hu]]; [cbn; rewrite alter_length; by eapply Hlen|by eapply Hlen].
        * intros a. cbn [tags_step]. destruct (decide (a = x)) as [->|Ne]; [by rewrite lookup_insert, Ht, Hv|].
          rewrite lookup_insert_ne by done. apply Ht.
  Qed.

  Lemma inv_empty : inv empty_dmem ∅.
  Proof.
    exists [], ∅. split; [done|]. split; [done|]. split; [|split].
    - intros x k _. by rewrite !lookup_empty.
    - intros x v H. by rewrite lookup_empty in H.
    - intros x. cbn. by rewrite !lookup_empty.
  Qed.

  Lemma run_inv (h : list (dop V)) m s : inv m s ->
    match drun alloc0 realloc0 m h, dspec_run s h with
    | Ok m', Some s' => inv m' s'
    | Exit, None => True
    | _, _ => False
    end.
  Proof.
    revert m s. induction h as [|c h IH]; intros m s Hi; [done|]. cbn [drun dspec_run].
    pose proof (step_ok m s c Hi) as H. destruct (dstep alloc0 realloc0 m c), (dspec_step s c); cbn; try done. by apply IH.
  Qed.

  Lemma inv_observe m s : inv m s -> forall x k, k < 7 ->
    dobserve m x k = match s !! x with
                     | Some v => (fun p => (p.1, Some p.2)) <$> dv_arr v !! k
                     | None => None
                     end.
  Proof.
    intros (h & σ & Hr & Hs & Hσ & _) x k Hk. pose proof (history_values alloc0 realloc0 h) as H. rewrite Hr, Hs in H.
    unfold dobserve. rewrite H, Hσ by done. destruct (s !! x) as [v|]; [|done]. by destruct (dv_arr v !! k) as [[e d]|].
  Qed.
  Lemma inv_tags m s : inv m s -> forall x, d_tags m !! x = dv_tags <$> s !! x.
  Proof. intros (h & σ & _ & _ & _ & _ & Ht). exact Ht. Qed.
End proofs.
