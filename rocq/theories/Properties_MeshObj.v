(** C112: copies of a mesh and the geometry and sparsity objects attached to it. *)
From stdpp Require Import list.
From Verif Require Import Base MeshObj MeshObjSpec MeshObjProofs.

Local Lemma spec_run_snoc {C} (ops : list (mop C)) op : spec_run (ops ++ [op]) = spec_step (spec_run ops) op.
Proof. unfold spec_run. by rewrite foldl_app. Qed.
Local Lemma mrun_app {C} (o1 o2 : list (mop C)) w : mrun (o1 ++ o2) w = (let! w' := mrun o1 w in mrun o2 w').
Proof.
  revert w. induction o1 as [|op o1 IH]; intros w; cbn; [done|].
  destruct (mstep w op); cbn; [apply IH|done..].
Qed.
Local Lemma core_stencil {C} (w : world C) o t c n : core (stencils w) o = Some (t, c, n) ->
  exists s, stencil_at w o = Some s /\ so_kind s = t /\ so_built_from s = c /\ so_mesh s = n.
Proof.
  unfold core, stencil_at. destruct (mjoin (stencils w !! o)) as [s|]; cbn; [|done]. intros [= <- <- <-]. by exists s.
Qed.
Local Lemma handle_mesh {C} (w : world C) h o t c n : handle_at w h = Some o -> core (stencils w) o = Some (t, c, n) ->
  stencil_data h w = Ok (t, c) /\ stencil_mesh h w = match mesh_at w n with Some _ => Ok n | None => UB end.
Proof.
  intros Hh Hc. destruct (core_stencil w o t c n Hc) as (s & Hs & <- & <- & <-).
  unfold stencil_data, stencil_mesh. rewrite Hh, Hs. done.
Qed.
Local Lemma sim_exists {C} (w : world C) ops m : Sim w (spec_run ops) ->
  is_Some (mesh_at w m) <-> exists_after ops m.
Proof.
  intros HS. unfold mesh_at, exists_after. destruct (meshes w !! m) as [x|] eqn:Hx.
  - destruct (Forall2_lookup_l _ _ _ _ _ HS Hx) as (y & -> & Hs). cbn. destruct x, y; cbn in *; try done.
    all: split; intros [? ?]; try done; by eexists.
  - rewrite (lookup_ge_None_2 (spec_run ops)); [cbn; split; intros [? ?]; done|]. rewrite <- (Forall2_length _ _ _ HS). by apply lookup_ge_None_1.
Qed.
Local Lemma sim_mesh {C} (w : world C) ops m x : Sim w (spec_run ops) -> mesh_at w m = Some x ->
  mo_data x = contents ops m /\ forall t, default m (origin_of (stencils w) x t) = origin ops t m.
Proof.
  intros HS Hx. apply mesh_at_lookup in Hx. destruct (Sim_lookup w _ m x HS Hx) as (y & Hy & Hd & Ho).
  unfold contents, origin. rewrite Hy. cbn. split; [done|]. intros t. by rewrite Ho.
Qed.
Local Lemma run_get {C} (ops : list (mop C)) w t m h w' : mrun ops empty_world = Ok w -> readOrCreate t m w = Ok (h, w') ->
  mrun (ops ++ [MGet t m]) empty_world = Ok w'.
Proof. intros Hr Hg. rewrite mrun_app, Hr. cbn. by rewrite Hg. Qed.
Local Lemma handle_of {C} (ops : list (mop C)) w t m h w' : mrun ops empty_world = Ok w -> readOrCreate t m w = Ok (h, w') ->
  exists o c, handle_at w' h = Some o /\ core (stencils w') o = Some (t, c, origin ops t m) /\ contents ops m = Some c.
Proof.
  intros Hr Hg. destruct (reach ops w Hr) as [HI HS].
  destruct (readOrCreate_handle t m w h w' HI Hg) as (_ & x & o & c & n & Hx & Hh & Hc & Hd & -> & _).
  destruct (sim_mesh w ops m x HS Hx) as [Hd' Ho]. rewrite Ho in Hc. exists o, c. by rewrite <- Hd'.
Qed.

(** On any mesh that exists and has not been moved from, whatever copies of it and
    of other meshes were made, moved and destroyed, the geometry scheme or sparsity
    pattern that readOrCreate returns was built from contents equal to that mesh's. *)
Theorem C112_right_data : forall {C} (ops : list (mop C)) w t m c,
  mrun ops empty_world = Ok w -> contents ops m = Some c ->
  exists h w', readOrCreate t m w = Ok (h, w') /\ stencil_data h w' = Ok (t, c).
Proof.
  intros C ops w t m c Hr Hc. destruct (reach ops w Hr) as [HI HS].
  assert (Hx : is_Some (mesh_at w m)).
  { apply (sim_exists w ops m HS). unfold contents in Hc. unfold exists_after.
    destruct (mjoin (spec_run ops !! m)); [by eexists|done]. }
  destruct Hx as [x Hx]. destruct (sim_mesh w ops m x HS Hx) as [Hd _]. rewrite Hc in Hd.
  assert (Hg : exists h w', readOrCreate t m w = Ok (h, w')).
  { unfold readOrCreate. rewrite Hx. destruct (mo_entry t x); [by eexists _, _|]. rewrite Hd. by eexists _, _. }
  destruct Hg as (h & w' & Hg). exists h, w'. split; [done|].
  destruct (handle_of ops w t m h w' Hr Hg) as (o & c' & Hh & Hco & Hc'). rewrite Hc in Hc'. injection Hc' as <-.
  exact (proj1 (handle_mesh w' h o t c _ Hh Hco)).
Qed.
Print Assumptions C112_right_data.

(** An operator keeps the stencil it obtained: until it is destroyed, nothing that
    happens to any mesh (its own one included) changes or frees it. *)
Theorem C112_kept : forall {C} (ops : list (mop C)) w t m h w' more w'',
  mrun ops empty_world = Ok w -> readOrCreate t m w = Ok (h, w') ->
  mrun more w' = Ok w'' -> MRelease h ∉ more ->
  exists c, contents ops m = Some c /\ stencil_data h w'' = Ok (t, c).
Proof.
  intros C ops w t m h w' more w'' Hr Hg Hm Hn.
  destruct (handle_of ops w t m h w' Hr Hg) as (o & c & Hh & Hco & Hc). exists c. split; [done|].
  destruct (reach _ _ (run_get ops w t m h w' Hr Hg)) as [HI' _].
  apply handle_at_lookup in Hh. destruct (handle_run more w' w'' h o HI' Hm Hn Hh) as [Hh2 Hc2].
  rewrite <- Hc2 in Hco. apply handle_at_lookup in Hh2. exact (proj1 (handle_mesh w'' h o t c _ Hh2 Hco)).
Qed.
Print Assumptions C112_kept.

(** The mesh a stencil refers to is the one on which it was first requested; asking
    for it is undefined exactly when that mesh has been destroyed, even if the mesh
    the operator was created for still exists. *)
Theorem C112_mesh_of : forall {C} (ops : list (mop C)) w t m h w' more w'',
  mrun ops empty_world = Ok w -> readOrCreate t m w = Ok (h, w') ->
  mrun more w' = Ok w'' -> MRelease h ∉ more ->
  let now := ops ++ MGet t m :: more in
  (exists_after now (origin ops t m) -> stencil_mesh h w'' = Ok (origin ops t m)) /\
  (~ exists_after now (origin ops t m) -> stencil_mesh h w'' = UB).
Proof.
  intros C ops w t m h w' more w'' Hr Hg Hm Hn now.
  destruct (handle_of ops w t m h w' Hr Hg) as (o & c & Hh & Hco & Hc).
  pose proof (run_get ops w t m h w' Hr Hg) as Hr'.
  destruct (reach _ _ Hr') as [HI' _].
  apply handle_at_lookup in Hh. destruct (handle_run more w' w'' h o HI' Hm Hn Hh) as [Hh2 Hc2].
  rewrite <- Hc2 in Hco. apply handle_at_lookup in Hh2. destruct (handle_mesh w'' h o t c _ Hh2 Hco) as [_ ->].
  assert (Hr'' : mrun now empty_world = Ok w'').
  { unfold now. replace (ops ++ MGet t m :: more) with ((ops ++ [MGet t m]) ++ more) by (by rewrite <- app_assoc).
    by rewrite mrun_app, Hr'. }
  destruct (reach _ _ Hr'') as [_ HS]. rewrite <- (sim_exists w'' now _ HS).
  destruct (mesh_at w'' (origin ops t m)); split; intros H; try done.
  - exfalso. apply H. by eexists.
  - by destruct H.
Qed.
Print Assumptions C112_mesh_of.

(** Two meshes give the same stencil object iff it was first requested on the same
    mesh. *)
Theorem C112_same_object : forall {C} (ops : list (mop C)) w t m1 m2 h1 w1 h2 w2,
  mrun ops empty_world = Ok w ->
  readOrCreate t m1 w = Ok (h1, w1) -> readOrCreate t m2 w1 = Ok (h2, w2) ->
  handle_at w2 h1 = handle_at w2 h2 <-> origin ops t m1 = origin ops t m2.
Proof.
  intros C ops w t m1 m2 h1 w1 h2 w2 Hr Hg1 Hg2.
  destruct (handle_of ops w t m1 h1 w1 Hr Hg1) as (o1 & c1 & Hh1 & Hco1 & Hc1).
  pose proof (run_get ops w t m1 h1 w1 Hr Hg1) as Hr1.
  destruct (handle_of _ w1 t m2 h2 w2 Hr1 Hg2) as (o2 & c2 & Hh2 & Hco2 & Hc2).
  pose proof (run_get _ w1 t m2 h2 w2 Hr1 Hg2) as Hr2.
  destruct (reach _ _ Hr1) as [HI1 _]. destruct (reach _ _ Hr2) as [HI2 _].
  assert (Ho : origin (ops ++ [MGet t m1]) t m2 = origin ops t m2).
  { unfold origin. rewrite spec_run_snoc. cbn [spec_step]. destruct (decide (m2 = m1)) as [->|Hn].
    - rewrite list_lookup_alter. destruct (spec_run ops !! m1) as [[y|]|]; cbn; try done.
      unfold requested. destruct (s_origin y t) eqn:E; cbn; [by rewrite E|]. by rewrite decide_True.
    - by rewrite list_lookup_alter_ne. }
  rewrite Ho in Hco2.
  assert (Hs : mstep w1 (MGet t m2) = Ok w2) by (cbn; by rewrite Hg2).
  apply handle_at_lookup in Hh1. destruct (handle_step _ w1 w2 h1 o1 HI1 Hs ltac:(done) Hh1) as [Hh1' Hco1'].
  rewrite <- Hco1' in Hco1. apply handle_at_lookup in Hh1'. rewrite Hh1', Hh2. split.
  - intros [= ->]. congruence.
  - intros Heq. rewrite Heq in Hco1. f_equal. exact (inv_unique w2 HI2 _ _ _ _ _ _ Hco1 Hco2).
Qed.
Print Assumptions C112_same_object.

(** If meshes are copied and moved only before anything was requested on them, every
    stencil refers to the mesh it was requested on, as long as that mesh exists. *)
Definition copied_unused {C} (ops : list (mop C)) : Prop :=
  forall pre op suf m, ops = pre ++ op :: suf -> op = MCopy m \/ op = MMove m -> forall t, MGet t m ∉ pre.

Local Lemma copied_unused_origin {C} (ops : list (mop C)) : copied_unused ops ->
  forall m x t n, spec_run ops !! m = Some (Some x) -> s_origin x t = Some n -> n = m /\ MGet t m ∈ ops.
Proof.
  induction ops as [|op ops IH] using rev_ind; intros Hu m x t n; [done|].
  assert (Hu' : copied_unused ops).
  { intros pre op' suf m' -> Hop. apply (Hu pre op' (suf ++ [op]) m'); [by rewrite <- app_assoc|done]. }
  specialize (IH Hu'). rewrite spec_run_snoc.
  assert (Hold : forall m x t n, spec_run ops !! m = Some (Some x) -> s_origin x t = Some n -> n = m /\ MGet t m ∈ ops ++ [op]).
  { intros m0 x0 t0 n0 H1 H2. destruct (IH m0 x0 t0 n0 H1 H2) as [-> Hin]. split; [done|]. apply elem_of_app. by left. }
  assert (Hcopied : forall m0 x0 t0 n0, (op = MCopy m0 \/ op = MMove m0) ->
            mjoin (spec_run ops !! m0) = Some x0 -> s_origin x0 t0 = Some n0 -> False).
  { intros m0 x0 t0 n0 Hop Hm H2. destruct (spec_run ops !! m0) as [y|] eqn:E; cbn in Hm; [subst y|done].
    destruct (IH m0 x0 t0 n0 E H2) as [_ Hin]. exact (Hu ops op [] m0 eq_refl Hop t0 Hin). }
  destruct op as [c|k|k|k|t' k|h]; cbn [spec_step].
  - intros Hx. apply lookup_app_Some in Hx as [Hx|[_ Hx]]; [exact (Hold m x t n Hx)|].
    apply list_lookup_singleton_Some in Hx as [_ [= <-]]. done.
  - intros Hx. apply lookup_app_Some in Hx as [Hx|[_ Hx]]; [exact (Hold m x t n Hx)|].
    apply list_lookup_singleton_Some in Hx as [_ Hx]. intros H2. exfalso. exact (Hcopied k x t n (or_introl eq_refl) Hx H2).
  - intros Hx. apply lookup_app_Some in Hx as [Hx|[_ Hx]].
    + apply list_lookup_insert_Some in Hx as [(_ & Hi & _)|[_ Hi]]; [injection Hi as <-; done|exact (Hold m x t n Hi)].
    + apply list_lookup_singleton_Some in Hx as [_ Hx]. intros H2. exfalso. exact (Hcopied k x t n (or_intror eq_refl) Hx H2).
  - intros Hx. apply list_lookup_insert_Some in Hx as [(_ & Hi & _)|[_ Hi]]; [done|exact (Hold m x t n Hi)].
  - destruct (decide (m = k)) as [->|Hn].
    + rewrite list_lookup_alter. destruct (spec_run ops !! k) as [[y|]|] eqn:E; cbn; try done.
      intros [= <-]. unfold requested. destruct (s_origin y t') eqn:Ey; cbn; [exact (Hold k y t n E)|].
      destruct (decide (t = t')) as [->|Hn]; [|exact (Hold k y t n E)].
      intros [= <-]. split; [done|]. apply elem_of_app. right. by apply elem_of_list_singleton.
    + rewrite list_lookup_alter_ne by done. exact (Hold m x t n).
  - exact (Hold m x t n).
Qed.

Theorem C112_safe : forall {C} (ops : list (mop C)) w t m h w' more w'',
  copied_unused ops ->
  mrun ops empty_world = Ok w -> readOrCreate t m w = Ok (h, w') ->
  mrun more w' = Ok w'' -> MRelease h ∉ more -> exists_after (ops ++ MGet t m :: more) m ->
  stencil_mesh h w'' = Ok m.
Proof.
  intros C ops w t m h w' more w'' Hu Hr Hg Hm Hn He.
  assert (Ho : origin ops t m = m).
  { unfold origin. destruct (spec_run ops !! m) as [[x|]|] eqn:E; cbn; try done.
    destruct (s_origin x t) as [n|] eqn:Et; cbn; [|done]. by destruct (copied_unused_origin ops Hu m x t n E Et). }
  destruct (C112_mesh_of ops w t m h w' more w'' Hr Hg Hm Hn) as [H _]. rewrite Ho in H. exact (H He).
Qed.
Print Assumptions C112_safe.

(** Otherwise it can dangle: copy a mesh on which the pattern has been requested,
    destroy the original; the copy still gives the right pattern, but the mesh that
    pattern refers to (used by createEmptyLinearSystem) is gone. *)
Theorem C112_dangling : forall {C} (ops : list (mop C)) w t m h w1,
  mrun ops empty_world = Ok w -> readOrCreate t m w = Ok (h, w1) -> origin ops t m = m ->
  exists w2 w3 h' w4 c, let copy := length (meshes w1) in
    mesh_copy m w1 = Ok w2 /\ mesh_destroy m w2 = Ok w3 /\ readOrCreate t copy w3 = Ok (h', w4) /\
    contents ops m = Some c /\ stencil_data h' w4 = Ok (t, c) /\ stencil_mesh h' w4 = UB.
Proof.
  intros C ops w t m h w1 Hr Hg Ho.
  destruct (handle_of ops w t m h w1 Hr Hg) as (o & c & Hh & Hco & Hc). rewrite Ho in Hco.
  pose proof (run_get ops w t m h w1 Hr Hg) as Hr1. destruct (reach _ _ Hr1) as [HI1 HS1].
  destruct (reach _ _ Hr) as [HI HS].
  destruct (readOrCreate_handle t m w h w1 HI Hg) as (_ & x0 & _ & _ & _ & Hx0 & _ & _ & _ & _ & Hex).
  destruct (proj2 (Hex m) (ex_intro _ x0 Hx0)) as [x Hx].
  set (copy := length (meshes w1)).
  pose proof (proj1 (mesh_at_lookup _ _ _) Hx) as Hxl. pose proof (lookup_lt_Some _ _ _ Hxl) as Hlt. fold copy in Hlt.
  assert (Hcp : exists w2, mesh_copy m w1 = Ok w2 /\ meshes w2 = meshes w1 ++ [Some x]).
  { unfold mesh_copy. rewrite Hx. eexists. split; [done|]. done. }
  destruct Hcp as (w2 & Hcp & Hms2).
  assert (Hx2 : mesh_at w2 m = Some x) by (unfold mesh_at; rewrite Hms2, lookup_app_l by done; by rewrite Hxl).
  assert (Hds : exists w3, mesh_destroy m w2 = Ok w3 /\ meshes w3 = <[m := None]> (meshes w2)).
  { unfold mesh_destroy. rewrite Hx2. eexists. split; done. }
  destruct Hds as (w3 & Hds & Hms3).
  set (ops3 := (ops ++ [MGet t m]) ++ [MCopy m; MDestroy m]).
  assert (Hr3 : mrun ops3 empty_world = Ok w3).
  { unfold ops3. rewrite mrun_app, Hr1. cbn. rewrite Hcp. cbn. by rewrite Hds. }
  (* the copy has the contents and the origin of the original *)
  assert (Hlen : length (spec_run (ops ++ [MGet t m])) = copy) by (by rewrite <- (Forall2_length _ _ _ HS1)).
  destruct (Sim_lookup w1 _ m x HS1 Hxl) as (y & Hy & Hd & Hor).
  assert (Hy3 : spec_run ops3 !! copy = Some (Some y)).
  { unfold ops3, spec_run. rewrite foldl_app. fold (spec_run (ops ++ [MGet t m])). cbn [foldl spec_step].
    rewrite list_lookup_insert_ne by lia. rewrite lookup_app_r by lia. rewrite Hlen, Nat.sub_diag, Hy. done. }
  destruct (spec_run ops !! m) as [[y0|]|] eqn:E0.
  2,3: unfold contents in Hc; rewrite E0 in Hc; done.
  assert (Hy0 : y = requested t m y0).
  { rewrite spec_run_snoc in Hy. cbn [spec_step] in Hy. rewrite list_lookup_alter, E0 in Hy. cbn in Hy. congruence. }
  assert (Hc3 : contents ops3 copy = Some c).
  { unfold contents. rewrite Hy3. cbn. unfold contents in Hc. rewrite E0 in Hc. cbn in Hc. rewrite Hy0.
    unfold requested. by destruct (s_origin y0 t). }
  assert (Ho3 : origin ops3 t copy = m).
  { unfold origin. rewrite Hy3. cbn. unfold origin in Ho. rewrite E0 in Ho. cbn in Ho. rewrite Hy0. unfold requested.
    destruct (s_origin y0 t) as [n|] eqn:En; cbn in Ho |- *; [by rewrite En|]. by rewrite decide_True. }
  destruct (C112_right_data ops3 w3 t copy c Hr3 Hc3) as (h' & w4 & Hg4 & Hd4).
  exists w2, w3, h', w4, c. repeat (split; [done|]).
  destruct (C112_mesh_of ops3 w3 t copy h' w4 [] w4 Hr3 Hg4 eq_refl ltac:(by apply not_elem_of_nil)) as [_ H].
  rewrite Ho3 in H. apply H. intros He. change (ops3 ++ [MGet t copy]) with (ops3 ++ [MGet t copy]) in He.
  unfold exists_after in He. rewrite spec_run_snoc in He. cbn [spec_step] in He.
  rewrite list_lookup_alter_ne in He by lia. unfold ops3, spec_run in He. rewrite foldl_app in He. cbn [foldl spec_step] in He.
  fold (spec_run (ops ++ [MGet t m])) in He. rewrite list_lookup_insert in He by (rewrite app_length; lia). by destruct He.
Qed.
Print Assumptions C112_dangling.

(** A stencil object exists exactly as long as some mesh carries it or some operator
    keeps it; in particular none is left when all of them are gone. *)
Theorem C112_no_leak : forall {C} (ops : list (mop C)) w,
  mrun ops empty_world = Ok w -> forall o,
  is_Some (stencil_at w o) <->
  (exists m x t, mesh_at w m = Some x /\ mo_entry t x = Some o) \/ (exists h, handle_at w h = Some o).
Proof.
  intros C ops w Hr o. destruct (reach ops w Hr) as [HI _].
  assert (Hcs : is_Some (stencil_at w o) <-> is_Some (core (stencils w) o)).
  { unfold stencil_at, core. destruct (mjoin (stencils w !! o)); cbn; split; intros [? ?]; try done; by eexists. }
  rewrite Hcs. split.
  - intros H. apply (cnt_core _ _ (inv_wf w HI)) in H. rewrite (inv_cnt w HI) in H. unfold refs in H.
    destruct (decide (0 < sum_list (map (ref_mesh o) (meshes w)))) as [Hm|Hm].
    + left. apply sum_list_pos in Hm as (i & [x|] & Hi & Hp); cbn in Hp; [|lia].
      exists i, x. assert (mo_geometry x = Some o \/ mo_sparsity x = Some o) as [Hg|Hs].
      { unfold refers in Hp. destruct (bool_decide_reflect (mo_geometry x = Some o)); [by left|].
        destruct (bool_decide_reflect (mo_sparsity x = Some o)); [by right|]. cbn in Hp. lia. }
      * exists Geometry. split; [by apply mesh_at_lookup|done].
      * exists Sparsity. split; [by apply mesh_at_lookup|done].
    + right. assert (Hh : 0 < sum_list (map (ref_handle o) (handles w))) by lia.
      apply sum_list_pos in Hh as (i & x & Hi & Hp). exists i. apply handle_at_lookup. rewrite Hi. f_equal.
      unfold ref_handle, refers in Hp. destruct (bool_decide_reflect (x = Some o)); [done|]. cbn in Hp. lia.
  - intros [(m & x & t & Hx & Ho)|(h & Hh)].
    + apply mesh_at_lookup in Hx. exact (entry_alive w HI m x t o Hx Ho).
    + apply handle_at_lookup in Hh. exact (handle_alive w HI h o Hh).
Qed.
Print Assumptions C112_no_leak.

(** A mesh (contents 7) is copied before use: each copy gets its own geometry.
    Copied after use: the same one. *)
Definition story : list (mop nat) := [MNew 7; MCopy 0; MGet Geometry 0; MGet Geometry 1; MCopy 0; MGet Geometry 2].
Example C112_instance :
  match mrun story empty_world with
  | Ok w => handles w = [Some 0; Some 1; Some 0] /\
            stencil_mesh 0 w = Ok 0 /\ stencil_mesh 1 w = Ok 1 /\ stencil_mesh 2 w = Ok 0 /\
            stencil_data 2 w = Ok (Geometry, 7)
  | _ => False
  end /\
  origin story Geometry 1 = 1 /\ origin story Geometry 2 = 0 /\ contents story 2 = Some 7.
Proof. vm_compute. repeat split. Qed.
Example C112_safe_instance :
  copied_unused [MNew 7; MCopy 0; MGet Geometry 0] /\
  match mrun [MNew 7; MCopy 0; MGet Geometry 0] empty_world with Ok _ => True | _ => False end.
Proof.
  split; [|exact I]. intros pre op suf m H Hop t Hin.
  destruct pre as [|a [|b [|d pre]]]; cbn in H; injection H.
  - intros. subst. by destruct Hop.
  - intros. subst. apply elem_of_list_singleton in Hin. done.
  - intros. subst. by destruct Hop.
  - intros. by destruct pre.
Qed.
