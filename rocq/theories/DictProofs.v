(** Dictionary is a finite map; TokenList is a queue with a cursor. *)
From stdpp Require Export gmap fin_maps.
From Verif Require Import Base Dict.

Lemma dfind_dset d k v k' : dfind (dset d k v) k' = if decide (k' = k) then Some v else dfind d k'.
Proof.
  induction d as [|[a b] d IH]; simpl.
  - destruct (decide (k' = k)); done.
  - destruct (decide (k = a)) as [->|Hne]; simpl.
    + destruct (decide (k' = a)); done.
    + rewrite IH. destruct (decide (k' = a)) as [->|]; [|done].
      by rewrite decide_False by done.
Qed.

(** Invariant: an unordered_map has one entry per key. *)
Definition dict_ok (d : dict) : Prop := NoDup (map fst d).

Lemma dfind_None d k : dfind d k = None <-> k ∉ map fst d.
Proof.
  induction d as [|[a b] d IH]; simpl.
  - split; [intros _; apply not_elem_of_nil|done].
  - rewrite not_elem_of_cons. destruct (decide (k = a)) as [->|Hne].
    + split; [done|]. intros [Hx _]. done.
    + rewrite IH. tauto.
Qed.
Lemma dfind_Some d k : is_Some (dfind d k) <-> k ∈ map fst d.
Proof.
  destruct (dfind d k) eqn:E.
  - split; [intros _|eauto]. destruct (decide (k ∈ map fst d)); [done|].
    apply dfind_None in n. congruence.
  - apply dfind_None in E. split; [intros [??]; done|done].
Qed.

Lemma dfind_derase d k k' : dict_ok d ->
  dfind (derase d k) k' = if decide (k' = k) then None else dfind d k'.
Proof.
  unfold dict_ok. induction d as [|[a b] d IH]; simpl; intros Hd.
  - destruct (decide (k' = k)); done.
  - apply NoDup_cons in Hd as [Ha Hd].
    destruct (decide (k = a)) as [->|Hne]; simpl.
    + destruct (decide (k' = a)) as [->|]; [|done]. by apply dfind_None.
    + rewrite IH by done. destruct (decide (k' = a)) as [->|]; [|done]. by rewrite decide_False by done.
Qed.

Lemma keys_dset d k v k' : k' ∈ map fst (dset d k v) <-> k' = k \/ k' ∈ map fst d.
Proof.
  rewrite <- !dfind_Some, dfind_dset. destruct (decide (k' = k)); [|tauto].
  split; [by left|eauto].
Qed.
Lemma dset_ok d k v : dict_ok d -> dict_ok (dset d k v).
Proof.
  unfold dict_ok. induction d as [|[a b] d IH]; simpl; intros Hd.
  - apply NoDup_singleton.
  - apply NoDup_cons in Hd as [Ha Hd]. destruct (decide (k = a)) as [->|Hne]; simpl.
    + by apply NoDup_cons.
    + apply NoDup_cons. split; [|by apply IH]. rewrite keys_dset. intros [->|?]; done.
Qed.
Lemma derase_ok d k : dict_ok d -> dict_ok (derase d k).
Proof.
  unfold dict_ok. induction d as [|[a b] d IH]; simpl; intros Hd; [done|].
  apply NoDup_cons in Hd as [Ha Hd]. destruct (decide (k = a)) as [->|Hne]; simpl; [done|].
  apply NoDup_cons. split; [|by apply IH].
  intros Hin. apply Ha. apply dfind_Some in Hin. rewrite dfind_derase in Hin by done.
  destruct (decide (a = k)); [by destruct Hin|]. by apply dfind_Some.
Qed.

(** What one call does to the value under key [k]. *)
Definition key_of (o : dop) : string :=
  match o with DInsert k _ | DRemove k | DAssign k _ _ | DAssignAny k _ | DSub k _ => k end.

Lemma dict_step_ok d o : dict_ok d -> dict_ok (dict_step d o).1.
Proof.
  intros Hd. destruct o; simpl.
  - by apply dset_ok.
  - by apply derase_ok.
  - destruct (dict_get t d k); simpl; [by apply dset_ok|done..].
  - destruct (dict_at d k); simpl; [by apply dset_ok|done..].
  - destruct (dict_subDict d k) as [s|e| |]; simpl; try done.
    destruct (dict_step s o) as [s' x]. simpl. by apply dset_ok.
Qed.

Lemma dict_step_other d o k : dict_ok d -> k <> key_of o -> dfind (dict_step d o).1 k = dfind d k.
Proof.
  intros Hd Hk. destruct o; simpl in *.
  - unfold dict_insert. rewrite dfind_dset. by rewrite decide_False by done.
  - unfold dict_remove. rewrite dfind_derase by done. by rewrite decide_False by done.
  - destruct (dict_get t d k0); simpl; try done.
    rewrite dfind_dset. by rewrite decide_False by done.
  - destruct (dict_at d k0); simpl; try done.
    rewrite dfind_dset. by rewrite decide_False by done.
  - destruct (dict_subDict d k0) as [s|e| |]; simpl; try done.
    destruct (dict_step s o) as [s' x]. simpl.
    rewrite dfind_dset. by rewrite decide_False by done.
Qed.

(** The value under the key of the call, and the exception. *)
Definition spec_key (old : option any) (o : dop) : option any * option exn :=
  match o with
  | DInsert _ v => (Some v, None)
  | DRemove _ => (None, None)
  | DAssign _ t v =>
      match old with
      | None => (None, Some OutOfRange)
      | Some a => if decide (type_of a = Some t) then (Some v, None) else (Some a, Some BadAnyCast)
      end
  | DAssignAny _ v =>
      match old with None => (None, Some OutOfRange) | Some _ => (Some v, None) end
  | DSub _ o' =>
      match old with
      | None => (None, Some OutOfRange)
      | Some (ADict s) => (Some (ADict (dict_step s o').1), (dict_step s o').2)
      | Some a => (Some a, Some BadAnyCast)
      end
  end.

Lemma dict_step_key d o : dict_ok d ->
  (dfind (dict_step d o).1 (key_of o), (dict_step d o).2) = spec_key (dfind d (key_of o)) o.
Proof.
  intros Hd. destruct o; simpl.
  - unfold dict_insert. by rewrite dfind_dset, decide_True.
  - unfold dict_remove. rewrite dfind_derase by done. by rewrite decide_True.
  - unfold dict_get, dict_at, any_cast. destruct (dfind d k) as [a|] eqn:E; simpl; [|by rewrite E].
    destruct (decide (type_of a = Some t)); simpl; [by rewrite dfind_dset, decide_True|by rewrite E].
  - unfold dict_at. destruct (dfind d k) as [a|] eqn:E; simpl; [|by rewrite E].
    by rewrite dfind_dset, decide_True.
  - unfold dict_subDict, dict_at. destruct (dfind d k) as [a|] eqn:E; simpl; [|by rewrite E].
    destruct a; simpl; try (by rewrite E).
    destruct (dict_step d0 o) as [s' x]. simpl. by rewrite dfind_dset, decide_True.
Qed.

(** Histories: the value under [k] depends only on the calls on [k], in order. *)
Lemma dict_run_ok d os : dict_ok d -> dict_ok (dict_run d os).
Proof.
  revert d. induction os as [|o os IH]; intros d Hd; [done|]. simpl. apply IH. by apply dict_step_ok.
Qed.
Lemma dict_run_key d os k : dict_ok d ->
  dfind (dict_run d os) k
  = foldl (fun v o => (spec_key v o).1) (dfind d k) (filter (fun o => key_of o = k) os).
Proof.
  revert d. induction os as [|o os IH]; intros d Hd; [done|].
  change (dict_run d (o :: os)) with (dict_run (dict_step d o).1 os).
  rewrite IH by (by apply dict_step_ok). rewrite filter_cons.
  destruct (decide (key_of o = k)) as [<-|Hne].
  - simpl. f_equal. pose proof (dict_step_key d o Hd) as Hk.
    destruct (spec_key (dfind d (key_of o)) o) eqn:E. simpl. congruence.
  - f_equal. by apply dict_step_other.
Qed.

(** dict_init *)
Lemma dfind_app d d' k : dfind (d ++ d') k = match dfind d k with Some v => Some v | None => dfind d' k end.
Proof.
  induction d as [|[a b] d IH]; [done|]. simpl. destruct (decide (k = a)); done.
Qed.
Lemma dfind_demplace d k v k' :
  dfind (demplace d k v) k' = match dfind d k' with
                              | Some w => Some w
                              | None => if decide (k' = k) then Some v else None end.
Proof.
  unfold demplace. destruct (dfind d k) eqn:E.
  - destruct (dfind d k') eqn:E'; [done|]. destruct (decide (k' = k)); congruence.
  - rewrite dfind_app. simpl. destruct (dfind d k'); done.
Qed.
Lemma demplace_ok d k v : dict_ok d -> dict_ok (demplace d k v).
Proof.
  unfold dict_ok, demplace. intros Hd. destruct (dfind d k) eqn:E; [done|].
  rewrite map_app. apply NoDup_app. split; [done|]. split; [|apply NoDup_singleton].
  intros x Hx Hy. apply elem_of_list_singleton in Hy. simpl in Hy. subst x.
  by apply dfind_None in E.
Qed.
Lemma dict_init_gen l : forall d k, dict_ok d ->
  dict_ok (foldl (fun d kv => demplace d kv.1 kv.2) d l) /\
  dfind (foldl (fun d kv => demplace d kv.1 kv.2) d l) k
  = match dfind d k with Some v => Some v | None => dfind l k end.
Proof.
  induction l as [|[a b] l IH]; intros d k Hd.
  - simpl. split; [done|]. by destruct (dfind d k).
  - simpl. destruct (IH (demplace d a b) k) as [Ho Hf]; [by apply demplace_ok|].
    split; [done|]. rewrite Hf, dfind_demplace. destruct (dfind d k); [done|].
    destruct (decide (k = a)); done.
Qed.
(** [dfind l k] on the initializer list itself is its first entry for [k]. *)
Lemma dfind_first l k : dfind l k = snd <$> (list_find (fun kv => kv.1 = k) l ≫= (fun p => Some p.2)).
Proof.
  induction l as [|[a b] l IH]; [done|]. simpl.
  destruct (decide (k = a)) as [->|Hne].
  - by rewrite decide_True.
  - rewrite decide_False by done. rewrite IH.
    destruct (list_find (fun kv : string * any => kv.1 = k) l) as [[i [x y]]|]; done.
Qed.
Lemma dict_init_ok l : dict_ok (dict_init l).
Proof. apply (dict_init_gen l [] ""). apply NoDup_nil_2. Qed.
Lemma dict_init_find l k : dfind (dict_init l) k = dfind l k.
Proof. destruct (dict_init_gen l [] k) as [_ Hf]; [apply NoDup_nil_2|]. done. Qed.

(** The queries in terms of the map. *)
Lemma dict_queries d k t : dict_ok d ->
  (dict_contains d k = true <-> is_Some (dfind d k)) /\
  (k ∈ dict_keys d <-> is_Some (dfind d k)) /\ NoDup (dict_keys d) /\
  dict_get t d k = match dfind d k with
                   | None => Throw OutOfRange
                   | Some a => if decide (type_of a = Some t) then Ok a else Throw BadAnyCast
                   end /\
  (dict_isDict d k = true <-> exists s, dfind d k = Some (ADict s)) /\
  (dict_isDict d k = true <-> exists s, dict_subDict d k = Ok s).
Proof.
  intros Hd. unfold dict_contains, dict_keys, dict_get, dict_at, dict_isDict, dict_subDict, any_cast.
  split; [|split; [|split; [|split; [|split]]]].
  - destruct (dfind d k); split; try done; eauto. intros [? ?]; done.
  - symmetry. apply dfind_Some.
  - done.
  - by destruct (dfind d k).
  - destruct (dfind d k) as [[]|]; split; try done; eauto; intros [? ?]; congruence.
  - unfold dict_at. destruct (dfind d k) as [[]|]; simpl; split; try done; eauto; intros [? ?]; congruence.
Qed.

(** ** TokenList *)
(** Successful deliveries of [next]. *)
Definition delivered (os : list top) (rs : list (outcome (option any))) : list any :=
  omap (fun '(o, r) => match o, r with TNext _, Ok (Some v) => Some v | _, _ => None end) (zip os rs).
Definition inserted (os : list top) : list any :=
  omap (fun o => match o with TInsert v => Some v | _ => None end) os.
Definition no_removal (os : list top) : Prop :=
  Forall (fun o => match o with TPopFront _ => False | _ => True end) os.

Lemma delivered_cons o os r rs :
  delivered (o :: os) (r :: rs)
  = match o, r with TNext _, Ok (Some v) => v :: delivered os rs | _, _ => delivered os rs end.
Proof. unfold delivered. destruct o, r as [[]| | |]; done. Qed.
Lemma inserted_cons o os :
  inserted (o :: os) = match o with TInsert v => v :: inserted os | _ => inserted os end.
Proof. by destruct o. Qed.

Lemma tl_next_cases T t :
  (exists v, tl_data t !! tl_next t = Some v /\ type_of v = Some T /\
     tl_next_tok T t = (Ok v, TokenList (tl_data t) (tl_next t + 1))) \/
  (exists v, tl_data t !! tl_next t = Some v /\ type_of v <> Some T /\
     tl_next_tok T t = (Throw BadAnyCast, t)) \/
  (tl_data t !! tl_next t = None /\ tl_next_tok T t = (Throw OutOfRange, t)).
Proof.
  unfold tl_next_tok, tl_get, any_cast. destruct (tl_data t !! tl_next t) as [v|] eqn:E.
  - destruct (decide (type_of v = Some T)).
    + left. eauto.
    + right. left. eauto.
  - right. right. done.
Qed.

Lemma tl_run_next os : forall t, no_removal os -> tl_next t <= length (tl_data t) ->
  let '(rs, t') := tl_run t os in
  tl_data t' = tl_data t ++ inserted os /\
  tl_next t' = tl_next t + length (delivered os rs) /\
  tl_next t' <= length (tl_data t') /\
  delivered os rs = take (length (delivered os rs)) (drop (tl_next t) (tl_data t ++ inserted os)).
Proof.
  induction os as [|o os IH]; intros t Hn Hle.
  - simpl. rewrite app_nil_r. split; [done|]. split; [lia|]. split; done.
  - apply Forall_cons in Hn as [Ho Hn]. cbn [tl_run].
    destruct (tl_step t o) as [r t1] eqn:Es.
    destruct (tl_run t1 os) as [rs t2] eqn:Er.
    destruct o as [v|T|T|T i]; simpl in Es; try done.
    + injection Es as <- <-. rewrite delivered_cons, inserted_cons.
      specialize (IH (tl_insert t v) Hn). rewrite Er in IH. simpl in IH.
      rewrite app_length in IH. simpl in IH. destruct IH as (Hd & Hx & Hl & Hdel); [lia|].
      rewrite <- app_assoc in Hd, Hdel. simpl in *. done.
    + destruct (tl_next_cases T t) as [(v & Hv & Hty & Hstep)|[(v & Hv & Hty & Hstep)|(Hv & Hstep)]];
        rewrite Hstep in Es; simpl in Es; injection Es as <- <-;
        rewrite delivered_cons, inserted_cons.
      * specialize (IH (TokenList (tl_data t) (tl_next t + 1)) Hn). rewrite Er in IH. simpl in IH.
        pose proof (lookup_lt_Some _ _ _ Hv).
        destruct IH as (Hd & Hx & Hl & Hdel); [lia|].
        split; [done|]. split; [simpl; lia|]. split; [done|].
        rewrite (drop_S _ v (tl_next t)).
        2: { rewrite lookup_app_l by lia. done. }
        simpl. f_equal. rewrite Nat.add_1_r in Hdel. done.
      * specialize (IH t Hn Hle). rewrite Er in IH. done.
      * specialize (IH t Hn Hle). rewrite Er in IH. done.
    + destruct (tl_get T t i) as [v|e| |]; simpl in Es; injection Es as <- <-;
        rewrite delivered_cons, inserted_cons;
        specialize (IH t Hn Hle); rewrite Er in IH; done.
Qed.

(** ** Nested dictionaries *)
(** Every dictionary stored anywhere inside has distinct keys. *)
Fixpoint any_wf (a : any) : Prop :=
  match a with
  | ADict d => NoDup (map fst d) /\
      (fix go (d : dict) : Prop := match d with [] => True | (_, v) :: d' => any_wf v /\ go d' end) d
  | _ => True
  end.
Definition dict_wf (d : dict) : Prop := any_wf (ADict d).

Lemma dict_wf_iff d : dict_wf d <-> dict_ok d /\ Forall (fun kv => any_wf kv.2) d.
Proof.
  unfold dict_wf, dict_ok. simpl. split; intros [H1 H2]; (split; [done|]).
  - clear H1. induction d as [|[k v] d IH]; constructor; [apply H2|]. apply IH, H2.
  - clear H1. induction d as [|[k v] d IH]; [done|]. apply Forall_cons in H2 as [? ?].
    split; [done|by apply IH].
Qed.
Lemma dfind_In d k v : dfind d k = Some v -> (k, v) ∈ d.
Proof.
  induction d as [|[a b] d IH]; simpl; [done|]. destruct (decide (k = a)) as [->|].
  - intros [= ->]. left.
  - intros H. right. by apply IH.
Qed.
Lemma dict_wf_find d k v : dict_wf d -> dfind d k = Some v -> any_wf v.
Proof.
  rewrite dict_wf_iff. intros [_ H] Hk. apply dfind_In in Hk.
  rewrite Forall_forall in H. by apply (H _ Hk).
Qed.
Lemma dset_wf d k v : dict_wf d -> any_wf v -> dict_wf (dset d k v).
Proof.
  rewrite !dict_wf_iff. intros [Ho Hv] Hw. split; [by apply dset_ok|]. clear Ho.
  induction d as [|[a b] d IH]; simpl.
  - by repeat constructor.
  - apply Forall_cons in Hv as [? ?]. destruct (decide (k = a)); constructor; try done. by apply IH.
Qed.
Lemma derase_wf d k : dict_wf d -> dict_wf (derase d k).
Proof.
  rewrite !dict_wf_iff. intros [Ho Hv]. split; [by apply derase_ok|]. clear Ho.
  induction d as [|[a b] d IH]; simpl; [done|].
  apply Forall_cons in Hv as [? ?]. destruct (decide (k = a)); [done|]. constructor; [done|]. by apply IH.
Qed.

(** The value an operation stores, the keys leading to it. *)
Fixpoint op_value (o : dop) : any :=
  match o with
  | DInsert _ v | DAssign _ _ v | DAssignAny _ v => v
  | DRemove _ => AEmpty
  | DSub _ o' => op_value o'
  end.
Fixpoint op_path (o : dop) : list string :=
  match o with
  | DInsert k _ | DRemove k | DAssign k _ _ | DAssignAny k _ => [k]
  | DSub k o' => k :: op_path o'
  end.

Lemma dict_step_wf o : forall d, any_wf (op_value o) -> dict_wf d -> dict_wf (dict_step d o).1.
Proof.
  induction o as [k v|k|k t v|k v|k o IH]; intros d Hv Hd; simpl in *.
  - by apply dset_wf.
  - by apply derase_wf.
  - destruct (dict_get t d k); simpl; try done. by apply dset_wf.
  - destruct (dict_at d k); simpl; try done. by apply dset_wf.
  - unfold dict_subDict, dict_at. destruct (dfind d k) as [[]|] eqn:E; simpl; try done.
    pose proof (dict_wf_find _ _ _ Hd E) as Hs. specialize (IH d0 Hv Hs).
    destruct (dict_step d0 o) as [s' x]. simpl in *. by apply dset_wf.
Qed.
Lemma dict_run_wf os : forall d, Forall (fun o => any_wf (op_value o)) os -> dict_wf d -> dict_wf (dict_run d os).
Proof.
  induction os as [|o os IH]; intros d Ho Hd; [done|]. apply Forall_cons in Ho as [? ?].
  apply IH; [done|]. by apply dict_step_wf.
Qed.

(** d.subDict(k1).subDict(k2)...[kn] *)
Fixpoint path_lookup (d : dict) (p : list string) : option any :=
  match p with
  | [] => None
  | [k] => match dict_at d k with Ok v => Some v | _ => None end
  | k :: p' => match dict_subDict d k with Ok s => path_lookup s p' | _ => None end
  end.
Lemma path_lookup_cons d k p : p <> [] ->
  path_lookup d (k :: p) = match dfind d k with Some (ADict s) => path_lookup s p | _ => None end.
Proof.
  destruct p as [|k2 p]; [done|]. intros _. cbn [path_lookup]. unfold dict_subDict, dict_at.
  by destruct (dfind d k) as [[]|].
Qed.
Lemma path_lookup_one d k : path_lookup d [k] = dfind d k.
Proof. simpl. unfold dict_at. by destruct (dfind d k). Qed.

Lemma op_path_nonempty o : op_path o <> [].
Proof. by destruct o. Qed.

Lemma dict_step_other_path o : forall d q, any_wf (op_value o) -> dict_wf d ->
  ~ q `prefix_of` op_path o -> ~ op_path o `prefix_of` q ->
  path_lookup (dict_step d o).1 q = path_lookup d q.
Proof.
  assert (forall d d' k q, (forall k', k' <> k -> dfind d' k' = dfind d k') -> head q <> Some k ->
          path_lookup d' q = path_lookup d q) as Hother.
  { intros d d' k q Hd Hq. destruct q as [|k1 [|k2 q]]; [done| |].
    - rewrite !path_lookup_one. apply Hd. intros ->. done.
    - rewrite !path_lookup_cons by done. rewrite Hd; [done|]. intros ->. done. }
  intros d q Hv Hd Hq Hp. revert d q Hd Hq Hp.
  induction o as [k v|k|k t v|k v|k o IH]; intros d q Hd Hq Hp;
    pose proof (proj1 (dict_wf_iff d) Hd) as [Hok _]; simpl in Hv.
  1-4: (eapply (Hother _ _ k); [intros k' Hk'; by apply dict_step_other|];
        intros Hh; destruct q as [|k1 q]; [done|]; injection Hh as ->; apply Hp; exists q; done).
  destruct q as [|k1 q]; [destruct Hq; apply prefix_nil|].
  destruct (decide (k1 = k)) as [->|Hne].
  2: { eapply (Hother _ _ k); [intros k' Hk'; by apply dict_step_other|]. intros [= ->]. done. }
  simpl in Hq, Hp.
  assert (q <> []) as Hne.
  { intros ->. apply Hq. apply prefix_cons. apply prefix_nil. }
  rewrite !path_lookup_cons by done.
  pose proof (dict_step_key d (DSub k o) Hok) as Hk. apply (f_equal fst) in Hk. cbn [fst key_of] in Hk.
  rewrite Hk. simpl. destruct (dfind d k) as [a|] eqn:E; [|done]. destruct a; try done. simpl.
  apply IH; [done| | |].
  - by apply (dict_wf_find _ _ _ Hd E).
  - intros H. apply Hq. by apply prefix_cons.
  - intros H. apply Hp. by apply prefix_cons.
Qed.

(** ... and at its own path the call acts as [spec_key] says. *)
Fixpoint op_leaf (o : dop) : dop := match o with DSub _ o' => op_leaf o' | _ => o end.
(** All the sub-dictionaries on the way exist. *)
Fixpoint path_open (d : dict) (o : dop) : Prop :=
  match o with
  | DSub k o' => exists s, dict_subDict d k = Ok s /\ path_open s o'
  | _ => True
  end.
Lemma dict_step_path o : forall d, dict_wf d -> path_open d o ->
  (path_lookup (dict_step d o).1 (op_path o), (dict_step d o).2)
  = spec_key (path_lookup d (op_path o)) (op_leaf o).
Proof.
  induction o as [k v|k|k t v|k v|k o IH]; intros d Hd Hopen;
    pose proof (proj1 (dict_wf_iff d) Hd) as [Hok _]; cbn [op_path op_leaf].
  - rewrite !path_lookup_one; apply (dict_step_key d (DInsert k v) Hok).
  - rewrite !path_lookup_one; apply (dict_step_key d (DRemove k) Hok).
  - rewrite !path_lookup_one; apply (dict_step_key d (DAssign k t v) Hok).
  - rewrite !path_lookup_one; apply (dict_step_key d (DAssignAny k v) Hok).
  -
  rewrite !path_lookup_cons by apply op_path_nonempty.
  destruct Hopen as (s & Hs & Hopen).
  pose proof (dict_step_key d (DSub k o) Hok) as Hk.
  pose proof (f_equal fst Hk) as Hk1. pose proof (f_equal snd Hk) as Hk2. cbn [fst snd key_of] in Hk1, Hk2.
  rewrite Hk1, Hk2. unfold dict_subDict, dict_at in Hs.
  destruct (dfind d k) as [[]|] eqn:E; simpl in Hs; try done. injection Hs as ->. simpl.
  apply IH; [|done]. by apply (dict_wf_find _ _ _ Hd E).
Qed.
Lemma dset_same d k v : dfind d k = Some v -> dset d k v = d.
Proof.
  induction d as [|[a b] d IH]; simpl; [done|]. destruct (decide (k = a)) as [->|].
  - by intros [= ->].
  - intros H. by rewrite IH.
Qed.
(** A call that throws changes nothing. *)
Lemma dict_step_throw o : forall d e, (dict_step d o).2 = Some e -> (dict_step d o).1 = d.
Proof.
  induction o as [k v|k|k t v|k v|k o IH]; intros d e; simpl; try done.
  - by destruct (dict_get t d k).
  - by destruct (dict_at d k).
  - unfold dict_subDict, dict_at. destruct (dfind d k) as [[]|] eqn:E; simpl; try done.
    specialize (IH d0). destruct (dict_step d0 o) as [s' x]. simpl in *. intros ->.
    rewrite (IH e) by done. by apply dset_same.
Qed.
(** Without the sub-dictionaries on the way it throws. *)
Lemma dict_step_closed o : forall d, ~ path_open d o -> exists e, (dict_step d o).2 = Some e.
Proof.
  induction o as [k v|k|k t v|k v|k o IH]; intros d Hopen; cbn [path_open] in Hopen; try (by destruct Hopen).
  cbn [dict_step]. unfold dict_subDict, dict_at in *. destruct (dfind d k) as [[]|] eqn:E; simpl; eauto.
  destruct (IH d0) as [e He]; [intros H; apply Hopen; eexists; done|].
  destruct (dict_step d0 o) as [s' x]. simpl in *. eauto.
Qed.

(** ** Reference: a finite map from strings to values, with the documented effect
    of each call. *)
Notation ref_map := (gmap string any).
Definition ref_init (l : list (string * any)) : ref_map := list_to_map l.
Definition ref_step (m : ref_map) (o : dop) : ref_map :=
  match o with
  | DInsert k v => <[k := v]> m
  | DRemove k => delete k m
  | DAssign k t v =>
      match m !! k with
      | Some a => if decide (type_of a = Some t) then <[k := v]> m else m
      | None => m
      end
  | DAssignAny k v => match m !! k with Some _ => <[k := v]> m | None => m end
  | DSub k o' =>
      match m !! k with
      | Some (ADict s) => <[k := ADict (dict_step s o').1]> m
      | _ => m
      end
  end.

Definition agrees (d : dict) (m : ref_map) : Prop := dict_ok d /\ forall k, dfind d k = m !! k.

Lemma ref_init_agrees l : agrees (dict_init l) (ref_init l).
Proof.
  split; [apply dict_init_ok|]. intros k. rewrite dict_init_find. unfold ref_init.
  induction l as [|[a b] l IH]; [symmetry; apply (lookup_empty (M:=gmap string))|]. simpl.
  destruct (decide (k = a)) as [->|]; [by rewrite lookup_insert|]. by rewrite lookup_insert_ne by done.
Qed.
Lemma ref_step_agrees d m o : agrees d m -> agrees (dict_step d o).1 (ref_step m o).
Proof.
  intros [Hok Hm]. split; [by apply dict_step_ok|]. intros k.
  assert (dfind (dict_step d o).1 k
          = if decide (k = key_of o) then (spec_key (m !! k) o).1 else m !! k) as ->.
  { destruct (decide (k = key_of o)) as [->|Hne].
    - rewrite <- Hm. by rewrite <- dict_step_key.
    - rewrite <- Hm. by apply dict_step_other. }
  destruct o as [k0 v0|k0|k0 t0 v0|k0 v0|k0 o0]; simpl; (destruct (decide (k = k0)) as [->|Hne]);
  repeat match goal with
       | |- context [m !! ?x] => destruct (m !! x) as [[]|] eqn:?; simpl
       | |- context [decide ?P] => destruct (decide P); simpl
       end.
  all: first [done | congruence | by rewrite lookup_insert | by rewrite lookup_insert_ne by done
             | by rewrite lookup_delete | by rewrite lookup_delete_ne by done | idtac].
Qed.
Lemma ref_run_agrees os : forall d m, agrees d m -> agrees (dict_run d os) (foldl ref_step m os).
Proof.
  induction os as [|o os IH]; intros d m H; [done|]. simpl. apply IH. by apply ref_step_agrees.
Qed.

Lemma dict_history l os : exists m : ref_map, m = foldl ref_step (ref_init l) os /\
  let d := dict_run (dict_init l) os in
  NoDup (dict_keys d) /\ (forall k, k ∈ dict_keys d <-> is_Some (m !! k)) /\
  (dict_empty d = true <-> m = ∅) /\
  forall k, (dict_contains d k = true <-> is_Some (m !! k)) /\
    dict_at d k = match m !! k with Some a => Ok a | None => Throw OutOfRange end /\
    (forall t, dict_get t d k = match m !! k with
                                | None => Throw OutOfRange
                                | Some a => if decide (type_of a = Some t) then Ok a else Throw BadAnyCast
                                end) /\
    dict_subDict d k = match m !! k with
                       | None => Throw OutOfRange
                       | Some (ADict s) => Ok s
                       | Some _ => Throw BadAnyCast
                       end /\
    (dict_isDict d k = true <-> exists s, m !! k = Some (ADict s)).
Proof.
  eexists. split; [done|]. set (m := foldl ref_step (ref_init l) os).
  destruct (ref_run_agrees os _ _ (ref_init_agrees l)) as [Hok Hm]. fold m in Hm.
  set (d := dict_run (dict_init l) os) in *. cbn zeta. clearbody d m.
  split; [exact Hok|]. split.
  { intros k. destruct (dict_queries d k TString Hok) as (_ & H & _). by rewrite H, Hm. }
  split.
  { split.
    - destruct d as [|[a b] d]; [|done]. intros _. apply map_eq. intros k. rewrite lookup_empty. by rewrite <- Hm.
    - intros ->. destruct d as [|[a b] d]; [done|]. specialize (Hm a). simpl in Hm.
      rewrite decide_True in Hm by done. by rewrite lookup_empty in Hm. }
  intros k. destruct (dict_queries d k TString Hok) as (Hc & _ & _ & _ & _ & _).
  split; [by rewrite Hc, Hm|]. unfold dict_get, dict_subDict, dict_isDict, dict_at. rewrite Hm.
  split; [by destruct (m !! k)|]. split; [intros t; by destruct (m !! k)|].
  split; [by destruct (m !! k) as [[]|]|].
  destruct (m !! k) as [[]|]; split; try done; try (intros [? ?]; done). eauto.
Qed.

Lemma dict_step_exception l os o :
  let m := foldl ref_step (ref_init l) os in
  let d := dict_run (dict_init l) os in
  (dict_step d o).2 = (spec_key (m !! key_of o) o).2 /\
  ((dict_step d o).2 <> None -> (dict_step d o).1 = d).
Proof.
  intros m d. destruct (ref_run_agrees os _ _ (ref_init_agrees l)) as [Hok Hm]. fold m d in Hok, Hm.
  split.
  - rewrite <- Hm. by rewrite <- dict_step_key.
  - destruct (dict_step d o).2 as [e|] eqn:E; [|done]. intros _. by eapply dict_step_throw.
Qed.
