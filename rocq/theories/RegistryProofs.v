From Verif Require Import Base Dict DictProofs Registry.

(** ** Factory *)
(** The classes registered in factory [b] under [key], in order. *)
Definition registrations (rs : list reg) (b : nat) (key : string) : list nat :=
  omap (fun r => match r with
                 | RegSub b' k c => if decide (b' = b /\ k = key) then Some c else None
                 | RegBase _ _ => None
                 end) rs.

Lemma get_do_reg w r b key :
  f_table (get_factory (do_reg w r) b) !! key
  = match r with
    | RegSub b' k c => if decide (b' = b /\ k = key) then Some c else f_table (get_factory w b) !! key
    | _ => f_table (get_factory w b) !! key
    end /\
  f_docs (get_factory (do_reg w r) b) !! key
  = match r with
    | RegSub b' k c => if decide (b' = b /\ k = key) then Some c else f_docs (get_factory w b) !! key
    | _ => f_docs (get_factory w b) !! key
    end.
Proof.
  destruct r as [b' n|b' k c]; [done|]. unfold get_factory at 1 3. simpl.
  destruct (decide (b' = b)) as [->|Hb].
  - rewrite lookup_insert. simpl. destruct (decide (k = key)) as [->|Hk].
    + rewrite !lookup_insert. split; by rewrite decide_True.
    + rewrite !lookup_insert_ne by done. by split; (rewrite decide_False; [done|]; intros [_ ?]).
  - rewrite lookup_insert_ne by done. by split; (rewrite decide_False; [done|]; intros [? _]).
Qed.

Lemma omap_snoc {A B} (f : A -> option B) l x :
  omap f (l ++ [x]) = omap f l ++ match f x with Some y => [y] | None => [] end.
Proof. rewrite omap_app. simpl. by destruct (f x). Qed.

Lemma run_regs_snoc rs r : run_regs (rs ++ [r]) = do_reg (run_regs rs) r.
Proof. unfold run_regs. by rewrite foldl_app. Qed.

Lemma table_registrations rs b key :
  f_table (get_factory (run_regs rs) b) !! key = last (registrations rs b key) /\
  f_docs (get_factory (run_regs rs) b) !! key = last (registrations rs b key).
Proof.
  induction rs as [|r rs IH] using rev_ind.
  - unfold run_regs, get_factory. simpl. rewrite lookup_empty. simpl. by rewrite !lookup_empty.
  - rewrite run_regs_snoc. destruct (get_do_reg (run_regs rs) r b key) as [-> ->].
    unfold registrations. rewrite omap_snoc. fold (registrations rs b key).
    destruct r as [b' n|b' k c]; [by rewrite app_nil_r|].
    destruct (decide (b' = b /\ k = key)); [by rewrite last_snoc|by rewrite app_nil_r].
Qed.

Lemma create_spec rs b key :
  create (run_regs rs) b key
  = match last (registrations rs b key) with Some c => Ok c | None => Exit end.
Proof. unfold create. by rewrite (proj1 (table_registrations rs b key)). Qed.

Lemma derived_doc_spec rs b key :
  derived_doc (run_regs rs) b key
  = match last (registrations rs b key) with Some c => Ok c | None => Throw OutOfRange end.
Proof. unfold derived_doc. by rewrite (proj2 (table_registrations rs b key)). Qed.

Lemma last_is_Some {A} (l : list A) : is_Some (last l) <-> l <> [].
Proof.
  destruct l as [|x l]; [simpl; split; [intros [? ?]; done|done]|].
  destruct (last_is_Some (x :: l)) as [_ H]. split; [done|]. intros H'. by apply H.
Qed.

Lemma registrations_nonempty rs b key :
  registrations rs b key <> [] <-> exists c, RegSub b key c ∈ rs.
Proof.
  unfold registrations. induction rs as [|r rs IH].
  - simpl. split; [done|]. intros [c Hc]. by apply elem_of_nil in Hc.
  - simpl. destruct r as [b' n|b' k c].
    + rewrite IH. split; intros [c Hc]; exists c; [by right|].
      apply elem_of_cons in Hc as [Hc|Hc]; [done|done].
    + destruct (decide (b' = b /\ k = key)) as [[-> ->]|Hn].
      * split; [|done]. intros _. exists c. left.
      * rewrite IH. split; intros [c' Hc]; exists c'; [by right|].
        apply elem_of_cons in Hc as [Hc|Hc]; [|done]. injection Hc as -> -> ->. tauto.
Qed.

Lemma entries_spec rs b :
  NoDup (entries (run_regs rs) b) /\
  forall key, key ∈ entries (run_regs rs) b <-> exists c, RegSub b key c ∈ rs.
Proof.
  unfold entries. split; [apply NoDup_fst_map_to_list|].
  intros key. rewrite <- registrations_nonempty, <- last_is_Some.
  rewrite <- (proj1 (table_registrations rs b key)).
  split.
  - intros Hin. apply elem_of_list_fmap in Hin as ([k v] & -> & Hin).
    apply elem_of_map_to_list in Hin. eauto.
  - intros [v Hv]. apply elem_of_list_fmap. exists (key, v). split; [done|].
    by apply elem_of_map_to_list.
Qed.

Definition reg_factory (r : reg) : nat := match r with RegBase b _ | RegSub b _ _ => b end.

Lemma other_factory rs r b key :
  reg_factory r <> b ->
  create (run_regs (rs ++ [r])) b key = create (run_regs rs) b key /\
  derived_doc (run_regs (rs ++ [r])) b key = derived_doc (run_regs rs) b key /\
  entries (run_regs (rs ++ [r])) b = entries (run_regs rs) b.
Proof.
  intros Hb. rewrite run_regs_snoc.
  assert (get_factory (do_reg (run_regs rs) r) b = get_factory (run_regs rs) b) as Heq.
  { destruct r as [b' n|b' k c]; [done|]. unfold get_factory at 1. simpl in *.
    by rewrite lookup_insert_ne by done. }
  unfold create, derived_doc, entries. by rewrite Heq.
Qed.

Lemma baseDocs_lookup rs base b :
  RegBase b base ∈ rs -> (forall b', RegBase b' base ∈ rs -> b' = b) ->
  w_baseDocs (run_regs rs) !! base = Some b.
Proof.
  induction rs as [|r rs IH] using rev_ind; intros Hin Hu; [by apply elem_of_nil in Hin|].
  rewrite run_regs_snoc. destruct r as [b' n|b' k c]; simpl.
  - destruct (decide (n = base)) as [->|Hn].
    + rewrite lookup_insert. f_equal. apply Hu. apply elem_of_app. right. left.
    + rewrite lookup_insert_ne by done. apply IH.
      * apply elem_of_app in Hin as [Hin|Hin]; [done|].
        apply elem_of_list_singleton in Hin. congruence.
      * intros b'' Hb. apply Hu. apply elem_of_app. by left.
  - apply IH.
    + apply elem_of_app in Hin as [Hin|Hin]; [done|]. apply elem_of_list_singleton in Hin. congruence.
    + intros b'' Hb. apply Hu. apply elem_of_app. by left.
Qed.

(** ** Schemes *)
Lemma input_key_tokens entry l n :
  input_key entry (ITokens (TokenList l n))
  = match l !! n with
    | None => (Throw OutOfRange, ITokens (TokenList l n))
    | Some (AString s) => (Ok s, ITokens (TokenList l (n + 1)))
    | Some _ => (Throw BadAnyCast, ITokens (TokenList l n))
    end.
Proof.
  unfold input_key, tl_next_tok, tl_get, any_cast. simpl.
  destruct (l !! n) as [[]|]; simpl; done.
Qed.

Lemma create_div_tokens l n a b :
  (create_div (ITokens (TokenList l n))).1 = Ok (a, b) <->
  l !! n = Some (AString a) /\ l !! (n + 1) = Some (AString b) /\
  a ∈ known_operator /\ b ∈ known_interpolation.
Proof.
  unfold create_div. rewrite input_key_tokens.
  destruct (l !! n) as [[| s | | | | | | | |]|] eqn:E; simpl; try (split; [done|intros [? _]; congruence]).
  destruct (decide (s ∈ known_operator)) as [Hs|Hs]; simpl.
  - unfold build_interpolation. rewrite input_key_tokens.
    destruct (l !! (n + 1)) as [[| s2 | | | | | | | |]|] eqn:E2; simpl;
      try (split; [done|intros (_ & ? & _); congruence]).
    destruct (decide (s2 ∈ known_interpolation)) as [Hs2|Hs2]; simpl.
    + split; [intros [= <- <-]; done|]. intros (? & ? & _). congruence.
    + split; [done|]. intros (? & ? & _ & ?). congruence.
  - split; [done|]. intros (? & ? & ? & ?). congruence.
Qed.

Lemma create_laplacian_tokens l n a b c :
  (create_laplacian (ITokens (TokenList l n))).1 = Ok (a, b, c) <->
  l !! n = Some (AString a) /\ l !! (n + 1) = Some (AString b) /\ l !! (n + 2) = Some (AString c) /\
  a ∈ known_operator /\ b ∈ known_interpolation /\ c ∈ known_gradient.
Proof.
  unfold create_laplacian. rewrite input_key_tokens.
  destruct (l !! n) as [[| s | | | | | | | |]|] eqn:E; simpl; try (split; [done|intros [? _]; congruence]).
  destruct (decide (s ∈ known_operator)) as [Hs|Hs]; simpl.
  2: { split; [done|]. intros (? & ? & ? & ? & ?). congruence. }
  unfold build_interpolation. rewrite input_key_tokens.
  destruct (l !! (n + 1)) as [[| s2 | | | | | | | |]|] eqn:E2; simpl;
      try (split; [done|intros (_ & ? & _); congruence]).
  destruct (decide (s2 ∈ known_interpolation)) as [Hs2|Hs2]; simpl.
  2: { split; [done|]. intros (? & ? & ? & ? & ? & ?). congruence. }
  unfold build_gradient. rewrite input_key_tokens. replace (n + 1 + 1) with (n + 2) by lia.
  destruct (l !! (n + 2)) as [[| s3 | | | | | | | |]|] eqn:E3; simpl;
      try (split; [done|intros (_ & _ & ? & _); congruence]).
  destruct (decide (s3 ∈ known_gradient)) as [Hs3|Hs3]; simpl.
  - split; [intros [= <- <- <-]; done|]. intros (? & ? & ? & _). congruence.
  - split; [done|]. intros (? & ? & ? & ? & ? & ?). congruence.
Qed.

(** The tokens a scheme entry of the dictionary denotes. *)
Definition scheme_entry (d : dict) (section scheme : string) (l : list any) (n : nat) : Prop :=
  exists s, dfind d section = Some (ADict s) /\ dfind s scheme = Some (ATokens l n).

Lemma scheme_tokens_spec d section scheme l n :
  scheme_tokens d section scheme = Ok (TokenList l n) <-> scheme_entry d section scheme l n.
Proof.
  unfold scheme_tokens, scheme_entry, dict_subDict, dict_get, dict_at, any_cast.
  destruct (dfind d section) as [[| | | | | s | | | |]|] eqn:E; simpl;
    try (split; [done|intros (? & ? & _); congruence]).
  destruct (dfind s scheme) as [[| | | | | | l' n'| | |]|] eqn:E2; simpl;
    try (split; [done|intros (? & ? & ?); congruence]).
  split.
  - intros [= -> ->]. eauto.
  - intros (? & ? & ?). congruence.
Qed.

Lemma scheme_tokens_never_ub d section scheme :
  scheme_tokens d section scheme <> UB /\ scheme_tokens d section scheme <> Exit.
Proof.
  unfold scheme_tokens, dict_subDict, dict_get, dict_at, any_cast.
  destruct (dfind d section) as [[| | | | | s | | | |]|] eqn:E; simpl; try done.
  destruct (dfind s scheme) as [[| | | | | | l' n'| | |]|] eqn:E2; simpl; done.
Qed.

(** ** StencilDataBase *)
Lemma sd_insert_lookup db k v k' :
  sd_insert db k v !! k' = match db !! k' with
                           | Some x => Some x
                           | None => if decide (k' = k) then Some v else None end.
Proof.
  unfold sd_insert. destruct (db !! k) eqn:E.
  - destruct (db !! k') eqn:E'; [done|]. destruct (decide (k' = k)); congruence.
  - destruct (decide (k' = k)) as [->|].
    + by rewrite lookup_insert, E.
    + rewrite lookup_insert_ne by done. by destruct (db !! k').
Qed.

Lemma readOrCreate_lookup t k w k' :
  sd_db (readOrCreate t k w).2 !! k'
  = match sd_db w !! k' with
    | Some x => Some x
    | None => if decide (k' = k) then Some (t, sd_next w) else None end.
Proof.
  unfold readOrCreate, sd_contains. simpl. destruct (sd_db w !! k) eqn:E.
  - destruct (sd_db w !! k') eqn:E'; [done|]. destruct (decide (k' = k)); congruence.
  - apply sd_insert_lookup.
Qed.

Lemma sd_step_mono w o k v : sd_db w !! k = Some v -> sd_db (sd_step w o) !! k = Some v.
Proof.
  intros Hk. destruct o; cbn [sd_step sd_db].
  - by rewrite sd_insert_lookup, Hk.
  - unfold geometryScheme_readOrCreate. by rewrite readOrCreate_lookup, Hk.
  - unfold sparsityPattern_readOrCreate. by rewrite readOrCreate_lookup, Hk.
Qed.
Lemma sd_run_mono os : forall w k v, sd_db w !! k = Some v -> sd_db (sd_run w os) !! k = Some v.
Proof.
  induction os as [|o os IH]; intros w k v Hk; [done|]. simpl. apply IH. by apply sd_step_mono.
Qed.

Lemma readOrCreate_result t k w :
  (readOrCreate t k w).1 = match sd_db w !! k with
                           | None => Ok (sd_next w)
                           | Some (t', o) => if decide (t' = t) then Ok o else Throw BadAnyCast
                           end /\
  sd_next (readOrCreate t k w).2 = match sd_db w !! k with None => S (sd_next w) | Some _ => sd_next w end.
Proof.
  unfold readOrCreate, sd_contains, sd_get. simpl. destruct (sd_db w !! k) as [[t' o]|] eqn:E.
  - simpl. by rewrite E.
  - simpl. rewrite sd_insert_lookup, E, decide_True by done. by rewrite decide_True.
Qed.

(** Once a request succeeded, every later request after any history returns the
    same object and constructs nothing. *)
Lemma readOrCreate_stable t k w obj os :
  (readOrCreate t k w).1 = Ok obj ->
  let w' := sd_run (readOrCreate t k w).2 os in
  (readOrCreate t k w').1 = Ok obj /\ (readOrCreate t k w').2 = w'.
Proof.
  intros Hr w'.
  assert (sd_db (readOrCreate t k w).2 !! k = Some (t, obj)) as Hl.
  { rewrite readOrCreate_lookup. destruct (readOrCreate_result t k w) as [Hr' _].
    rewrite Hr in Hr'. destruct (sd_db w !! k) as [[t' o]|] eqn:E.
    - destruct (decide (t' = t)); congruence.
    - rewrite decide_True by done. congruence. }
  pose proof (sd_run_mono os _ _ _ Hl) as Hl'. fold w' in Hl'.
  destruct (readOrCreate_result t k w') as [Hr' _]. rewrite Hl', decide_True in Hr' by done.
  split; [done|]. unfold readOrCreate, sd_contains. simpl. by rewrite Hl'.
Qed.

Lemma built_once os :
  Forall (fun o => match o with SInsert _ _ => False | _ => True end) os ->
  sd_next (sd_run (StencilWorld ∅ 0) os)
  = (if decide (SGeometry ∈ os) then 1 else 0) + (if decide (SSparsity ∈ os) then 1 else 0).
Proof.
  intros Hf. set (w := sd_run (StencilWorld ∅ 0) os).
  cut ((is_Some (sd_db w !! "GeometryScheme") <-> SGeometry ∈ os) /\
       (is_Some (sd_db w !! "SparsityPattern") <-> SSparsity ∈ os) /\
       sd_next w = (if decide (SGeometry ∈ os) then 1 else 0) + (if decide (SSparsity ∈ os) then 1 else 0)).
  { by intros (_ & _ & ?). }
  unfold w. clear w. induction os as [|o os IH] using rev_ind.
  - simpl. rewrite !lookup_empty. split; [|split; [|done]].
    all: split; [intros [? ?]; done|intros Hi; by apply elem_of_nil in Hi].
  - apply Forall_app in Hf as [Hf Ho]. apply Forall_cons in Ho as [Ho _].
    destruct (IH Hf) as (Hg & Hs & Hn). clear IH. unfold sd_run in *. rewrite foldl_app. cbn [foldl].
    set (w := foldl sd_step _ os) in *. clearbody w.
    assert (forall x y : sop, x ∈ os ++ [y] <-> x ∈ os \/ x = y) as Hx.
    { intros x y. by rewrite elem_of_app, elem_of_list_singleton. }
    destruct o; [done| |]; cbn [sd_step]; unfold geometryScheme_readOrCreate, sparsityPattern_readOrCreate.
    + rewrite !readOrCreate_lookup. destruct (readOrCreate_result geometryTy "GeometryScheme" w) as [_ ->].
      rewrite decide_True by done. rewrite decide_False by done.
      split; [rewrite Hx; destruct (sd_db w !! "GeometryScheme"); split; eauto|].
      split.
      { rewrite Hx. assert (forall A (o : option A), match o with Some x => Some x | None => None end = o) as -> by (by intros ? []).
        rewrite Hs. split; [by left|intros [?|?]; done]. }
      rewrite Hn. destruct (sd_db w !! "GeometryScheme") eqn:E.
      * assert (SGeometry ∈ os) by (apply Hg; eauto). 
        rewrite !(decide_True (P:=SGeometry ∈ _)) by (rewrite ?Hx; tauto).
        destruct (decide (SSparsity ∈ os)).
        -- rewrite decide_True by (rewrite Hx; tauto). done.
        -- rewrite decide_False; [done|]. rewrite Hx. intros [?|?]; done.
      * assert (SGeometry ∉ os) by (rewrite <- Hg; by intros [? ?]).
        rewrite (decide_False (P:=SGeometry ∈ os)) by done.
        rewrite (decide_True (P:=SGeometry ∈ _)) by (rewrite Hx; tauto).
        destruct (decide (SSparsity ∈ os)).
        -- rewrite decide_True by (rewrite Hx; tauto). done.
        -- rewrite decide_False; [done|]. rewrite Hx. intros [?|?]; done.
    + rewrite !readOrCreate_lookup. destruct (readOrCreate_result sparsityTy "SparsityPattern" w) as [_ ->].
      rewrite decide_False by done. rewrite decide_True by done.
      split.
      { rewrite Hx. assert (forall A (o : option A), match o with Some x => Some x | None => None end = o) as -> by (by intros ? []).
        rewrite Hg. split; [by left|intros [?|?]; done]. }
      split; [rewrite Hx; destruct (sd_db w !! "SparsityPattern"); split; eauto|].
      rewrite Hn. destruct (sd_db w !! "SparsityPattern") eqn:E.
      * assert (SSparsity ∈ os) by (apply Hs; eauto). 
        rewrite !(decide_True (P:=SSparsity ∈ _)) by (rewrite ?Hx; tauto).
        destruct (decide (SGeometry ∈ os)).
        -- rewrite decide_True by (rewrite Hx; tauto). done.
        -- rewrite decide_False; [done|]. rewrite Hx. intros [?|?]; done.
      * assert (SSparsity ∉ os) by (rewrite <- Hs; by intros [? ?]).
        rewrite (decide_False (P:=SSparsity ∈ os)) by done.
        rewrite (decide_True (P:=SSparsity ∈ _)) by (rewrite Hx; tauto).
        destruct (decide (SGeometry ∈ os)).
        -- rewrite decide_True by (rewrite Hx; tauto). lia.
        -- rewrite decide_False; [done|]. rewrite Hx. intros [?|?]; done.
Qed.
