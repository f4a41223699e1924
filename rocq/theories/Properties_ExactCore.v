(** C57, C60-C66: the properties that do not hold in general, and exactly when
    they hold or what happens instead. *)
From stdpp Require Export gmap fin_maps pretty.
From Verif Require Import Base Dict DictProofs Registry RegistryProofs Database DatabaseProofs Properties_Core Properties_Database
  Par Exec Fields FieldsProofs Misc MiscProofs Properties_Fields.

(** * C57: a range ending at 0 means "to the end of the field", for every start. *)
Theorem C57_end_zero_means_end : forall (a a' : Fields.field Qc) v (f : nat -> Qc) (b : list Qc) s o,
  s <= fsize a -> fsize a <= length b ->
  (fill a v (s, 0) a' o -> o = Ok tt /\ fsize a' = fsize a /\ forall i, fdata a' !! i = if decide (s <= i < fsize a) then Some v else fdata a !! i) /\
  (map_field a f (s, 0) a' o -> o = Ok tt /\ fsize a' = fsize a /\ forall i, fdata a' !! i = if decide (s <= i < fsize a) then Some (f i) else fdata a !! i) /\
  (setField a b (s, 0) a' o -> o = Ok tt /\ fsize a' = fsize a /\ forall i, fdata a' !! i = if decide (s <= i < fsize a) then b !! i else fdata a !! i).
Proof.
  intros a a' v f b s o Hs Hb.
  assert (E : eff_end 0 (fsize a) = eff_end (fsize a) (fsize a)) by (unfold eff_end; simpl; by destruct (fsize a)).
  unfold fill, map_field, setField. cbn [fst snd]. rewrite E. clear E.
  assert (E : eff_end (fsize a) (fsize a) = fsize a) by (unfold eff_end; by destruct (Nat.eqb_spec (fsize a) 0)). rewrite E.
  split; [|split]; intros H; apply set_range in H as (A & B & C & D); try done; try lia; eauto.
  intros i H1 H2. apply lookup_lt_is_Some. lia.
Qed.
Print Assumptions C57_end_zero_means_end.

Example C57_instance : let a := Fields.mkField CPUExecutor [0%Qc; 0%Qc] in
  1 <= fsize a /\ fsize a <= length [Q2Qc 7; Q2Qc 8] /\
  fill a (Q2Qc 3) (1, 0) (Fields.mkField CPUExecutor [0%Qc; Q2Qc 3]) (Ok tt) /\
  setField a [Q2Qc 7; Q2Qc 8] (1, 0) (Fields.mkField CPUExecutor [0%Qc; Q2Qc 8]) (Ok tt).
Proof.
  cbv zeta. split; [unfold fsize; simpl; lia|]. split; [unfold fsize; simpl; lia|]. split.
  - exists (Some [0%Qc; Q2Qc 3]). split; [|done]. exists [0; 0], [(None, [])]. split; [reflexivity|]. repeat constructor.
  - exists (Some [0%Qc; Q2Qc 8]). split; [|done]. exists [0; 0], [(None, [])]. split; [reflexivity|]. repeat constructor.
Qed.

(** * C60: an unreported out-of-range access is an access with index 0 to an empty
    view. *)
Theorem C60_reports_exactly : forall size idxs fi, view_accesses false size 0 idxs = Ok fi ->
  (fi = 0 <-> forall i, i ∈ idxs -> i < size \/ (size = 0 /\ i = 0)).
Proof.
  intros size idxs. induction idxs as [|i idxs IH]; intros fi H; simpl in H.
  - injection H as <-. split; [|done]. intros _ i Hi. by apply elem_of_nil in Hi.
  - unfold view_access in H. destruct (Nat.leb_spec size i) as [Hle|Hlt]; simpl in H.
    + destruct i as [|i].
      * rewrite (IH fi H). split.
        -- intros HH j [->|Hj]%elem_of_cons; [right; lia|by apply HH].
        -- intros HH j Hj. apply HH. by right.
      * assert (fi = S i) as ->.
        { clear IH. revert H. induction idxs as [|j idxs IH]; simpl; [congruence|]. unfold view_access. destruct (Nat.leb size j); simpl; done. }
        split; [done|]. intros HH. destruct (HH (S i)) as [|[]]; [left|lia|lia].
    + rewrite (IH fi H). split.
      * intros HH j [->|Hj]%elem_of_cons; [by left|by apply HH].
      * intros HH j Hj. apply HH. by right.
Qed.
Print Assumptions C60_reports_exactly.

Example C60_instance : view_accesses false 0 0 [0; 0] = Ok 0 /\ view_accesses false 0 0 [0; 4] = Ok 4 /\ view_accesses false 2 0 [0; 1] = Ok 0.
Proof. split; [reflexivity|]. split; reflexivity. Qed.

(** * C61: what next() delivers after any history with removals from the front:
    the token whose number is the number of successful next() plus the number of
    successful popFront() calls before it; so every popFront after the first
    next() hides one token. *)
Definition popped (os : list top) (rs : list (outcome (option any))) : nat :=
  length (omap (fun '(o, r) => match o, r with TPopFront _, Ok (Some v) => Some v | _, _ => None end) (zip os rs)).
Theorem C61_next_after_removal : forall l os, let rs := (tl_run (tl_of_list l) os).1 in let t := (tl_run (tl_of_list l) os).2 in
  forall T v, (tl_next_tok T t).1 = Ok v <->
    (l ++ inserted os) !! (popped os rs + length (delivered os rs)) = Some v /\ type_of v = Some T.
Proof.
  assert (H : forall os t k l0, tl_data t = drop k l0 -> k <= length l0 ->
    let rs := (tl_run t os).1 in let t' := (tl_run t os).2 in
    tl_data t' = drop (k + popped os rs) (l0 ++ inserted os) /\ tl_next t' = tl_next t + length (delivered os rs) /\ k + popped os rs <= length (l0 ++ inserted os)).
  { induction os as [|o os IH]; intros t k l0 Ht Hk; cbn zeta.
    - simpl. unfold popped. simpl. rewrite app_nil_r, !Nat.add_0_r. done.
    - cbn [tl_run]. destruct (tl_step t o) as [r t1] eqn:Es. destruct (tl_run t1 os) as [rs t2] eqn:Er. cbn [fst snd].
      rewrite delivered_cons, inserted_cons.
      destruct o as [v|T|T|T i]; simpl in Es.
      + injection Es as <- <-. destruct (IH (tl_insert t v) k (l0 ++ [v])) as (A & B & C).
        { cbn. rewrite Ht. by rewrite drop_app_le by lia. }
        { rewrite app_length. lia. }
        rewrite Er in A, B, C. cbn [fst snd tl_insert tl_next] in *. rewrite <- app_assoc in A, C. done.
      + destruct (tl_next_cases T t) as [(v & Hv & Hty & Hstep)|[(v & Hv & Hty & Hstep)|(Hv & Hstep)]]; rewrite Hstep in Es; simpl in Es; injection Es as <- <-.
        * destruct (IH (TokenList (tl_data t) (tl_next t + 1)) k l0 Ht Hk) as (A & B & C). rewrite Er in A, B, C. cbn in A, B, C.
          split; [done|]. split; [cbn [length]; lia|done].
        * destruct (IH t k l0 Ht Hk) as (A & B & C). rewrite Er in A, B, C. done.
        * destruct (IH t k l0 Ht Hk) as (A & B & C). rewrite Er in A, B, C. done.
      + unfold tl_popFront, tl_get in Es. destruct (tl_data t !! 0) as [v|] eqn:E0.
        * assert (Hk2 : k < length l0).
          { destruct (decide (k = length l0)) as [->|]; [|lia]. rewrite Ht, drop_all in E0. done. }
          unfold any_cast in Es. destruct (decide (type_of v = Some T)); simpl in Es; injection Es as <- <-.
          -- destruct (IH (TokenList (drop 1 (tl_data t)) (tl_next t)) (k + 1) l0) as (A & B & C).
             { cbn [tl_data]. rewrite Ht, drop_drop. done. }
             { lia. }
             rewrite Er in A, B, C. cbn [fst snd tl_next] in *.
             assert (Hp : popped (TPopFront T :: os) (Ok (Some v) :: rs) = S (popped os rs)) by done. rewrite Hp.
             replace (k + S (popped os rs)) with (k + 1 + popped os rs) by lia. done.
          -- destruct (IH t k l0 Ht Hk) as (A & B & C). rewrite Er in A, B, C. done.
        * simpl in Es. injection Es as <- <-. destruct (IH t k l0 Ht Hk) as (A & B & C). rewrite Er in A, B, C. done.
      + destruct (tl_get T t i) as [v|e| |]; simpl in Es; injection Es as <- <-;
          (destruct (IH t k l0 Ht Hk) as (A & B & C); rewrite Er in A, B, C; done). }
  intros l os rs t T v. destruct (H os (tl_of_list l) 0 l eq_refl ltac:(lia)) as (A & B & C). fold rs t in A, B, C.
  cbn [tl_of_list tl_next] in B. rewrite !Nat.add_0_l in *.
  assert (E : tl_data t !! tl_next t = (l ++ inserted os) !! (popped os rs + length (delivered os rs))) by (rewrite A, B, lookup_drop; done).
  rewrite <- E. destruct (tl_next_cases T t) as [(w & Hv & Hty & ->)|[(w & Hv & Hty & ->)|(Hv & ->)]]; rewrite Hv; cbn [fst]; split.
  - intros [= <-]. done.
  - intros [[= <-] _]. done.
  - done.
  - intros [[= <-] ?]. done.
  - done.
  - intros [? _]. done.
Qed.
Print Assumptions C61_next_after_removal.
(** In particular: after n next() calls and p > 0 popFront() calls, the p tokens
    following the last one delivered are never delivered. *)
Example C61_instance : let l := [AString "a"; AString "b"; AString "c"; AString "d"] in
  (tl_next_tok TString (tl_run (tl_of_list l) [TNext TString; TPopFront TString]).2).1 = Ok (AString "c").
Proof. reflexivity. Qed.

(** * C62: constructing a scheme directly from a token list reads one token and
    leaves the cursor behind it; the same call again reads the following one. *)
Theorem C62_direct_construction_reads_on : forall l n k a,
  l !! n = Some (AString a) ->
  (build_interpolation (ITokens (TokenList l n))) = (checked known_interpolation (Ok a), ITokens (TokenList l (n + 1))) /\
  (build_gradient (ITokens (TokenList l n))) = (checked known_gradient (Ok a), ITokens (TokenList l (n + 1))) /\
  (forall ns, (forall i, i < k -> exists s, l !! (n + i) = Some (AString s)) -> ns = Nat.iter k (fun i => (build_interpolation i).2) (ITokens (TokenList l n)) ->
     ns = ITokens (TokenList l (n + k))).
Proof.
  assert (H1 : forall l n a, l !! n = Some (AString a) -> build_interpolation (ITokens (TokenList l n)) = (checked known_interpolation (Ok a), ITokens (TokenList l (n + 1))) /\
    build_gradient (ITokens (TokenList l n)) = (checked known_gradient (Ok a), ITokens (TokenList l (n + 1)))).
  { intros l n a E. unfold build_interpolation, build_gradient, input_key, tl_next_tok, tl_get. cbn [tl_data tl_next]. rewrite E. done. }
  intros l n k a E. destruct (H1 l n a E) as [A B]. split; [done|]. split; [done|]. intros ns Hs ->. clear E a A B.
  induction k as [|k IH]; [by rewrite Nat.add_0_r|]. cbn [Nat.iter nat_rect]. change (nat_rect _ ?a ?b k) with (Nat.iter k (fun i => (build_interpolation i).2) (ITokens (TokenList l n))).
  rewrite IH by (intros i Hi; apply Hs; lia). destruct (Hs k ltac:(lia)) as (s & Es). destruct (H1 l (n + k) s Es) as [-> _]. cbn [snd].
  do 2 f_equal. lia.
Qed.
Print Assumptions C62_direct_construction_reads_on.

Example C62_instance : let l := [AString "linear"; AString "upwind"] in
  l !! 0 = Some (AString "linear") /\ (forall i, i < 2 -> exists s, l !! (0 + i) = Some (AString s)) /\
  build_interpolation (ITokens (TokenList l 0)) = (Ok "linear", ITokens (TokenList l 1)) /\
  build_interpolation (ITokens (TokenList l 1)) = (Ok "upwind", ITokens (TokenList l 2)).
Proof.
  cbv zeta. split; [done|]. split; [intros [|[|i]] Hi; [eauto|eauto|lia]|]. split; reflexivity.
Qed.

(** * C63: documentation by base class name is that of the factory registered
    last under the name. *)
Theorem C63_last_factory_wins : forall rs1 b base rs2 key,
  (forall b', RegBase b' base ∉ rs2) ->
  base_doc (run_regs (rs1 ++ [RegBase b base] ++ rs2)) base key = derived_doc (run_regs (rs1 ++ [RegBase b base] ++ rs2)) b key /\
  base_entries (run_regs (rs1 ++ [RegBase b base] ++ rs2)) base = Ok (entries (run_regs (rs1 ++ [RegBase b base] ++ rs2)) b).
Proof.
  intros rs1 b base rs2 key H.
  assert (E : w_baseDocs (run_regs (rs1 ++ [RegBase b base] ++ rs2)) !! base = Some b).
  { induction rs2 as [|r rs2 IH] using rev_ind.
    - rewrite app_nil_r, run_regs_snoc. simpl. by rewrite lookup_insert.
    - rewrite !app_assoc, run_regs_snoc, <- !app_assoc. destruct r as [b' n|b' k c]; simpl.
      + rewrite lookup_insert_ne; [apply IH; intros b'' Hb; apply (H b''), elem_of_app; by left|].
        intros ->. apply (H b'), elem_of_app. right. left.
      + apply IH. intros b'' Hb. apply (H b''), elem_of_app. by left. }
  unfold base_doc, base_entries. rewrite E. done.
Qed.
Print Assumptions C63_last_factory_wins.

Theorem C63_unknown_base : forall rs base key, (forall b, RegBase b base ∉ rs) ->
  base_doc (run_regs rs) base key = Throw OutOfRange /\ base_entries (run_regs rs) base = Throw OutOfRange.
Proof.
  intros rs base key H.
  assert (E : w_baseDocs (run_regs rs) !! base = None).
  { induction rs as [|r rs IH] using rev_ind; [done|]. rewrite run_regs_snoc.
    assert (IH' : w_baseDocs (run_regs rs) !! base = None) by (apply IH; intros b Hb; apply (H b), elem_of_app; by left).
    destruct r as [b' n|b' k c]; simpl; [|done]. rewrite lookup_insert_ne; [done|]. intros ->. apply (H b'), elem_of_app. right. left. }
  unfold base_doc, base_entries. by rewrite E.
Qed.
Print Assumptions C63_unknown_base.
Example C63_instance : let rs := [RegBase 0 "op"; RegSub 0 "Gauss" 5; RegBase 1 "op"; RegSub 1 "Gauss" 6; RegSub 0 "Gauss" 7] in
  base_doc (run_regs rs) "op" "Gauss" = Ok 6.
Proof. vm_compute. reflexivity. Qed.

(** * C64: ids are distinct exactly as long as there are at most 2^32 of them. *)
Theorem C64_distinct_iff : forall ds n ids, Forall (fun d => dict_contains d "id" = false) ds ->
  (fun r => let! d := r in doc_id d) <$> make_documents ds n = Ok <$> ids ->
  (NoDup ids <-> (Z.of_nat (length ds) <= 2 ^ 32)%Z) /\
  forall i, (Z.of_nat i + 2 ^ 32 < Z.of_nat (length ds))%Z -> ids !! (i + Z.to_nat (2 ^ 32)) = ids !! i.
Proof.
  intros ds n ids Hd Hids.
  assert (Hx : forall ds n, Forall (fun d => dict_contains d "id" = false) ds ->
    (fun r => let! d := r in doc_id d) <$> make_documents ds n = Ok <$> (generateID <$> seq n (length ds))).
  { clear. intros ds. induction ds as [|d ds IH]; intros n Hd; [done|].
    apply Forall_cons in Hd as [Hd Hds]. cbn [make_documents]. unfold make_document at 1. rewrite Hd.
    cbn [seq length fmap list_fmap]. f_equal; [|by apply IH].
    unfold hasId, dict_contains, dict_insert, doc_id, dict_get, dict_at. rewrite dfind_dset, decide_True by done.
    simpl. rewrite dfind_dset, decide_True by done. done. }
  assert (Inj (=) (=) (@Ok string)) as HI by (by intros ? ? [=]).
  assert (E : ids = generateID <$> seq n (length ds)).
  { symmetry. apply (list_fmap_eq_inj _ HI). rewrite <- Hids. by rewrite Hx. }
  assert (HW : forall i, (Z.of_nat i + 2 ^ 32 < Z.of_nat (length ds))%Z -> ids !! (i + Z.to_nat (2 ^ 32)) = ids !! i).
  { intros i Hi. rewrite E, !list_lookup_fmap, !lookup_seq_lt by lia. cbn [fmap option_fmap option_map]. f_equal.
    rewrite Nat.add_assoc. apply generateID_wrap. }
  split; [|done]. split.
  - intros Hn. apply Z.nlt_ge. intros Hlt. specialize (HW 0 ltac:(lia)).
    assert (E0 : ids !! 0 = Some (generateID n)). { rewrite E, list_lookup_fmap, lookup_seq_lt by lia. simpl. by rewrite Nat.add_0_r. }
    rewrite E0 in HW. pose proof (NoDup_lookup _ _ _ _ Hn E0 HW). lia.
  - intros Hle. destruct (C15_ids_distinct ds n Hd Hle) as (ids' & E' & _ & Hn). rewrite Hids in E'.
    apply (list_fmap_eq_inj _ HI) in E'. by subst.
Qed.
Print Assumptions C64_distinct_iff.

Example C64_instance : let ds : list dict := [[]; [("a", ABool true)]] in
  Forall (fun d => dict_contains d "id" = false) ds /\
  (fun r => let! d := r in doc_id d) <$> make_documents ds 7 = Ok <$> ["doc_7"; "doc_8"] /\
  (Z.of_nat (length ds) <= 2 ^ 32)%Z.
Proof. cbv zeta. split; [by repeat constructor|]. split; [reflexivity|simpl; lia]. Qed.

(** * C65: what happens on a duplicate id: without a document under the empty id it
    throws; with one, if its field has the requested type, that field is handed
    out and marked as belonging to no document. *)
Theorem C65_duplicate_exactly : forall T c create w w1 docs d key d0,
  create w = (Ok d, w1) -> w_colls w1 !! c = Some (CField docs) ->
  validateFieldDoc d = true -> doc_id d = Ok key -> docs !! key = Some d0 ->
  (docs !! "" = None -> registerField T c create w = (Throw OutOfRange, w1)) /\
  (forall de f, docs !! "" = Some de -> doc_field T de = Ok f ->
     registerField T c create w = (Ok "", DbWorld (w_counter w1) (<[c := CField (<["" := dset de "field" (AField (with_key f "" c))]> docs)]> (w_colls w1)))) /\
  (forall de x, docs !! "" = Some de -> doc_field T de = Throw x -> registerField T c create w = (Throw x, w1)).
Proof.
  intros T c create w w1 docs d key d0 Hc Hw Hv Hk H0. split; [|split].
  - intros He. by apply (proj2 (C16_failures T c create w w1 docs d Hc Hw) key d0).
  - intros de f He Hf. unfold registerField. rewrite (mbind_ok _ _ _ _ _ Hc), Hv.
    assert (field_docs c w1 = (Ok docs, w1)) as Hfd by (unfold field_docs; by rewrite Hw).
    rewrite (mbind_ok _ _ w1 "" w1).
    2: { unfold fieldCollection_insert. rewrite (mbind_ok _ _ w1 key w1) by (unfold mlift; by rewrite Hk).
         rewrite (mbind_ok _ _ _ _ _ Hfd). rewrite H0. reflexivity. }
    rewrite (mbind_ok _ _ w1 de w1) by (unfold fieldDoc; rewrite (mbind_ok _ _ _ _ _ Hfd); by rewrite He).
    rewrite (mbind_ok _ _ w1 f w1) by (unfold mlift; by rewrite Hf).
    unfold update_doc. unfold mbind' at 1. rewrite (mbind_ok _ _ _ _ _ Hfd). reflexivity.
  - intros de x He Hf. unfold registerField. rewrite (mbind_ok _ _ _ _ _ Hc), Hv.
    assert (field_docs c w1 = (Ok docs, w1)) as Hfd by (unfold field_docs; by rewrite Hw).
    rewrite (mbind_ok _ _ w1 "" w1).
    2: { unfold fieldCollection_insert. rewrite (mbind_ok _ _ w1 key w1) by (unfold mlift; by rewrite Hk).
         rewrite (mbind_ok _ _ _ _ _ Hfd). rewrite H0. reflexivity. }
    rewrite (mbind_ok _ _ w1 de w1) by (unfold fieldDoc; rewrite (mbind_ok _ _ _ _ _ Hfd); by rewrite He).
    apply mbind_throw. unfold mlift. by rewrite Hf.
Qed.
Print Assumptions C65_duplicate_exactly.
Example C65_instance :
  let docs : gmap string dict := {["x" := idDoc "old" "x"; "" := idDoc "other" ""]} in
  validateFieldDoc (idDoc "new" "x") = true /\ doc_id (idDoc "new" "x") = Ok "x" /\ docs !! "x" = Some (idDoc "old" "x") /\
  docs !! "" = Some (idDoc "other" "") /\ exists f, doc_field 0 (idDoc "other" "") = Ok f.
Proof. vm_compute. repeat split. eexists. reflexivity. Qed.

(** * C66: two collections of the given names can be used together exactly if
    neither is called like the other's old-time collection. *)
Lemma string_length_app s t : String.length (s +:+ t) = String.length s + String.length t.
Proof. induction s as [|x s IH]; [done|]. change (S (String.length (s +:+ t)) = S (String.length s + String.length t)). by rewrite IH. Qed.
Theorem C66_names_exactly : forall a b,
  let w := (fieldCollection_instance b (fieldCollection_instance a (DbWorld 0 ∅)).2).2 in
  ((exists x, (oldTime_instance (oldTimeName a) a w).1 = Ok x) <-> b <> oldTimeName a).
Proof.
  intros a b w. assert (Ha : a <> oldTimeName a).
  { intros E. apply (f_equal String.length) in E. unfold oldTimeName in E. rewrite string_length_app in E. simpl in E. lia. }
  unfold w, fieldCollection_instance, oldTime_instance, db_insert. cbn [w_colls w_counter].
  destruct (decide (b = a)) as [->|Hb].
  - rewrite lookup_empty. cbn [fst snd w_colls w_counter]. rewrite lookup_insert. cbn [fst snd w_colls w_counter].
    rewrite lookup_insert_ne, lookup_empty by done. cbn. split; [done|eauto].
  - rewrite lookup_empty. cbn [fst snd w_colls w_counter]. rewrite lookup_insert_ne, lookup_empty by done. cbn [fst snd w_colls w_counter].
    destruct (decide (b = oldTimeName a)) as [->|Hne].
    + rewrite lookup_insert. cbn. split; [|done]. intros [x ?]. done.
    + rewrite lookup_insert_ne, lookup_insert_ne, lookup_empty by done. cbn. split; [done|eauto].
Qed.
Print Assumptions C66_names_exactly.

Example C66_instance : "B" <> oldTimeName "A" /\
  (oldTime_instance (oldTimeName "A") "A" (fieldCollection_instance "B" (fieldCollection_instance "A" (DbWorld 0 ∅)).2).2).1 = Ok (oldTimeName "A").
Proof. split; [done|]. vm_compute. reflexivity. Qed.
