(** C14-C18: database, documents, field and old-time collections. *)
From stdpp Require Export gmap fin_maps pretty.
From Verif Require Import Base Dict DictProofs Database DatabaseProofs.

(** * C14 *)
(** What a name denotes after a history: the collection of the first insert since
    its last removal. *)
Fixpoint live (os : list dbop) (name : string) (now : option collection) : option collection :=
  match os with
  | [] => now
  | DbInsert k c :: os' => live os' name (if decide (k = name) then Some (default c now) else now)
  | DbRemove k :: os' => live os' name (if decide (k = name) then None else now)
  end.

Theorem C14_finite_map : forall os name,
  let db := db_run os in
  db_at db name = match live os name None with Some c => Ok c | None => Throw OutOfRange end /\
  (db_contains db name = true <-> is_Some (live os name None)) /\
  (db_remove db name).1 = db_contains db name.
Proof.
  intros os name db.
  assert (db !! name = live os name None) as Hl.
  { unfold db, db_run. assert (forall db0, foldl db_step db0 os !! name = live os name (db0 !! name)) as H.
    { induction os as [|o os IH]; intros db0; [done|]. simpl foldl. rewrite IH, db_step_lookup.
      destruct o as [k c|k]; simpl; f_equal; destruct (decide (k = name)) as [->|]; try done.
      by destruct (db0 !! name). }
    by rewrite H, lookup_empty. }
  unfold db_at, db_contains, db_remove. rewrite Hl. destruct (live os name None).
  - split; [done|]. split; [split; [eauto|done]|done].
  - split; [done|]. split; [split; [done|intros [? ?]; done]|done].
Qed.
Print Assumptions C14_finite_map.

(** insert returns the stored collection, the present one if there is one; the
    size counts the names. *)
Theorem C14_insert_keeps_first : forall db name c,
  ((db_insert db name c).1 = default c (db !! name)) /\
  (db_at (db_insert db name c).2 name = Ok (db_insert db name c).1) /\
  (db_contains db name = true -> (db_insert db name c).2 = db) /\
  (forall n', n' <> name -> db_at (db_insert db name c).2 n' = db_at db n' /\
                            db_at (db_remove db name).2 n' = db_at db n') /\
  db_size (db_insert db name c).2 = (if db_contains db name then db_size db else S (db_size db)) /\
  db_size (db_remove db name).2 = (if db_contains db name then pred (db_size db) else db_size db).
Proof.
  intros db name c. unfold db_insert, db_contains, db_at, db_remove, db_size. destruct (db !! name) as [x|] eqn:E; simpl.
  - rewrite E. split; [done|]. split; [done|]. split; [done|]. split; [intros n' Hn; by rewrite lookup_delete_ne by done|].
    split; [done|]. rewrite map_size_delete. by rewrite E.
  - rewrite lookup_insert. split; [done|]. split; [done|]. split; [done|]. split.
    + intros n' Hn. by rewrite lookup_insert_ne.
    + split; [|done]. by apply map_size_insert_None.
Qed.
Print Assumptions C14_insert_keeps_first.

(** A collection is only ever returned at its own type. *)
Theorem C14_typed_access : forall c,
  (forall d, as_field c = Ok d <-> c = CField d) /\ (forall f d, as_old c = Ok (f, d) <-> c = COld f d) /\
  (as_field c = Throw BadCast \/ as_old c = Throw BadCast).
Proof.
  intros c. split; [|split].
  - intros d. destruct c; simpl; split; try done; by intros [= ->].
  - intros f d. destruct c; simpl; split; try done; by intros [= -> ->].
  - destruct c; simpl; eauto.
Qed.
Print Assumptions C14_typed_access.

Example C14_instance :
  let db := db_run [DbInsert "a" (COther 1); DbInsert "a" (COther 2); DbInsert "b" (CField ∅); DbRemove "a"; DbInsert "a" (COther 3)] in
  db_at db "a" = Ok (COther 3) /\ db_size db = 2 /\ db_at db "c" = Throw OutOfRange.
Proof. vm_compute. repeat split. Qed.

(** * C15 *)
(** The ids of documents constructed one after the other from dictionaries
    without an id, the counter starting at [n]. *)
Fixpoint make_documents (ds : list dict) (n : nat) : list (outcome dict) :=
  match ds with
  | [] => []
  | d :: ds' => let '(r, n') := make_document d hasId n in r :: make_documents ds' n'
  end.

Theorem C15_ids_distinct : forall ds n, Forall (fun d => dict_contains d "id" = false) ds ->
  (Z.of_nat (length ds) <= 2 ^ 32)%Z ->
  exists ids, (fun r => let! d := r in doc_id d) <$> make_documents ds n = Ok <$> ids /\
    length ids = length ds /\ NoDup ids.
Proof.
  intros ds n Hd Hb. exists (generateID <$> seq n (length ds)).
  split; [|split; [by rewrite fmap_length, seq_length|]].
  - clear Hb. revert n. induction ds as [|d ds IH]; intros n; [done|].
    apply Forall_cons in Hd as [Hd Hds]. cbn [make_documents]. unfold make_document at 1. rewrite Hd.
    cbn [seq length fmap list_fmap]. f_equal; [|by apply IH].
    unfold hasId, dict_contains, dict_insert, doc_id, dict_get, dict_at. rewrite dfind_dset, decide_True by done.
    simpl. rewrite dfind_dset, decide_True by done. done.
  - assert (forall m, m <= length ds -> NoDup (generateID <$> seq n m)) as H; [|by apply H].
    intros m. induction m as [|m IH]; intros Hm; [apply NoDup_nil_2|].
    rewrite seq_S, fmap_app. apply NoDup_app. split; [apply IH; lia|]. split; [|apply NoDup_singleton].
    intros x Hx Hy. apply elem_of_list_singleton in Hy. subst x. apply elem_of_list_fmap in Hx as (j & Hj & Hin).
    apply elem_of_seq in Hin. apply generateID_inj in Hj; lia.
Qed.
Print Assumptions C15_ids_distinct.

(** The counter is 32 bits wide: document number 2^32 repeats the first id. *)
Lemma list_fmap_eq_inj {A B} (f : A -> B) : Inj (=) (=) f -> forall l l' : list A, f <$> l = f <$> l' -> l = l'.
Proof.
  intros Hf. induction l as [|a l IH]; intros [|b l'] H; try done.
  rewrite !fmap_cons in H. injection H as H1 H2. apply Hf in H1 as ->. f_equal. by apply IH.
Qed.
Theorem C64_ids_distinct_refuted : ~ forall ds n, Forall (fun d => dict_contains d "id" = false) ds ->
  exists ids, (fun r => let! d := r in doc_id d) <$> make_documents ds n = Ok <$> ids /\ NoDup ids.
Proof.
  intros H.
  assert (exists N, 0 < N /\ generateID (0 + N) = generateID 0) as (N & Hpos & Hwrap).
  { exists (Z.to_nat (2 ^ 32)). split; [lia|apply generateID_wrap]. }
  destruct (H (replicate (S N) []) 0) as (ids & He & Hn).
  { by apply Forall_replicate. }
  assert (forall m n, (fun r => let! d := r in doc_id d) <$> make_documents (replicate m []) n = Ok <$> (generateID <$> seq n m)) as Hx.
  { clear. induction m as [|m IH]; intros n; [done|]. cbn [replicate make_documents seq fmap list_fmap].
    change (make_document [] hasId n) with (Ok [("id", AString (generateID n))] : outcome dict, S n).
    cbn [fmap list_fmap]. f_equal. apply IH. }
  rewrite Hx in He.
  assert (Inj (=) (=) (@Ok string)) as HI by (by intros ? ? [=]).
  apply (list_fmap_eq_inj _ HI) in He. subst ids.
  assert ((generateID <$> seq 0 (S N)) !! 0 = Some (generateID 0)) as H0 by done.
  assert ((generateID <$> seq 0 (S N)) !! N = Some (generateID (0 + N))) as H1.
  { rewrite list_lookup_fmap, lookup_seq_lt by lia. done. }
  rewrite Hwrap in H1.
  pose proof (NoDup_lookup _ _ _ _ Hn H0 H1). lia.
Qed.
Print Assumptions C64_ids_distinct_refuted.

(** A document that brings an id keeps it; a rejecting validator makes the
    construction throw; everything else is kept as given. *)
Theorem C15_construction : forall d validator n,
  let kept := if dict_contains d "id" then d else dict_insert d "id" (AString (generateID n)) in
  (dict_contains d "id" = true -> kept = d) /\
  (forall k, k <> "id" -> dict_at kept k = dict_at d k) /\
  ((make_document d validator n).1 = Ok kept <-> validator kept = true) /\
  ((make_document d validator n).1 = Throw RuntimeError <-> validator kept = false).
Proof.
  intros d validator n kept. unfold make_document. fold kept. split; [unfold kept; by intros ->|]. split.
  - intros k Hk. unfold kept. destruct (dict_contains d "id"); [done|].
    unfold dict_at, dict_insert. by rewrite dfind_dset, decide_False.
  - simpl. destruct (validator kept); split; split; done.
Qed.
Print Assumptions C15_construction.

Example C15_instance :
  make_documents [[]; [("a", ABool true)]] 7
  = [Ok [("id", AString "doc_7")]; Ok [("a", ABool true); ("id", AString "doc_8")]].
Proof. vm_compute. reflexivity. Qed.

(** * C16.  [create] any creator: it may do anything to the world as long as the
    collection stays a field collection; [d] the document it returns. *)
Theorem C16_register_field : forall T c create w w1 docs d key f,
  create w = (Ok d, w1) -> w_colls w1 !! c = Some (CField docs) ->
  validateFieldDoc d = true -> doc_id d = Ok key -> docs !! key = None -> doc_field T d = Ok f ->
  exists d' w', registerField T c create w = (Ok key, w') /\
    (* exactly one document is added, everything else is as the creator left it *)
    w_colls w' = <[c := CField (<[key := d']> docs)]> (w_colls w1) /\ w_counter w' = w_counter w1 /\
    (* the key retrieves the created field, with key and collection name set *)
    fieldDoc c key w' = (Ok d', w') /\
    doc_field T d' = Ok (Field (f_type f) (f_name f) (f_internal f) (f_boundary f) key c (f_db f)) /\
    forall k, k <> "field" -> dict_at d' k = dict_at d k.
Proof.
  intros T c create w w1 docs d key f Hc Hw Hv Hid Hk Hf.
  destruct (registerField_cases T c create w w1 docs d Hc Hw) as (_ & H & _).
  eexists _, _. split; [by apply (H key f)|]. split; [reflexivity|]. split; [done|]. split; [|split].
  - unfold fieldDoc, mbind', field_docs. simpl. by rewrite !lookup_insert.
  - unfold doc_field, dict_get, dict_at, any_cast in *. rewrite dfind_dset, decide_True by done. simpl.
    destruct (dfind d "field") as [a|] eqn:E; simpl in Hf; [|done].
    destruct (decide (type_of a = Some (TField T))) as [HT|]; simpl in Hf; [|done].
    destruct a; try done. injection Hf as ->. simpl in HT. by rewrite decide_True.
  - intros k Hne. unfold dict_at. by rewrite dfind_dset, decide_False.
Qed.
Print Assumptions C16_register_field.

(** What the two creators of the library record. *)
Theorem C16_creators : forall f name t i s w,
  (exists d w1, fieldDocument f t i s w = (Ok d, w1) /\ w_colls w1 = w_colls w /\
     doc_id d = Ok (generateID (w_counter w)) /\ validateFieldDoc d = true /\
     dict_get TString d "name" = Ok (AString (f_name f)) /\ doc_int "timeIndex" d = Ok t /\
     doc_int "iterationIndex" d = Ok i /\ doc_int "subCycleIndex" d = Ok s /\ doc_field (f_type f) d = Ok f) /\
  (forall d w1, createFromExistingField name f t i s w = (Ok d, w1) ->
     w_colls w1 = w_colls w /\ doc_id d = Ok (generateID (w_counter w)) /\ validateFieldDoc d = true /\
     dict_get TString d "name" = Ok (AString name) /\
     (t <> int64_max -> doc_int "timeIndex" d = Ok t) /\ (i <> int64_max -> doc_int "iterationIndex" d = Ok i) /\
     (s <> int64_max -> doc_int "subCycleIndex" d = Ok s) /\
     (* defaulted indices come from the document of the copied field *)
     (registered f = true -> exists docs fd, w_colls w !! f_coll f = Some (CField docs) /\ docs !! f_key f = Some fd /\
        (t = int64_max -> doc_int "timeIndex" d = doc_int "timeIndex" fd) /\
        (i = int64_max -> doc_int "iterationIndex" d = doc_int "iterationIndex" fd) /\
        (s = int64_max -> doc_int "subCycleIndex" d = doc_int "subCycleIndex" fd)) /\
     doc_field (f_type f) d = Ok (Field (f_type f) name (f_internal f) (f_boundary f) "" "" true)).
Proof.
  intros f name t i s w. split.
  - eexists _, _. split; [apply fieldDocument_spec|]. split; [done|]. split; [done|]. split; [done|]. split; [done|].
    split; [done|]. split; [done|]. split; [done|]. apply doc_field_fdict.
  - intros d w1 H. destruct (createFromExistingField_cases name f t i s w)
      as [(e & H1 & H2)|(t' & i' & s' & H1 & H2 & H3 & H4 & H5 & H6)].
    { rewrite H in H1. injection H1 as <- <-. by destruct (H2 d). }
    rewrite H in H1. injection H1 as -> ->. split; [done|]. split; [done|]. split; [done|]. split; [done|].
    destruct (doc_int_fdict name t' i' s' (copy_of name f) (generateID (w_counter w))) as (-> & -> & ->).
    split; [intros Hn; by rewrite H2|]. split; [intros Hn; by rewrite H3|]. split; [intros Hn; by rewrite H4|].
    split; [|exact (doc_field_fdict name t' i' s' (copy_of name f) (generateID (w_counter w)))].
    intros Hr. destruct (H6 Hr) as (docs & fd & A1 & A2 & A3 & A4 & A5). exists docs, fd. split; [done|]. split; [done|].
    split; [intros Hn; by rewrite A3|]. split; [intros Hn; by rewrite A4|]. intros Hn; by rewrite A5.
Qed.
Print Assumptions C16_creators.

(** The index that means "take it from the given field document" is the largest
    64-bit integer, and no other. *)
Theorem C16_default_index : forall d,
  int64_max = 9223372036854775807%Z /\
  (forall key z, z <> 9223372036854775807%Z -> default_int key d z = Ok z) /\
  (forall key, default_int key d 9223372036854775807%Z = doc_int key d).
Proof.
  intros d. split; [reflexivity|]. unfold default_int. change int64_max with 9223372036854775807%Z. split.
  - intros key z Hz. by rewrite decide_False.
  - intros key. by rewrite decide_True.
Qed.
Print Assumptions C16_default_index.

(** Failures: an invalid document is refused and nothing is stored; a duplicate id
    throws and changes nothing, provided no document has the empty id. *)
Theorem C16_failures : forall T c create w w1 docs d,
  create w = (Ok d, w1) -> w_colls w1 !! c = Some (CField docs) ->
  (validateFieldDoc d = false -> registerField T c create w = (Throw RuntimeError, w1)) /\
  (forall key d0, validateFieldDoc d = true -> doc_id d = Ok key -> docs !! key = Some d0 -> docs !! "" = None ->
     registerField T c create w = (Throw OutOfRange, w1)).
Proof.
  intros T c create w w1 docs d Hc Hw. destruct (registerField_cases T c create w w1 docs d Hc Hw) as (H1 & _ & H2 & _).
  split; [done|]. intros key d0. apply H2.
Qed.
Print Assumptions C16_failures.


(** What the validity check asks: the six entries are there, whatever their types. *)
Theorem C16_valid_documents : forall d, validateFieldDoc d = true <->
  forall k, k ∈ ["name"; "timeIndex"; "iterationIndex"; "subCycleIndex"; "id"; "field"] -> exists v, dict_at d k = Ok v.
Proof.
  intros d. unfold validateFieldDoc, hasId, dict_contains, dict_at.
  assert (H : forall k, (match dfind d k with Some _ => true | None => false end) = true <-> exists v, (match dfind d k with Some v => Ok v | None => Throw OutOfRange end) = Ok v).
  { intros k. destruct (dfind d k); split; eauto; [done|]. intros [? ?]; done. }
  rewrite !andb_true_iff, !H. split.
  - intros (((((H1 & H2) & H3) & H4) & H5) & H6) k Hk. apply elem_of_list_In in Hk. destruct Hk as [<-|[<-|[<-|[<-|[<-|[<-|[]]]]]]]; done.
  - intros Hk. repeat split; apply Hk; apply elem_of_list_In; cbn; tauto.
Qed.
Print Assumptions C16_valid_documents.
Example C16_valid_instance :
  validateFieldDoc [("name", AString "p"); ("timeIndex", AInt64 0); ("iterationIndex", AInt64 0); ("subCycleIndex", AInt64 0); ("id", AString "doc_0")] = false.
Proof. reflexivity. Qed.

Definition someField (key coll : string) : field := Field 0 "T" [1%Qc; 0%Qc] [1%Qc] key coll true.
Definition idDoc (name id : string) : dict := fdict name 1 1 1 (someField "" "") id.

(** With a document under the empty id (ids may be supplied by hand) a duplicate
    does not throw but hands out the other document's field. *)
Theorem C65_duplicate_id_refuted : ~ forall T c create w w1 docs d key d0,
  create w = (Ok d, w1) -> w_colls w1 !! c = Some (CField docs) ->
  validateFieldDoc d = true -> doc_id d = Ok key -> docs !! key = Some d0 ->
  exists e, (registerField T c create w).1 = Throw e.
Proof.
  intros H.
  destruct (H 0 "c" (fun w => (Ok (idDoc "new" "x"), w)) (DbWorld 0 {["c" := CField {["x" := idDoc "old" "x"; "" := idDoc "other" ""]}]})
     (DbWorld 0 {["c" := CField {["x" := idDoc "old" "x"; "" := idDoc "other" ""]}]})
     {["x" := idDoc "old" "x"; "" := idDoc "other" ""]} (idDoc "new" "x") "x" (idDoc "old" "x")) as [e He]; try done.
Qed.
Print Assumptions C65_duplicate_id_refuted.

(** A field requested at the wrong type throws, but its document stays in the
    collection. *)
Theorem C16_wrong_type_leaves_document : forall T c create w w1 docs d key,
  create w = (Ok d, w1) -> w_colls w1 !! c = Some (CField docs) ->
  validateFieldDoc d = true -> doc_id d = Ok key -> docs !! key = None -> doc_field T d = Throw BadAnyCast ->
  exists w', registerField T c create w = (Throw BadAnyCast, w') /\
    w_colls w' = <[c := CField (<[key := d]> docs)]> (w_colls w1).
Proof.
  intros T c create w w1 docs d key Hc Hw Hv Hid Hk Hf.
  destruct (registerField_cases T c create w w1 docs d Hc Hw) as (_ & _ & _ & H).
  eexists. split; [by apply H|]. done.
Qed.
Print Assumptions C16_wrong_type_leaves_document.

(** Non-vacuity: a fresh document at its type, the same at another type, a
    duplicate, an invalid one. *)
Example C16_instance :
  let docs : gmap string dict := {["x" := idDoc "old" "x"]} in
  let w := DbWorld 4 {["c" := CField docs]} in
  let create (d : dict) := fun w : dbworld => (Ok d, w) in
  w_colls w !! "c" = Some (CField docs) /\
  validateFieldDoc (idDoc "new" "y") = true /\ doc_id (idDoc "new" "y") = Ok "y" /\ docs !! "y" = None /\
  doc_field 0 (idDoc "new" "y") = Ok (someField "" "") /\ doc_field 1 (idDoc "new" "y") = Throw BadAnyCast /\
  docs !! "x" = Some (idDoc "old" "x") /\ docs !! "" = None /\
  validateFieldDoc [("id", AString "z")] = false /\
  (registerField 0 "c" (create (idDoc "new" "y")) w).1 = Ok "y" /\
  (createFromExistingField "Tnew" (someField "" "") 3 2 1 w).1 <> Throw OutOfRange.
Proof. vm_compute. repeat split. discriminate. Qed.

(** * C17.  [w_run os]: the world after any history of registrations, copies,
    old-time requests and other documents. Fewer than 2^32 ids are drawn. *)
Definition history_ok (os : list wop) : Prop :=
  Forall wop_ok os /\ (3 * Z.of_nat (length os) + 6 <= 2 ^ 32)%Z.

(** The first request: one document and one link are added. *)
Theorem C17_first_request : forall os f w fdocs d g t i s docs,
  history_ok os -> w = w_run os -> registered f = true ->
  w_colls w !! f_coll f = Some (CField fdocs) -> fdocs !! f_key f = Some d ->
  doc_field (f_type f) d = Ok g -> doc_int "timeIndex" d = Ok t -> t <> int64_min ->
  doc_int "iterationIndex" d = Ok i -> doc_int "subCycleIndex" d = Ok s ->
  (w_colls w !! oldTimeName (f_coll f) = Some (COld (f_coll f) docs) \/
   w_colls w !! oldTimeName (f_coll f) = None /\ docs = ∅) ->
  (forall k l, docs !! k = Some l -> od_next l <> f_key f) ->
  exists key d' l w', oldTime f w = (Ok (f_coll f, key), w') /\
    fdocs !! key = None /\ docs !! od_id l = None /\
    w_colls w' = <[oldTimeName (f_coll f) := COld (f_coll f) (<[od_id l := l]> docs)]>
                   (<[f_coll f := CField (<[key := d']> fdocs)]> (w_colls w)) /\
    dict_get TString d' "name" = Ok (AString (f_name g +:+ "_0")) /\
    doc_int "timeIndex" d' = Ok (t - 1)%Z /\
    doc_int "iterationIndex" d' = Ok i /\ doc_int "subCycleIndex" d' = Ok s /\
    doc_field (f_type f) d' = Ok (Field (f_type g) (f_name g +:+ "_0") (f_internal g) (f_boundary g) key (f_coll f) true) /\
    od_next l = f_key f /\ od_prev l = key /\
    ((exists k' l', docs !! k' = Some l' /\ od_prev l' = f_key f /\
        od_cur l = od_cur l' /\ od_level l = (od_level l' + 1)%Z) \/
     ((forall k' l', docs !! k' = Some l' -> od_prev l' <> f_key f) /\ od_cur l = f_key f /\ od_level l = 1%Z)).
Proof.
  intros os f w fdocs d g t i s docs [Ho Hb] -> Hr. destruct (w_run_ok os Ho ltac:(lia)) as [Hi Hn].
  intros. eapply oldTime_first; try done. lia.
Qed.
Print Assumptions C17_first_request.

(** Later requests, after any further history, return the same field and create
    nothing; the const version agrees. *)
Theorem C17_later_requests : forall os f r w1 os',
  Forall wop_ok (os ++ os') -> (3 * Z.of_nat (length (os ++ os')) + 6 <= 2 ^ 32)%Z ->
  oldTime f (w_run os) = (Ok r, w1) ->
  let w2 := foldl w_step w1 os' in
  oldTime f w2 = (Ok r, w2) /\ oldTime_const f w2 = (Ok r, w2).
Proof.
  intros os f r w1 os' Ho Hb Hr. apply Forall_app in Ho as [Ho1 Ho2]. rewrite app_length in Hb.
  destruct (w_run_ok os Ho1 ltac:(lia)) as [Hi Hn]. eapply oldTime_stable; try done. lia.
Qed.
Print Assumptions C17_later_requests.

(** Asking for the old time of a field that is not registered throws and changes
    nothing; the const version never changes anything: where nothing was created
    yet it throws (no old-time collection) or ends the program (no entry). *)
Theorem C17_unregistered_fields_throw : forall f w,
  f_key f = "" \/ f_coll f = "" \/ f_db f = false ->
  oldTime f w = (Throw RuntimeError, w) /\ oldTime_const f w = (Throw RuntimeError, w).
Proof.
  intros f w H. assert (Hr : registered f = false).
  { unfold registered. destruct H as [->|[->| ->]]; [done|by rewrite andb_false_r|by rewrite andb_false_r]. }
  unfold oldTime, oldTime_const, instance_of_field, instance_of_field_const. by rewrite Hr.
Qed.
Print Assumptions C17_unregistered_fields_throw.
Theorem C17_const_request_creates_nothing : forall f w,
  (oldTime_const f w).2 = w /\
  forall fdocs, f_key f <> "" -> f_coll f <> "" -> f_db f = true ->
    w_colls w !! f_coll f = Some (CField fdocs) ->
    (w_colls w !! oldTimeName (f_coll f) = None -> (oldTime_const f w).1 = Throw OutOfRange) /\
    (forall docs, w_colls w !! oldTimeName (f_coll f) = Some (COld (f_coll f) docs) ->
       (forall id l, docs !! id = Some l -> od_next l <> f_key f) -> (oldTime_const f w).1 = Exit).
Proof.
  intros f w. split.
  - assert (Hb : forall A B (p : M A) (g : A -> M B), (forall w, (p w).2 = w) -> (forall a w, (g a w).2 = w) ->
      forall w, (mbind' p g w).2 = w).
    { intros A B p g Hp Hg w0. unfold mbind'. specialize (Hp w0). destruct (p w0) as [o w1]. cbn in Hp. subst w1.
      destruct o; cbn; auto. }
    assert (Hl : forall A (o : outcome A) w0, (mlift o w0).2 = w0) by done.
    revert w. unfold oldTime_const. apply Hb.
    { intros w. unfold instance_of_field_const. by destruct (registered f). }
    intros fc. apply Hb; [done|]. intros oc. unfold get_const. apply Hb; [done|]. intros cd. apply Hb; [done|].
    intros fc'. destruct (decide _); [|done]. apply Hb; [done|]. intros od.
    assert (Hf : forall c k w0, (fieldDoc c k w0).2 = w0) by (intros c k; unfold fieldDoc; apply Hb; intros; apply Hl || done).
    apply Hb; [apply Hf|]. intros fd. apply Hb; [done|]. done.
  - intros fdocs H1 H2 H3 Hc. assert (Hr : registered f = true).
    { unfold registered. rewrite !bool_decide_eq_false_2 by done. done. }
    unfold oldTime_const, instance_of_field_const. rewrite Hr.
    unfold mbind', fieldCollection_instance_const, db_at. rewrite Hc. cbn.
    unfold oldTime_instance_const, db_at. split.
    + intros Hn. by rewrite Hn.
    + intros docs Ho Hnext. rewrite Ho. cbn. unfold get_const, mbind', old_docs. rewrite Ho. cbn.
      unfold fieldCollection_instance_const, db_at. rewrite Hc. cbn.
      assert (findNextTime docs (f_key f) = "") as ->; [|done].
      apply findDoc_miss. exact Hnext.
Qed.
Print Assumptions C17_const_request_creates_nothing.

(** The links of every collection form chains: at most one predecessor and one
    successor, each chain ends at the current field, the level is the distance
    to it. *)
Theorem C17_chains : forall os c fc docs, history_ok os ->
  w_colls (w_run os) !! c = Some (COld fc docs) ->
  (forall k1 k2 d1 d2, docs !! k1 = Some d1 -> docs !! k2 = Some d2 ->
     od_next d1 = od_next d2 \/ od_prev d1 = od_prev d2 -> k1 = k2) /\
  (forall k d, docs !! k = Some d ->
     (exists fdocs, w_colls (w_run os) !! fc = Some (CField fdocs) /\
        is_Some (fdocs !! od_next d) /\ is_Some (fdocs !! od_prev d)) /\
     (forall k' d', docs !! k' = Some d' -> od_prev d' <> od_cur d) /\
     exists n, od_level d = Z.of_nat n /\ 1 <= n /\ chain docs (od_cur d) (od_prev d) n).
Proof.
  intros os c fc docs [Ho Hb] Hc. destruct (w_run_ok os Ho ltac:(lia)) as [Hi Hn]. split.
  - intros k1 k2 d1 d2 H1 H2 [He|He].
    + by eapply (inv_next _ Hi).
    + by eapply (inv_prev _ Hi).
  - intros k d Hd. split; [|by eapply link_chain; [exact Hi|lia|..]].
    destruct (inv_link _ Hi _ _ _ _ _ Hc Hd) as [_ _ _ (fd & dn & dp & fn & fp & H1 & H2 & H3 & _) _]. eauto.
Qed.
Print Assumptions C17_chains.

(** No operation changes a stored document or link. *)
Theorem C17_nothing_disturbed : forall os os' c,
  Forall wop_ok (os ++ os') -> (3 * Z.of_nat (length (os ++ os')) <= 2 ^ 32)%Z ->
  (forall docs, w_colls (w_run os) !! c = Some (CField docs) ->
     exists docs', w_colls (w_run (os ++ os')) !! c = Some (CField docs') /\ docs ⊆ docs') /\
  (forall fc docs, w_colls (w_run os) !! c = Some (COld fc docs) ->
     exists docs', w_colls (w_run (os ++ os')) !! c = Some (COld fc docs') /\ docs ⊆ docs').
Proof.
  intros os os' c Ho Hb. apply Forall_app in Ho as [Ho1 Ho2]. rewrite app_length in Hb.
  destruct (w_run_ok os Ho1 ltac:(lia)) as [Hi Hn].
  destruct (w_steps_ok os' (w_run os) Hi Ho2) as (_ & [_ Hx] & _); [lia|]. specialize (Hx c).
  assert (w_run (os ++ os') = foldl w_step (w_run os) os') as -> by (unfold w_run; by rewrite foldl_app).
  split; [intros docs E|intros fc docs E]; by rewrite E in Hx.
Qed.
Print Assumptions C17_nothing_disturbed.

(** A history with two chains. *)
Definition hist : list wop :=
  [WRegister "A" (someField "" "") 5 0 0; WOldTime (someField "doc_0" "A"); WRegister "B" (someField "" "") 9 0 0;
   WOldTime (someField "doc_2" "A"); WOldTime (someField "doc_0" "A")].
Example C17_instance : history_ok hist /\
  (oldTime (someField "doc_0" "A") (w_run hist)).1 = Ok ("A", "doc_2") /\
  (oldTime (someField "doc_2" "A") (w_run hist)).1 = Ok ("A", "doc_7") /\
  (oldTime (someField "doc_5" "B") (w_run hist)).1 = Ok ("B", "doc_10") /\
  registered (someField "doc_5" "B") = true.
Proof. split; [split; [by repeat constructor|done]|]. vm_compute. repeat split. Qed.

(** * C18 *)
(** A second request for a collection returns the same one and changes nothing. *)
Theorem C18_idempotent : forall w name fc w1 x,
  (fieldCollection_instance name w = (Ok x, w1) -> x = name /\ fieldCollection_instance name w1 = (Ok name, w1) /\
     (forall c, w_colls w !! name = Some c -> w1 = w)) /\
  (oldTime_instance (oldTimeName fc) fc w = (Ok x, w1) ->
     x = oldTimeName fc /\ oldTime_instance (oldTimeName fc) fc w1 = (Ok x, w1) /\
     (forall c, w_colls w !! oldTimeName fc = Some c -> w1 = w)).
Proof.
  intros w name fc w1 x. split.
  - unfold fieldCollection_instance, db_insert. destruct (w_colls w !! name) as [c|] eqn:E; simpl.
    + destruct c; simpl; intros [= <- <-]. split; [done|]. simpl. rewrite E. split; [done|]. intros. by destruct w.
    + intros [= <- <-]. split; [done|]. simpl. rewrite lookup_insert. done.
  - unfold oldTime_instance, db_insert. destruct (w_colls w !! oldTimeName fc) as [c|] eqn:E; simpl.
    + destruct c; simpl; intros [= <- <-]. split; [done|]. simpl. rewrite E. split; [done|]. intros. by destruct w.
    + intros [= <- <-]. split; [done|]. simpl. rewrite lookup_insert. done.
Qed.
Print Assumptions C18_idempotent.

(** They succeed whenever the name is free or holds a collection of that type. *)
Theorem C18_succeeds : forall w name fc,
  (forall c, w_colls w !! name = Some c -> exists d, c = CField d) ->
  (forall c, w_colls w !! oldTimeName fc = Some c -> exists f d, c = COld f d) ->
  (fieldCollection_instance name w).1 = Ok name /\
  (oldTime_instance (oldTimeName fc) fc w).1 = Ok (oldTimeName fc).
Proof.
  intros w name fc H1 H2. unfold fieldCollection_instance, oldTime_instance, db_insert. split.
  - destruct (w_colls w !! name) as [c|]; [|done]. by destruct (H1 c eq_refl) as [d ->].
  - destruct (w_colls w !! oldTimeName fc) as [c|]; [|done]. by destruct (H2 c eq_refl) as (f & d & ->).
Qed.
Print Assumptions C18_succeeds.

Example C18_instance : let w := DbWorld 4 {["c" := CField ∅]} in
  (fieldCollection_instance "c" w).1 = Ok "c" /\ (oldTime_instance (oldTimeName "c") "c" w).1 = Ok (oldTimeName "c") /\
  (forall c, w_colls w !! "c" = Some c -> exists d, c = CField d) /\
  (forall c, w_colls w !! oldTimeName "c" = Some c -> exists f d, c = COld f d).
Proof.
  cbv zeta. split; [done|]. split; [done|]. split.
  - intros c [= <-]. eauto.
  - intros c H. vm_compute in H. discriminate.
Qed.

(** Not for every choice of names: a field collection may be called what the
    old-time collection of another field collection is called; then the old-time
    collection cannot be obtained. *)
Theorem C66_all_names_refuted : ~ forall a b,
  let w := (fieldCollection_instance b (fieldCollection_instance a (DbWorld 0 ∅)).2).2 in
  exists x, (oldTime_instance (oldTimeName a) a w).1 = Ok x.
Proof. intros H. destruct (H "fields" "fields_oldTime") as [x Hx]. vm_compute in Hx. discriminate. Qed.
Print Assumptions C66_all_names_refuted.

(** Fields registered in a collection with the empty name count as unregistered:
    their old-time field cannot be requested. *)
Theorem C66_empty_name_refuted : ~ forall c f,
  let w := w_run [WRegister c f 1 1 1] in
  forall key docs d g, w_colls w !! c = Some (CField docs) -> docs !! key = Some d ->
  doc_field (f_type f) d = Ok g -> f_db g = true -> exists x, (oldTime g w).1 = Ok x.
Proof.
  intros H. set (w := w_run [WRegister "" (someField "" "") 1 1 1]).
  assert (E : match w_colls w !! "" with Some (CField docs) => docs !! "doc_0" | _ => None end =
    Some (fdict "T" 1 1 1 (someField "doc_0" "") "doc_0")) by (vm_compute; reflexivity).
  destruct (w_colls w !! "") as [[docs| |]|] eqn:Ew; try discriminate.
  destruct (H "" (someField "" "") "doc_0" docs (fdict "T" 1 1 1 (someField "doc_0" "") "doc_0")
     (someField "doc_0" "") Ew E) as [x Hx]; try (vm_compute; reflexivity).
  vm_compute in Hx. discriminate.
Qed.
Print Assumptions C66_empty_name_refuted.
