(** Database, Document, FieldCollection, OldTimeCollection. *)
From stdpp Require Export gmap fin_maps pretty.
From Verif Require Import Base Dict.

(** ** Documents *)
(** std::atomic<int>: the value after [n] increments, 32-bit wrap-around. *)
Definition int32_of (n : nat) : Z :=
  (Z.of_nat n + 2 ^ 31) `mod` 2 ^ 32 - 2 ^ 31.
(** include/NeoFOAM/core/database/document.hpp:91-95 generateID: [n] is the
    number of earlier calls. *)
Definition generateID (n : nat) : string := "doc_" +:+ pretty (int32_of n).

(** src/core/database/document.cpp:9 *)
Definition hasId (d : dict) : bool := dict_contains d "id".
(** document.cpp:11-29 (constructor from a Dictionary and a validator): the
    counter is advanced in any case; [n] its value before.  The default
    constructor is the case of the empty dictionary and [hasId]. *)
Definition make_document (d : dict) (validator : dict -> bool) (n : nat) : outcome dict * nat :=
  let id := generateID n in
  let d1 := if dict_contains d "id" then d else dict_insert d "id" (AString id) in
  ((if validator d1 then Ok d1 else Throw RuntimeError), S n).
(** document.hpp:84 *)
Definition doc_id (d : dict) : outcome string :=
  let! a := dict_get TString d "id" in
  match a with AString s => Ok s | _ => UB end.

(** ** Collections and the database *)
(** OldTimeDocument (src/core/database/oldTimeCollection.cpp:9-20): the Document's
    entries are exactly these, of these types. Levels are integers without the
    32-bit overflow. *)
Record oldDoc := OldDoc {
  od_id : string; od_next : string; od_prev : string; od_cur : string; od_level : Z
}.
(** Collection: a FieldCollection, an OldTimeCollection (with
    fieldCollectionName_), or a collection of any other type. *)
Inductive collection :=
| CField (docs : gmap string dict)
| COld (fieldColl : string) (docs : gmap string oldDoc)
| COther (type : nat).

(** The process: document counter and the one database. *)
Record dbworld := DbWorld { w_counter : nat; w_colls : gmap string collection }.

(** src/core/database/database.cpp:10-25 *)
Definition db_insert (db : gmap string collection) (name : string) (c : collection)
  : collection * gmap string collection :=
  match db !! name with
  | Some c' => (c', db)                      (* try_emplace keeps the old one *)
  | None => (c, <[name := c]> db)
  end.
Definition db_contains (db : gmap string collection) (name : string) : bool :=
  match db !! name with Some _ => true | None => false end.
Definition db_at (db : gmap string collection) (name : string) : outcome collection :=
  match db !! name with Some c => Ok c | None => Throw OutOfRange end.
Definition db_size (db : gmap string collection) : nat := size db.
Definition db_remove (db : gmap string collection) (name : string) : bool * gmap string collection :=
  match db !! name with Some _ => (true, delete name db) | None => (false, db) end.

Inductive dbop := DbInsert (name : string) (c : collection) | DbRemove (name : string).
Definition db_step (db : gmap string collection) (o : dbop) : gmap string collection :=
  match o with DbInsert n c => (db_insert db n c).2 | DbRemove n => (db_remove db n).2 end.
Definition db_run (os : list dbop) : gmap string collection := foldl db_step ∅ os.

(** include/NeoFOAM/core/database/collection.hpp:127-158 as<...>() *)
Definition as_field (c : collection) : outcome (gmap string dict) :=
  match c with CField d => Ok d | _ => Throw BadCast end.
Definition as_old (c : collection) : outcome (string * gmap string oldDoc) :=
  match c with COld f d => Ok (f, d) | _ => Throw BadCast end.

(** ** Computations on the world: an exception keeps the changes made so far. *)
Definition M (A : Type) := dbworld -> outcome A * dbworld.
Definition mret {A} (a : A) : M A := fun w => (Ok a, w).
Definition mlift {A} (o : outcome A) : M A := fun w => (o, w).
Definition mbind' {A B} (m : M A) (f : A -> M B) : M B := fun w =>
  match m w with
  | (Ok a, w') => f a w'
  | (Throw e, w') => (Throw e, w') | (Exit, w') => (Exit, w') | (UB, w') => (UB, w')
  end.
Notation "'do!' x ':=' m 'in' k" := (mbind' m (fun x => k))
  (at level 200, x pattern, right associativity).

Definition mdocument (d : dict) (validator : dict -> bool) : M dict := fun w =>
  let '(r, n) := make_document d validator (w_counter w) in (r, DbWorld n (w_colls w)).

(** A reference to a collection is its name; a dangling one is undefined. *)
Definition field_docs (c : string) : M (gmap string dict) := fun w =>
  (match w_colls w !! c with Some (CField d) => Ok d | _ => UB end, w).
Definition old_docs (c : string) : M (string * gmap string oldDoc) := fun w =>
  (match w_colls w !! c with Some (COld f d) => Ok (f, d) | _ => UB end, w).
Definition set_coll (c : string) (x : collection) : M unit := fun w =>
  (Ok tt, DbWorld (w_counter w) (<[c := x]> (w_colls w))).

(** ** FieldCollection *)
(** src/core/database/fieldCollection.cpp:10-14 *)
Definition validateFieldDoc (d : dict) : bool :=
  dict_contains d "name" && dict_contains d "timeIndex" && dict_contains d "iterationIndex"
  && dict_contains d "subCycleIndex" && hasId d && dict_contains d "field".

(** include/NeoFOAM/core/database/fieldCollection.hpp:48-65: two documents are
    constructed (l.56 and l.55). *)
Definition fieldDocument (f : field) (t i s : Z) : M dict :=
  do! d := mdocument [("name", AString (f_name f)); ("timeIndex", AInt64 t); ("iterationIndex", AInt64 i);
                      ("subCycleIndex", AInt64 s); ("field", AField f)] hasId in
  mdocument d validateFieldDoc.

(** fieldCollection.cpp:69-73 (the temporary collection has no effect) *)
Definition fieldCollection_instance (name : string) : M string := fun w =>
  let '(c, db) := db_insert (w_colls w) name (CField ∅) in
  ((let! _ := as_field c in Ok name), DbWorld (w_counter w) db).
(** fieldCollection.cpp:75-79, hpp:314-324 *)
Definition fieldCollection_instance_const (name : string) : M string := fun w =>
  ((let! c := db_at (w_colls w) name in let! _ := as_field c in Ok name), w).

(** fieldCollection.cpp:54-63: "" if the id is present *)
Definition fieldCollection_insert (c : string) (d : dict) : M string :=
  do! id := mlift (doc_id d) in
  do! docs := field_docs c in
  match docs !! id with
  | Some _ => mret ""
  | None => do! _ := set_coll c (CField (<[id := d]> docs)) in mret id
  end.
(** fieldCollection.cpp:65-67 *)
Definition fieldDoc (c key : string) : M dict :=
  do! docs := field_docs c in
  mlift (match docs !! key with Some d => Ok d | None => Throw OutOfRange end).
(** fieldCollection.hpp:109-125 *)
Definition doc_field (T : nat) (d : dict) : outcome field :=
  let! a := dict_get (TField T) d "field" in
  match a with AField f => Ok f | _ => UB end.
Definition doc_int (key : string) (d : dict) : outcome Z :=
  let! a := dict_get TInt64 d key in
  match a with AInt64 z => Ok z | _ => UB end.

Definition with_key (f : field) (key coll : string) : field :=
  Field (f_type f) (f_name f) (f_internal f) (f_boundary f) key coll (f_db f).
Definition update_doc (c key : string) (d : dict) : M unit :=
  do! docs := field_docs c in set_coll c (CField (<[key := d]> docs)).

(** fieldCollection.hpp:333-348.  The result is a reference to the field stored in
    document [key] of collection [c], given by [key]. *)
Definition registerField (T : nat) (c : string) (createFunc : M dict) : M string :=
  do! doc := createFunc in
  if validateFieldDoc doc then
    do! key := fieldCollection_insert c doc in
    do! fd := fieldDoc c key in
    do! f := mlift (doc_field T fd) in
    do! _ := update_doc c key (dset fd "field" (AField (with_key f key c))) in
    mret key
  else mlift (Throw RuntimeError).

(** volumeField.hpp:196 *)
Definition registered (f : field) : bool :=
  negb (bool_decide (f_key f = "")) && negb (bool_decide (f_coll f = "")) && f_db f.
(** fieldCollection.hpp:299-324, database.hpp:118-125 *)
Definition instance_of_field (f : field) : M string :=
  if registered f then fieldCollection_instance (f_coll f) else mlift (Throw RuntimeError).
Definition instance_of_field_const (f : field) : M string :=
  if registered f then fieldCollection_instance_const (f_coll f) else mlift (Throw RuntimeError).

Definition int64_max : Z := 2 ^ 63 - 1.
Definition int64_min : Z := - 2 ^ 63.

(** fieldCollection.hpp:390-401 *)
Definition default_int (key : string) (fd : dict) (z : Z) : outcome Z :=
  if decide (z = int64_max) then doc_int key fd else Ok z.

(** fieldCollection.hpp:366-412: the copy is a field of the same type with the new
    name, the same values, no key and no collection. The Document is converted to
    a FieldDocument on return (fieldCollection.cpp:16). *)
Definition createFromExistingField (name : string) (f : field) (t i s : Z) : M dict :=
  let vf := Field (f_type f) name (f_internal f) (f_boundary f) "" "" true in
  do! tis := (if registered f then
               do! c := instance_of_field_const f in
               do! fd := fieldDoc c (f_key f) in
               mlift (let! t' := default_int "timeIndex" fd t in
                      let! i' := default_int "iterationIndex" fd i in
                      let! s' := default_int "subCycleIndex" fd s in
                      Ok (t', i', s'))
             else mret (t, i, s)) in
  do! d := mdocument [("name", AString name); ("timeIndex", AInt64 tis.1.1); ("iterationIndex", AInt64 tis.1.2);
                      ("subCycleIndex", AInt64 tis.2); ("field", AField vf)] validateFieldDoc in
  mdocument d validateFieldDoc.

(** ** OldTimeCollection *)
(** collection.hpp:262-273 find with the predicates of
    oldTimeCollection.cpp:99-119: the single hit or "" *)
Definition findDoc (sel : oldDoc -> string) (docs : gmap string oldDoc) (id : string) : string :=
  match filter (fun kd => sel kd.2 = id) (map_to_list docs) with
  | [kd] => od_id kd.2
  | _ => ""
  end.
Definition findNextTime := findDoc od_next.
Definition findPreviousTime := findDoc od_prev.

(** oldTimeCollection.cpp:65-80; docs_.at throws *)
Definition setCurrentFieldAndLevel (docs : gmap string oldDoc) (d : oldDoc) : outcome oldDoc :=
  let nextId := findPreviousTime docs (od_next d) in
  if decide (nextId = "") then Ok (OldDoc (od_id d) (od_next d) (od_prev d) (od_next d) 1)
  else match docs !! nextId with
       | Some n => Ok (OldDoc (od_id d) (od_next d) (od_prev d) (od_cur n) (od_level n + 1))
       | None => Throw OutOfRange
       end.

(** oldTimeCollection.cpp:121-139 *)
Definition oldTime_instance (name fieldColl : string) : M string := fun w =>
  let '(c, db) := db_insert (w_colls w) name (COld fieldColl ∅) in
  ((let! _ := as_old c in Ok name), DbWorld (w_counter w) db).
Definition oldTime_instance_const (name : string) : M string := fun w =>
  ((let! c := db_at (w_colls w) name in let! _ := as_old c in Ok name), w).
Definition oldTimeName (fc : string) : string := fc +:+ "_oldTime".

(** oldTimeCollection.hpp: OldTimeCollection::getOrInsert.  Result: the collection and key of the
    document holding the old-time field. *)
Definition getOrInsert (T : nat) (c : string) (idOfNextField : string) : M (string * string) :=
  do! cd := old_docs c in
  let nextId := findNextTime cd.2 idOfNextField in
  do! fc := fieldCollection_instance cd.1 in
  if decide (nextId <> "") then
    do! od := mlift (match cd.2 !! nextId with Some d => Ok d | None => Throw OutOfRange end) in
    do! fd := fieldDoc fc (od_prev od) in
    do! _ := mlift (doc_field T fd) in
    mret (fc, od_prev od)
  else
    do! fd := fieldDoc fc idOfNextField in
    do! f := mlift (doc_field T fd) in
    do! t := mlift (doc_int "timeIndex" fd) in
    do! t1 := mlift (if decide (t = int64_min) then UB else Ok (t - 1)%Z) in
    do! i := mlift (doc_int "iterationIndex" fd) in
    do! s := mlift (doc_int "subCycleIndex" fd) in
    do! oldKey := registerField T fc (createFromExistingField (f_name f +:+ "_0") f t1 i s) in
    (* the OldTimeDocument of fieldDoc.field().key and oldField.key *)
    do! fd2 := fieldDoc fc idOfNextField in
    do! f2 := mlift (doc_field T fd2) in
    do! dd := mdocument [("nextTime", AString (f_key f2)); ("previousTime", AString oldKey);
                         ("currentTime", AString ""); ("level", ALabel (-1))] hasId in
    do! id := mlift (doc_id dd) in
    do! cd2 := old_docs c in
    do! od := mlift (setCurrentFieldAndLevel cd2.2 (OldDoc id (f_key f2) oldKey "" (-1))) in
    do! _ := (match cd2.2 !! id with                          (* insert, cpp:88-97 *)
              | Some _ => mret tt
              | None => set_coll c (COld cd2.1 (<[id := od]> cd2.2))
              end) in
    mret (fc, oldKey).

(** oldTimeCollection.hpp: oldTime(field) *)
Definition oldTime (f : field) : M (string * string) :=
  do! fc := instance_of_field f in
  do! oc := oldTime_instance (oldTimeName fc) fc in
  getOrInsert (f_type f) oc (f_key f).

(** The const versions (oldTimeCollection.hpp: get, oldTime(const)). *)
Definition get_const (T : nat) (c : string) (idOfNextField : string) : M (string * string) :=
  do! cd := old_docs c in
  let nextId := findNextTime cd.2 idOfNextField in
  do! fc := fieldCollection_instance_const cd.1 in
  if decide (nextId <> "") then
    do! od := mlift (match cd.2 !! nextId with Some d => Ok d | None => Throw OutOfRange end) in
    do! fd := fieldDoc fc (od_prev od) in
    do! _ := mlift (doc_field T fd) in
    mret (fc, od_prev od)
  else mlift Exit.
Definition oldTime_const (f : field) : M (string * string) :=
  do! fc := instance_of_field_const f in
  do! oc := oldTime_instance_const (oldTimeName fc) in
  get_const (f_type f) oc (f_key f).

(** ** Histories: fields registered in any field collections from new documents
    or as copies, old-time requests, further documents constructed elsewhere. *)
Inductive wop :=
| WRegister (c : string) (f : field) (t i s : Z)     (* FieldCollection::instance(db, c), registerField *)
| WCopy (c name : string) (f : field) (t i s : Z)    (* the same with CreateFromExistingField *)
| WOldTime (f : field)
| WDocument (d : dict).
Definition w_step (w : dbworld) (o : wop) : dbworld :=
  match o with
  | WRegister c f t i s =>
      (mbind' (fieldCollection_instance c) (fun c => registerField (f_type f) c (fieldDocument f t i s)) w).2
  | WCopy c name f t i s =>
      (mbind' (fieldCollection_instance c) (fun c => registerField (f_type f) c (createFromExistingField name f t i s)) w).2
  | WOldTime f => (oldTime f w).2
  | WDocument d => (mdocument d hasId w).2
  end.
Definition w_run (os : list wop) : dbworld := foldl w_step (DbWorld 0 ∅) os.
