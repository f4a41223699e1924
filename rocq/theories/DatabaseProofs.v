From stdpp Require Export gmap fin_maps pretty.
From Verif Require Import Base Dict DictProofs Database.

(** ** Ids *)
Lemma int32_inj m n : (Z.abs (Z.of_nat m - Z.of_nat n) < 2 ^ 32)%Z -> int32_of m = int32_of n -> m = n.
Proof.
  unfold int32_of. intros Hd H.
  assert ((Z.of_nat m + 2 ^ 31) mod 2 ^ 32 = (Z.of_nat n + 2 ^ 31) mod 2 ^ 32)%Z as Hm by lia.
  pose proof (Z.div_mod (Z.of_nat m + 2 ^ 31) (2 ^ 32) ltac:(lia)) as H1.
  pose proof (Z.div_mod (Z.of_nat n + 2 ^ 31) (2 ^ 32) ltac:(lia)) as H2.
  rewrite Hm in H1. set (a := ((Z.of_nat m + 2 ^ 31) / 2 ^ 32)%Z) in *.
  set (b := ((Z.of_nat n + 2 ^ 31) / 2 ^ 32)%Z) in *.
  assert (a = b) by nia. nia.
Qed.
Lemma string_app_inj s a b : s +:+ a = s +:+ b -> a = b.
Proof.
  induction s as [|c s IH]; [done|]. intros H.
  change (String c (s +:+ a) = String c (s +:+ b)) in H. injection H as H. by apply IH.
Qed.
Lemma generateID_inj m n : (Z.abs (Z.of_nat m - Z.of_nat n) < 2 ^ 32)%Z -> generateID m = generateID n -> m = n.
Proof.
  intros Hd H. apply string_app_inj in H. apply (inj pretty) in H. by apply int32_inj.
Qed.
Lemma generateID_wrap n : generateID (n + Z.to_nat (2 ^ 32)) = generateID n.
Proof.
  unfold generateID, int32_of. rewrite Nat2Z.inj_add, Z2Nat.id by lia.
  do 2 f_equal. replace (Z.of_nat n + 2 ^ 32 + 2 ^ 31)%Z with (Z.of_nat n + 2 ^ 31 + 1 * 2 ^ 32)%Z by lia.
  by rewrite Z_mod_plus_full.
Qed.
Lemma generateID_nonempty n : generateID n <> "".
Proof. done. Qed.

Lemma make_document_spec d v n :
  let d1 := if dict_contains d "id" then d else dict_insert d "id" (AString (generateID n)) in
  make_document d v n = ((if v d1 then Ok d1 else Throw RuntimeError), S n).
Proof. done. Qed.

(** ** Database *)
Lemma db_step_lookup db o n :
  db_step db o !! n = match o with
                      | DbInsert k c => if decide (k = n) then match db !! n with Some c' => Some c' | None => Some c end
                                        else db !! n
                      | DbRemove k => if decide (k = n) then None else db !! n
                      end.
Proof.
  destruct o as [k c|k]; simpl.
  - unfold db_insert. destruct (decide (k = n)) as [->|Hk].
    + destruct (db !! n) eqn:E; simpl; [done|]. by rewrite lookup_insert.
    + destruct (db !! k) eqn:E; simpl; [done|]. by rewrite lookup_insert_ne.
  - unfold db_remove. destruct (decide (k = n)) as [->|Hk].
    + destruct (db !! n) eqn:E; simpl; [|done]. by rewrite lookup_delete.
    + destruct (db !! k) eqn:E; simpl; [|done]. by rewrite lookup_delete_ne.
Qed.

(** ** Computations *)
Lemma mbind_ok {A B} (m : M A) (f : A -> M B) w a w1 : m w = (Ok a, w1) -> mbind' m f w = f a w1.
Proof. intros H. unfold mbind'. by rewrite H. Qed.
Lemma mbind_throw {A B} (m : M A) (f : A -> M B) w e w1 : m w = (Throw e, w1) -> mbind' m f w = (Throw e, w1).
Proof. intros H. unfold mbind'. by rewrite H. Qed.
Lemma mbind_world {A B} (m : M A) (f : A -> M B) w w1 r :
  m w = (r, w1) -> (forall a, r <> Ok a) -> (mbind' m f w).2 = w1 /\ forall b, (mbind' m f w).1 <> Ok b.
Proof. intros H Hr. unfold mbind'. rewrite H. destruct r as [a| | |]; [by destruct (Hr a)|done..]. Qed.

(** ** Documents of fields *)
Definition fdict (name : string) (t i s : Z) (f : field) (id : string) : dict :=
  [("name", AString name); ("timeIndex", AInt64 t); ("iterationIndex", AInt64 i);
   ("subCycleIndex", AInt64 s); ("field", AField f); ("id", AString id)].

Lemma fieldDocument_spec f t i s w :
  fieldDocument f t i s w
  = (Ok (fdict (f_name f) t i s f (generateID (w_counter w))), DbWorld (2 + w_counter w) (w_colls w)).
Proof. destruct w. reflexivity. Qed.

Lemma registered_spec f : registered f = true <-> f_key f <> "" /\ f_coll f <> "" /\ f_db f = true.
Proof.
  unfold registered. rewrite !andb_true_iff, !negb_true_iff, !bool_decide_eq_false. tauto.
Qed.

Definition copy_of (name : string) (f : field) : field :=
  Field (f_type f) name (f_internal f) (f_boundary f) "" "" true.

Lemma createFromExistingField_cases name f t i s w :
  (exists e, createFromExistingField name f t i s w = (e, w) /\ forall x, e <> Ok x) \/
  (exists t' i' s', createFromExistingField name f t i s w
     = (Ok (fdict name t' i' s' (copy_of name f) (generateID (w_counter w))),
        DbWorld (2 + w_counter w) (w_colls w)) /\
     (t <> int64_max -> t' = t) /\ (i <> int64_max -> i' = i) /\ (s <> int64_max -> s' = s) /\
     (registered f = false -> t' = t /\ i' = i /\ s' = s) /\
     (registered f = true -> exists docs d,
        w_colls w !! f_coll f = Some (CField docs) /\ docs !! f_key f = Some d /\
        (t = int64_max -> doc_int "timeIndex" d = Ok t') /\
        (i = int64_max -> doc_int "iterationIndex" d = Ok i') /\
        (s = int64_max -> doc_int "subCycleIndex" d = Ok s'))).
Proof.
  unfold createFromExistingField. destruct (registered f) eqn:Er.
  2: { right. exists t, i, s. split; [destruct w; reflexivity|]. done. }
  set (inner := mbind' (instance_of_field_const f) _).
  assert (exists r, inner w = (r, w) /\
    forall t' i' s', r = Ok (t', i', s') -> exists docs d,
      w_colls w !! f_coll f = Some (CField docs) /\ docs !! f_key f = Some d /\
      default_int "timeIndex" d t = Ok t' /\ default_int "iterationIndex" d i = Ok i' /\
      default_int "subCycleIndex" d s = Ok s') as (r & Hr & Hok).
  { unfold inner, mbind', instance_of_field_const, fieldCollection_instance_const, fieldDoc, mbind', field_docs, mlift, mret.
    rewrite Er. unfold db_at. destruct (w_colls w !! f_coll f) as [[docs| |]|] eqn:Ec; cbn -[default_int];
      try (eexists; split; [reflexivity|]; done).
    rewrite Ec. destruct (docs !! f_key f) as [d|] eqn:Ed; [|eexists; split; [reflexivity|]; done].
    destruct (default_int "timeIndex" d t) as [t'|e| |] eqn:Et; cbn -[default_int];
      try (eexists; split; [reflexivity|]; done).
    destruct (default_int "iterationIndex" d i) as [i'|e| |] eqn:Ei; cbn -[default_int];
      try (eexists; split; [reflexivity|]; done).
    destruct (default_int "subCycleIndex" d s) as [s'|e| |] eqn:Es; cbn -[default_int];
      try (eexists; split; [reflexivity|]; done).
    eexists. split; [reflexivity|]. intros ? ? ? [= <- <- <-]. eauto 10. }
  clearbody inner. unfold mbind'. rewrite Hr.
  destruct r as [[[t' i'] s']|e| |]; try (left; eexists; by split).
  right. exists t', i', s'. split; [destruct w; reflexivity|].
  destruct (Hok _ _ _ eq_refl) as (docs & d & H1 & H2 & H3 & H4 & H5).
  unfold default_int in *.
  split; [intros Hn; rewrite decide_False in H3 by done; congruence|].
  split; [intros Hn; rewrite decide_False in H4 by done; congruence|].
  split; [intros Hn; rewrite decide_False in H5 by done; congruence|].
  split; [done|]. intros _. exists docs, d. split; [done|]. split; [done|].
  split; [intros Hn; rewrite decide_True in H3 by done; done|].
  split; [intros Hn; rewrite decide_True in H4 by done; done|].
  intros Hn; rewrite decide_True in H5 by done; done.
Qed.

Lemma doc_field_fdict name t i s f id : doc_field (f_type f) (fdict name t i s f id) = Ok f.
Proof. unfold doc_field, dict_get, dict_at, any_cast. simpl. by rewrite decide_True. Qed.

Lemma registerField_spec c create name t i s f w w1 docs id :
  create w = (Ok (fdict name t i s f id), w1) ->
  w_colls w1 !! c = Some (CField docs) -> docs !! id = None ->
  registerField (f_type f) c create w
  = (Ok id, DbWorld (w_counter w1) (<[c := CField (<[id := fdict name t i s (with_key f id c) id]> docs)]> (w_colls w1))).
Proof.
  intros Hc Hw Hid. unfold registerField. rewrite (mbind_ok _ _ _ _ _ Hc).
  change (validateFieldDoc (fdict name t i s f id)) with true. cbn match.
  set (w2 := DbWorld (w_counter w1) (<[c := CField (<[id := fdict name t i s f id]> docs)]> (w_colls w1))).
  rewrite (mbind_ok _ _ w1 id w2).
  2: { unfold fieldCollection_insert. rewrite (mbind_ok _ _ w1 id w1) by reflexivity.
       rewrite (mbind_ok _ _ w1 docs w1) by (unfold field_docs; by rewrite Hw). rewrite Hid. reflexivity. }
  assert (field_docs c w2 = (Ok (<[id := fdict name t i s f id]> docs), w2)) as Hf2.
  { unfold field_docs, w2. simpl. by rewrite lookup_insert. }
  rewrite (mbind_ok _ _ w2 (fdict name t i s f id) w2).
  2: { unfold fieldDoc. rewrite (mbind_ok _ _ _ _ _ Hf2). by rewrite lookup_insert. }
  rewrite (mbind_ok _ _ w2 f w2) by (unfold mlift; by rewrite doc_field_fdict).
  unfold update_doc. unfold mbind' at 1. rewrite (mbind_ok _ _ _ _ _ Hf2).
  unfold set_coll, mret, w2. simpl. by rewrite !insert_insert.
Qed.

(** ** Invariant of all histories *)
Record field_entry (w : dbworld) (c k : string) (d : dict) : Prop := {
  fe_shape : exists name t i s f, d = fdict name t i s f k /\ f_key f = k /\ f_coll f = c /\ (t <= int64_max)%Z;
  fe_id : exists n, n < w_counter w /\ k = generateID n;
}.
Record link_entry (w : dbworld) (c fc : string) (docs : gmap string oldDoc) (k : string) (d : oldDoc) : Prop := {
  le_id : od_id d = k;
  le_num : exists n, n < w_counter w /\ k = generateID n;
  le_order : exists m n, m < n < w_counter w /\ od_next d = generateID m /\ od_prev d = generateID n;
  le_fields : exists fdocs dn dp fn fp, w_colls w !! fc = Some (CField fdocs) /\
                fdocs !! od_next d = Some dn /\ fdocs !! od_prev d = Some dp /\
                dfind dn "field" = Some (AField fn) /\ dfind dp "field" = Some (AField fp) /\
                f_type fn = f_type fp;
  le_level : (exists k' d', docs !! k' = Some d' /\ od_prev d' = od_next d /\
                od_cur d = od_cur d' /\ od_level d = (od_level d' + 1)%Z) \/
             ((forall k' d', docs !! k' = Some d' -> od_prev d' <> od_next d) /\
              od_cur d = od_next d /\ od_level d = 1%Z);
}.
Record dbinv (w : dbworld) : Prop := {
  inv_field : forall c docs k d, w_colls w !! c = Some (CField docs) -> docs !! k = Some d -> field_entry w c k d;
  inv_old : forall c fc docs, w_colls w !! c = Some (COld fc docs) ->
     c = oldTimeName fc /\ exists fdocs, w_colls w !! fc = Some (CField fdocs);
  inv_link : forall c fc docs k d, w_colls w !! c = Some (COld fc docs) -> docs !! k = Some d ->
     link_entry w c fc docs k d;
  inv_next : forall c fc docs k1 k2 d1 d2, w_colls w !! c = Some (COld fc docs) ->
     docs !! k1 = Some d1 -> docs !! k2 = Some d2 -> od_next d1 = od_next d2 -> k1 = k2;
  inv_prev : forall c fc docs k1 k2 d1 d2, w_colls w !! c = Some (COld fc docs) ->
     docs !! k1 = Some d1 -> docs !! k2 = Some d2 -> od_prev d1 = od_prev d2 -> k1 = k2;
}.

(** What no step undoes. *)
Definition extends (w w' : dbworld) : Prop :=
  w_counter w <= w_counter w' /\
  forall c, match w_colls w !! c with
            | Some (CField docs) => exists docs', w_colls w' !! c = Some (CField docs') /\ docs ⊆ docs'
            | Some (COld fc docs) => exists docs', w_colls w' !! c = Some (COld fc docs') /\ docs ⊆ docs'
            | Some (COther t) => w_colls w' !! c = Some (COther t)
            | None => True
            end.
Lemma extends_refl w : extends w w.
Proof. split; [lia|]. intros c. destruct (w_colls w !! c) as [[]|]; eauto. Qed.
Lemma extends_trans a b c : extends a b -> extends b c -> extends a c.
Proof.
  intros [H1 H2] [H3 H4]. split; [lia|]. intros x. specialize (H2 x). specialize (H4 x).
  destruct (w_colls a !! x) as [[d|fc d|t]|]; [| | |done].
  - destruct H2 as (d' & E & Hd). rewrite E in H4. destruct H4 as (d'' & E' & Hd'). exists d''.
    split; [done|]. by etrans.
  - destruct H2 as (d' & E & Hd). rewrite E in H4. destruct H4 as (d'' & E' & Hd'). exists d''.
    split; [done|]. by etrans.
  - by rewrite H2 in H4.
Qed.

Lemma field_entry_counter w w' c k d : w_counter w <= w_counter w' -> field_entry w c k d -> field_entry w' c k d.
Proof. intros Hn [H1 (n & Hl & Hk)]. split; [done|]. exists n. split; [lia|done]. Qed.
Lemma link_entry_mono w w' c fc docs k d :
  w_counter w <= w_counter w' ->
  (forall fd, w_colls w !! fc = Some (CField fd) -> exists fd', w_colls w' !! fc = Some (CField fd') /\ fd ⊆ fd') ->
  link_entry w c fc docs k d -> link_entry w' c fc docs k d.
Proof.
  intros Hn Hf [H1 (n & Hl & Hk) (m & n' & Hmn & ? & ?) (fd & dn & dp & fn & fp & Hfd & Ha & Hb & Hx & Hy & Ht) H5].
  destruct (Hf _ Hfd) as (fd' & Hfd' & Hsub).
  split; try done.
  - exists n. split; [lia|done].
  - exists m, n'. split; [lia|done].
  - exists fd', dn, dp, fn, fp. split; [done|]. split; [by eapply lookup_weaken|]. split; [by eapply lookup_weaken|]. done.
Qed.

(** Only the counter advances. *)
Lemma dbinv_counter w n : w_counter w <= n -> dbinv w -> dbinv (DbWorld n (w_colls w)).
Proof.
  intros Hn [H1 H2 H3 H4 H5]. split; try done.
  - intros c docs k d Hc Hd. eapply field_entry_counter; [|by eapply H1]. done.
  - intros c fc docs k d Hc Hd. eapply link_entry_mono; [done| |by eapply H3]. simpl. eauto.
Qed.
Lemma extends_counter w n : w_counter w <= n -> extends w (DbWorld n (w_colls w)).
Proof. intros Hn. split; [done|]. intros c. simpl. destruct (w_colls w !! c) as [[]|]; eauto. Qed.

(** A new empty field collection. *)
Lemma fieldCollection_instance_spec c w :
  dbinv w ->
  (exists docs, fieldCollection_instance c w = (Ok c, w) /\ w_colls w !! c = Some (CField docs)) \/
  (fieldCollection_instance c w = (Throw BadCast, w) /\ (exists x, w_colls w !! c = Some x /\ forall d, x <> CField d)) \/
  (let w' := DbWorld (w_counter w) (<[c := CField ∅]> (w_colls w)) in
   fieldCollection_instance c w = (Ok c, w') /\ w_colls w !! c = None /\ dbinv w' /\ extends w w').
Proof.
  intros Hi. unfold fieldCollection_instance, db_insert. destruct (w_colls w !! c) as [x|] eqn:E.
  - destruct x as [docs|fc docs|t]; simpl.
    + left. exists docs. split; [by destruct w|done].
    + right. left. split; [by destruct w|]. eauto.
    + right. left. split; [by destruct w|]. eauto.
  - right. right. simpl. split; [done|]. split; [done|].
    assert (extends w (DbWorld (w_counter w) (<[c := CField ∅]> (w_colls w)))) as Hext.
    { split; [done|]. intros c'. simpl. destruct (decide (c' = c)) as [->|Hc]; [by rewrite E|].
      rewrite lookup_insert_ne by done. destruct (w_colls w !! c') as [[]|]; eauto. }
    split; [|done]. destruct Hi as [H1 H2 H3 H4 H5]. split; simpl.
    + intros c' docs k d Hc Hd. apply lookup_insert_Some in Hc as [[-> Hx]|[Hne Hc]].
      * injection Hx as <-. by rewrite lookup_empty in Hd.
      * eapply field_entry_counter; [|by eapply H1]. done.
    + intros c' fc docs Hc. apply lookup_insert_Some in Hc as [[-> Hx]|[Hne Hc]]; [done|].
      destruct (H2 _ _ _ Hc) as [-> [fd Hfd]]. split; [done|]. exists fd.
      rewrite lookup_insert_ne; [done|]. intros ->. congruence.
    + intros c' fc docs k d Hc Hd. apply lookup_insert_Some in Hc as [[-> Hx]|[Hne Hc]]; [done|].
      eapply link_entry_mono; [| |by eapply H3]; [done|]. intros fd Hfd. exists fd.
      split; [|done]. simpl. rewrite lookup_insert_ne; [done|]. intros ->. congruence.
    + intros c' fc docs k1 k2 d1 d2 Hc. apply lookup_insert_Some in Hc as [[-> Hx]|[Hne Hc]]; [done|].
      by eapply H4.
    + intros c' fc docs k1 k2 d1 d2 Hc. apply lookup_insert_Some in Hc as [[-> Hx]|[Hne Hc]]; [done|].
      by eapply H5.
Qed.

(** A new document in a field collection. *)
Lemma dbinv_add_doc w c docs n m name t i s f :
  dbinv w -> w_colls w !! c = Some (CField docs) -> w_counter w <= n < m -> (Z.of_nat m <= 2 ^ 32)%Z -> (t <= int64_max)%Z ->
  let id := generateID n in
  let w' := DbWorld m (<[c := CField (<[id := fdict name t i s (with_key f id c) id]> docs)]> (w_colls w)) in
  docs !! id = None /\ dbinv w' /\ extends w w'.
Proof.
  intros Hi Hc Hn Hm Htmax id w'.
  assert (docs !! id = None) as Hid.
  { destruct (docs !! id) as [d|] eqn:E; [|done]. destruct (inv_field w Hi _ _ _ _ Hc E) as [_ (n' & Hl & Hk)].
    apply generateID_inj in Hk; lia. }
  assert (extends w w') as Hext.
  { split; [simpl; lia|]. intros c'. simpl. destruct (decide (c' = c)) as [->|Hne].
    - rewrite Hc, lookup_insert. eexists. split; [done|]. by apply insert_subseteq.
    - rewrite lookup_insert_ne by done. destruct (w_colls w !! c') as [[]|]; eauto. }
  split; [done|]. split; [|done]. destruct Hi as [H1 H2 H3 H4 H5].
  assert (forall fc fd, w_colls w !! fc = Some (CField fd) ->
    exists fd', w_colls w' !! fc = Some (CField fd') /\ fd ⊆ fd') as Hf.
  { intros fc fd Hfd. destruct Hext as [_ Hx]. specialize (Hx fc). by rewrite Hfd in Hx. }
  split.
  - intros c' docs' k d Hc' Hd. simpl in Hc'. apply lookup_insert_Some in Hc' as [[<- Hx]|[Hne Hc']].
    + injection Hx as <-. apply lookup_insert_Some in Hd as [[<- <-]|[Hne Hd]].
      * split; [exists name, t, i, s, (with_key f id c); done|]. exists n. split; [simpl; lia|done].
      * eapply field_entry_counter; [|by eapply H1]. simpl. lia.
    + eapply field_entry_counter; [|by eapply H1]. simpl. lia.
  - intros c' fc docs' Hc'. simpl in Hc'. apply lookup_insert_Some in Hc' as [[<- Hx]|[Hne Hc']]; [done|].
    destruct (H2 _ _ _ Hc') as [-> [fd Hfd]]. split; [done|]. destruct (Hf _ _ Hfd) as (fd' & ? & _). eauto.
  - intros c' fc docs' k d Hc' Hd. simpl in Hc'. apply lookup_insert_Some in Hc' as [[<- Hx]|[Hne Hc']]; [done|].
    eapply link_entry_mono; [| |by eapply H3]; [simpl; lia|]. intros fd Hfd. by apply Hf.
  - intros c' fc docs' k1 k2 d1 d2 Hc'. simpl in Hc'. apply lookup_insert_Some in Hc' as [[<- Hx]|[Hne Hc']]; [done|].
    by eapply H4.
  - intros c' fc docs' k1 k2 d1 d2 Hc'. simpl in Hc'. apply lookup_insert_Some in Hc' as [[<- Hx]|[Hne Hc']]; [done|].
    by eapply H5.
Qed.

Lemma str_length_app a b : String.length (a +:+ b) = String.length a + String.length b.
Proof.
  induction a as [|x a IH]; [done|].
  exact (f_equal S IH).
Qed.
Lemma oldTimeName_inj a b : oldTimeName a = oldTimeName b -> a = b.
Proof.
  unfold oldTimeName. revert b. induction a as [|x a IH]; intros [|y b] H; [done| | |].
  - apply (f_equal String.length) in H. rewrite !str_length_app in H. simpl in H. lia.
  - apply (f_equal String.length) in H. rewrite !str_length_app in H. simpl in H. lia.
  - change (String x (a +:+ "_oldTime") = String y (b +:+ "_oldTime")) in H.
    injection H as -> H. f_equal. by apply IH.
Qed.

(** The instance of an old-time collection. *)
Lemma oldTime_instance_spec fc w fdocs :
  dbinv w -> w_colls w !! fc = Some (CField fdocs) ->
  (exists docs, oldTime_instance (oldTimeName fc) fc w = (Ok (oldTimeName fc), w) /\
     w_colls w !! oldTimeName fc = Some (COld fc docs)) \/
  (oldTime_instance (oldTimeName fc) fc w = (Throw BadCast, w) /\
     exists x, w_colls w !! oldTimeName fc = Some x /\ forall f d, x <> COld f d) \/
  (let w' := DbWorld (w_counter w) (<[oldTimeName fc := COld fc ∅]> (w_colls w)) in
   oldTime_instance (oldTimeName fc) fc w = (Ok (oldTimeName fc), w') /\ w_colls w !! oldTimeName fc = None /\
   dbinv w' /\ extends w w').
Proof.
  intros Hi Hfc. unfold oldTime_instance, db_insert. destruct (w_colls w !! oldTimeName fc) as [x|] eqn:E.
  - destruct x as [docs|fc' docs|t]; simpl.
    + right. left. split; [by destruct w|]. eauto.
    + left. destruct (inv_old w Hi _ _ _ E) as [Hn _].
      assert (fc = fc') as <-.
      { by apply oldTimeName_inj. }
      exists docs. split; [by destruct w|done].
    + right. left. split; [by destruct w|]. eauto.
  - right. right. simpl. split; [done|]. split; [done|].
    assert (extends w (DbWorld (w_counter w) (<[oldTimeName fc := COld fc ∅]> (w_colls w)))) as Hext.
    { split; [done|]. intros c'. simpl. destruct (decide (c' = oldTimeName fc)) as [->|Hc]; [by rewrite E|].
      rewrite lookup_insert_ne by done. destruct (w_colls w !! c') as [[]|]; eauto. }
    split; [|done]. destruct Hi as [H1 H2 H3 H4 H5].
    assert (forall fc' fd, w_colls w !! fc' = Some (CField fd) ->
       <[oldTimeName fc := COld fc ∅]> (w_colls w) !! fc' = Some (CField fd)) as Hf.
    { intros fc' fd Hfd. rewrite lookup_insert_ne; [done|]. intros <-. congruence. }
    split; simpl.
    + intros c' docs k d Hc Hd. apply lookup_insert_Some in Hc as [[<- Hx]|[Hne Hc]]; [done|].
      eapply field_entry_counter; [|by eapply H1]. done.
    + intros c' fc' docs Hc. apply lookup_insert_Some in Hc as [[<- Hx]|[Hne Hc]].
      * injection Hx as <- <-. split; [done|]. exists fdocs. by apply Hf.
      * destruct (H2 _ _ _ Hc) as [-> [fd Hfd]]. split; [done|]. exists fd. by apply Hf.
    + intros c' fc' docs k d Hc Hd. apply lookup_insert_Some in Hc as [[<- Hx]|[Hne Hc]].
      * injection Hx as <- <-. by rewrite lookup_empty in Hd.
      * eapply link_entry_mono; [| |by eapply H3]; [done|]. intros fd Hfd. exists fd. split; [|done]. by apply Hf.
    + intros c' fc' docs k1 k2 d1 d2 Hc Hd1 Hd2. apply lookup_insert_Some in Hc as [[<- Hx]|[Hne Hc]].
      * injection Hx as <- <-. by rewrite lookup_empty in Hd1.
      * by eapply H4.
    + intros c' fc' docs k1 k2 d1 d2 Hc Hd1 Hd2. apply lookup_insert_Some in Hc as [[<- Hx]|[Hne Hc]].
      * injection Hx as <- <-. by rewrite lookup_empty in Hd1.
      * by eapply H5.
Qed.

(** ** Looking up links *)
Lemma findDoc_hit sel (docs : gmap string oldDoc) id k d :
  docs !! k = Some d -> sel d = id -> od_id d = k ->
  (forall k' d', docs !! k' = Some d' -> sel d' = id -> k' = k) ->
  findDoc sel docs id = k.
Proof.
  intros Hd Hs Hk Hu. unfold findDoc.
  set (l := filter _ _).
  assert (forall kd, kd ∈ l <-> kd = (k, d)) as Hl.
  { intros [k' d']. unfold l. rewrite elem_of_list_filter, elem_of_map_to_list. simpl. split.
    - intros [Hs' Hd']. assert (k' = k) as -> by (by eapply Hu). congruence.
    - intros [= -> ->]. done. }
  assert (NoDup l) as Hn by (apply NoDup_filter, NoDup_map_to_list).
  destruct l as [|a [|b l]].
  - assert ((k, d) ∈ @nil (string * oldDoc)) as Hi by (by apply Hl). by apply elem_of_nil in Hi.
  - assert (a = (k, d)) as -> by (apply Hl; left). done.
  - assert (a = (k, d)) as -> by (apply Hl; left).
    assert (b = (k, d)) as -> by (apply Hl; right; left).
    apply NoDup_cons in Hn as [Hn _]. destruct Hn. left.
Qed.
Lemma findDoc_miss sel (docs : gmap string oldDoc) id :
  (forall k d, docs !! k = Some d -> sel d <> id) -> findDoc sel docs id = "".
Proof.
  intros Hu. unfold findDoc. set (l := filter _ _).
  destruct l as [|[k d] l0] eqn:E; [done|]. exfalso.
  assert ((k, d) ∈ l) as Hi by (rewrite E; left). unfold l in Hi.
  rewrite elem_of_list_filter, elem_of_map_to_list in Hi. destruct Hi as [Hs Hd]. by eapply Hu.
Qed.
Lemma link_dec sel (docs : gmap string oldDoc) (id : string) :
  (exists k d, docs !! k = Some d /\ sel d = id) \/ (forall k d, docs !! k = Some d -> sel d <> id).
Proof.
  destruct (decide (map_Forall (fun _ d => sel d <> id) docs)) as [H|H].
  - right. exact H.
  - left. apply map_not_Forall in H; [|intros ? ?; apply _]. destruct H as (k & d & Hd & Hn). exists k, d.
    split; [done|]. destruct (decide (sel d = id)); done.
Qed.

(** A new link. *)
Definition new_link (docs : gmap string oldDoc) (k next prev : string) (d : oldDoc) : Prop :=
  od_id d = k /\ od_next d = next /\ od_prev d = prev /\
  ((exists k' d', docs !! k' = Some d' /\ od_prev d' = next /\
      od_cur d = od_cur d' /\ od_level d = (od_level d' + 1)%Z) \/
   ((forall k' d', docs !! k' = Some d' -> od_prev d' <> next) /\ od_cur d = next /\ od_level d = 1%Z)).

Lemma setCurrent_spec docs k next prev cur lev :
  (forall k d, docs !! k = Some d -> od_id d = k /\ k <> "") ->
  (forall k1 k2 d1 d2, docs !! k1 = Some d1 -> docs !! k2 = Some d2 -> od_prev d1 = od_prev d2 -> k1 = k2) ->
  exists d, setCurrentFieldAndLevel docs (OldDoc k next prev cur lev) = Ok d /\ new_link docs k next prev d.
Proof.
  intros Hid Hinj. unfold setCurrentFieldAndLevel. simpl.
  destruct (link_dec od_prev docs next) as [(k' & d' & Hd' & Hp)|Hno].
  - assert (findPreviousTime docs next = k') as Hf.
    { apply (findDoc_hit _ _ _ _ d'); [done|done|by apply Hid|].
      intros k2 d2 H2 Hs. eapply Hinj; [exact H2|exact Hd'|congruence]. }
    rewrite Hf. destruct (Hid _ _ Hd') as [_ Hne]. rewrite decide_False by done. rewrite Hd'.
    eexists. split; [done|]. split; [done|]. split; [done|]. split; [done|]. left. exists k', d'. done.
  - assert (findPreviousTime docs next = "") as -> by (by apply findDoc_miss).
    rewrite decide_True by done. eexists. split; [done|]. split; [done|]. split; [done|]. split; [done|]. by right.
Qed.

Lemma dbinv_add_link w fc docs fdocs m n id k d dn dp fn fp :
  dbinv w -> w_colls w !! oldTimeName fc = Some (COld fc docs) ->
  w_colls w !! fc = Some (CField fdocs) ->
  fdocs !! od_next d = Some dn -> fdocs !! od_prev d = Some dp ->
  dfind dn "field" = Some (AField fn) -> dfind dp "field" = Some (AField fp) -> f_type fn = f_type fp ->
  m < n < w_counter w -> od_next d = generateID m -> od_prev d = generateID n ->
  k = generateID id -> w_counter w <= id -> (Z.of_nat (S id) <= 2 ^ 32)%Z ->
  (forall k' d', docs !! k' = Some d' -> od_next d' <> od_next d) ->
  (forall k' d', docs !! k' = Some d' -> od_prev d' <> od_prev d /\ od_next d' <> od_prev d) ->
  new_link docs k (od_next d) (od_prev d) d ->
  let w' := DbWorld (S id) (<[oldTimeName fc := COld fc (<[k := d]> docs)]> (w_colls w)) in
  docs !! k = None /\ dbinv w' /\ extends w w'.
Proof.
  intros Hi Hc Hfc Hnx Hpv Hfn Hfp Hty Hmn Hm Hn Hk Hid Hbound Hnn Hpp (Hdk & _ & _ & Hlev) w'.
  assert (docs !! k = None) as Hk0.
  { destruct (docs !! k) as [d'|] eqn:E; [|done]. exfalso.
    destruct (inv_link w Hi _ _ _ _ _ Hc E) as [_ (n' & Hl & Hk') _ _ _].
    rewrite Hk in Hk'. apply generateID_inj in Hk'; lia. }
  assert (fc <> oldTimeName fc) as Hne by (intros He; rewrite <- He in Hc; congruence).
  assert (extends w w') as Hext.
  { split; [simpl; lia|]. intros c'. simpl. destruct (decide (c' = oldTimeName fc)) as [->|Hne'].
    - rewrite Hc, lookup_insert. eexists. split; [done|]. by apply insert_subseteq.
    - rewrite lookup_insert_ne by done. destruct (w_colls w !! c') as [[]|]; eauto. }
  split; [done|]. split; [|done].
  assert (forall c fd, w_colls w !! c = Some (CField fd) -> w_colls w' !! c = Some (CField fd)) as Hf.
  { intros c fd Hfd. simpl. rewrite lookup_insert_ne; [done|]. intros <-. congruence. }
  destruct Hi as [H1 H2 H3 H4 H5]. split.
  - intros c' docs' k' d' Hc' Hd. simpl in Hc'. apply lookup_insert_Some in Hc' as [[<- Hx]|[Hne' Hc']]; [done|].
    eapply field_entry_counter; [|by eapply H1]. simpl. lia.
  - intros c' fc' docs' Hc'. simpl in Hc'. apply lookup_insert_Some in Hc' as [[<- Hx]|[Hne' Hc']].
    + injection Hx as <- <-. split; [done|]. exists fdocs. by apply Hf.
    + destruct (H2 _ _ _ Hc') as [-> [fd Hfd]]. split; [done|]. exists fd. by apply Hf.
  - intros c' fc' docs' k' d' Hc' Hd. simpl in Hc'. apply lookup_insert_Some in Hc' as [[<- Hx]|[Hne' Hc']].
    + injection Hx as <- <-. apply lookup_insert_Some in Hd as [[<- <-]|[Hne' Hd]].
      * split; [done| | | |].
        -- exists id. split; [simpl; lia|done].
        -- exists m, n. split; [simpl; lia|done].
        -- exists fdocs, dn, dp, fn, fp. split; [by apply Hf|done].
        -- destruct Hlev as [(k2 & d2 & Hd2 & Hp2 & Hcc & Hll)|(Hno & Hcc & Hll)].
           ++ left. exists k2, d2. split; [|done]. rewrite lookup_insert_ne; [done|]. intros <-. congruence.
           ++ right. split; [|done]. intros k2 d2 Hd2. apply lookup_insert_Some in Hd2 as [[<- <-]|[_ Hd2]].
              ** rewrite Hm, Hn. intros He. apply generateID_inj in He; lia.
              ** by eapply Hno.
      * destruct (H3 _ _ _ _ _ Hc Hd) as [L1 (a & La & Lb) (m' & n' & L3a & L3b & L3c) (fd & a1 & a2 & a3 & a4 & L4) L5].
        split; [done| | | |].
        -- exists a. split; [simpl; lia|done].
        -- exists m', n'. split; [simpl; lia|done].
        -- destruct L4 as [L4 L4b]. exists fd, a1, a2, a3, a4. split; [by apply Hf|]. exact L4b.
        -- destruct L5 as [(k2 & d2 & Hd2 & L5)|(Hno & L5)].
           ++ left. exists k2, d2. split; [|done]. rewrite lookup_insert_ne; [done|]. intros <-. congruence.
           ++ right. split; [|done]. intros k2 d2 Hd2. apply lookup_insert_Some in Hd2 as [[<- <-]|[_ Hd2]].
              ** intros He. destruct (Hpp _ _ Hd) as [_ Hq]. by destruct Hq.
              ** by eapply Hno.
    + eapply link_entry_mono; [| |by eapply H3]; [simpl; lia|]. intros fd Hfd. exists fd. split; [|done]. by apply Hf.
  - intros c' fc' docs' k1 k2 d1 d2 Hc' Hd1 Hd2 He. simpl in Hc'. apply lookup_insert_Some in Hc' as [[<- Hx]|[Hne' Hc']].
    + injection Hx as <- <-. apply lookup_insert_Some in Hd1 as [[<- <-]|[Hne1 Hd1]];
        apply lookup_insert_Some in Hd2 as [[<- <-]|[Hne2 Hd2]].
      * done.
      * by destruct (Hnn _ _ Hd2).
      * by destruct (Hnn _ _ Hd1).
      * by eapply H4.
    + by eapply H4.
  - intros c' fc' docs' k1 k2 d1 d2 Hc' Hd1 Hd2 He. simpl in Hc'. apply lookup_insert_Some in Hc' as [[<- Hx]|[Hne' Hc']].
    + injection Hx as <- <-. apply lookup_insert_Some in Hd1 as [[<- <-]|[Hne1 Hd1]];
        apply lookup_insert_Some in Hd2 as [[<- <-]|[Hne2 Hd2]].
      * done.
      * destruct (Hpp _ _ Hd2) as [Hq _]. by destruct Hq.
      * by destruct (Hpp _ _ Hd1).
      * by eapply H5.
    + by eapply H5.
Qed.

Lemma doc_int_fdict name t i s f id :
  doc_int "timeIndex" (fdict name t i s f id) = Ok t /\
  doc_int "iterationIndex" (fdict name t i s f id) = Ok i /\
  doc_int "subCycleIndex" (fdict name t i s f id) = Ok s.
Proof. done. Qed.

Lemma createFrom_stored name f t w fdocs name0 t0 i0 s0 k :
  w_colls w !! f_coll f = Some (CField fdocs) -> fdocs !! f_key f = Some (fdict name0 t0 i0 s0 f k) ->
  t <> int64_max ->
  createFromExistingField name f t i0 s0 w
  = (Ok (fdict name t i0 s0 (copy_of name f) (generateID (w_counter w))), DbWorld (2 + w_counter w) (w_colls w)).
Proof.
  intros Hc Hk Ht. unfold createFromExistingField.
  rewrite (mbind_ok _ _ w (t, i0, s0) w).
  - destruct w; reflexivity.
  - destruct (registered f) eqn:Er; [|done].
    rewrite (mbind_ok _ _ w (f_coll f) w).
    2: { unfold instance_of_field_const. rewrite Er. unfold fieldCollection_instance_const, db_at. by rewrite Hc. }
    rewrite (mbind_ok _ _ w (fdict name0 t0 i0 s0 f k) w).
    2: { unfold fieldDoc. rewrite (mbind_ok _ _ w fdocs w) by (unfold field_docs; by rewrite Hc). by rewrite Hk. }
    unfold mlift, default_int. destruct (doc_int_fdict name0 t0 i0 s0 f k) as (-> & -> & ->).
    rewrite decide_False by done. destruct (decide (i0 = int64_max)), (decide (s0 = int64_max)); done.
Qed.

(** The world after the first request. *)
Definition old_created (w : dbworld) (fc id : string) (docs : gmap string oldDoc) (fdocs : gmap string dict)
    (name : string) (t i s : Z) (f : field) (d : oldDoc) (w' : dbworld) : Prop :=
  let key := generateID (w_counter w) in
  let name0 := f_name f +:+ "_0" in
  fdocs !! id = Some (fdict name t i s f id) /\
  fdocs !! key = None /\ docs !! od_id d = None /\
  (forall k' d', docs !! k' = Some d' -> od_next d' <> id) /\
  new_link docs (od_id d) id key d /\
  w' = DbWorld (3 + w_counter w)
        (<[oldTimeName fc := COld fc (<[od_id d := d]> docs)]>
          (<[fc := CField (<[key := fdict name0 (t - 1) i s (with_key (copy_of name0 f) key fc) key]> fdocs)]>
            (w_colls w))).

Lemma getOrInsert_cases T w fc docs id :
  dbinv w -> w_colls w !! oldTimeName fc = Some (COld fc docs) -> (Z.of_nat (w_counter w) + 3 <= 2 ^ 32)%Z ->
  exists fdocs, w_colls w !! fc = Some (CField fdocs) /\
  ((exists r, getOrInsert T (oldTimeName fc) id w = (r, w) /\ (forall x, r <> Ok x) /\
      (fdocs !! id = None \/
       exists name t i s f, fdocs !! id = Some (fdict name t i s f id) /\
         (f_type f <> T \/ ((forall k' d', docs !! k' = Some d' -> od_next d' <> id) /\ t = int64_min)))) \/
   (exists k d, docs !! k = Some d /\ od_next d = id /\
      (exists name t i s g, fdocs !! id = Some (fdict name t i s g id) /\ f_type g = T) /\
      getOrInsert T (oldTimeName fc) id w = (Ok (fc, od_prev d), w)) \/
   (exists name t i s f d w', f_type f = T /\
      old_created w fc id docs fdocs name t i s f d w' /\
      getOrInsert T (oldTimeName fc) id w = (Ok (fc, generateID (w_counter w)), w') /\
      dbinv w' /\ extends w w')).
Proof.
  intros Hi Hc Hb. destruct (inv_old w Hi _ _ _ Hc) as [_ [fdocs Hfc]]. exists fdocs. split; [done|].
  assert (fieldCollection_instance fc w = (Ok fc, w)) as Hinst.
  { unfold fieldCollection_instance, db_insert. rewrite Hfc. by destruct w. }
  assert (old_docs (oldTimeName fc) w = (Ok (fc, docs), w)) as Hold by (unfold old_docs; by rewrite Hc).
  assert (forall k d, docs !! k = Some d -> od_id d = k /\ k <> "") as Hids.
  { intros k d Hd. destruct (inv_link w Hi _ _ _ _ _ Hc Hd) as [H1 (n & _ & ->) _ _ _]. done. }
  unfold getOrInsert. rewrite (mbind_ok _ _ _ _ _ Hold). cbn [fst snd]. rewrite (mbind_ok _ _ _ _ _ Hinst).
  assert (forall key, field_docs fc w = (Ok fdocs, w) /\
     fieldDoc fc key w = (match fdocs !! key with Some d => Ok d | None => Throw OutOfRange end, w)) as Hfd.
  { intros key. assert (field_docs fc w = (Ok fdocs, w)) as Hx by (unfold field_docs; by rewrite Hfc).
    split; [done|]. unfold fieldDoc. by rewrite (mbind_ok _ _ _ _ _ Hx). }
  destruct (link_dec od_next docs id) as [(k & d & Hd & Hn)|Hno].
  - assert (findNextTime docs id = k) as ->.
    { apply (findDoc_hit _ _ _ _ d); [done|done|by apply Hids|].
      intros k' d' Hd' Hs. eapply (inv_next w Hi); [exact Hc|exact Hd'|exact Hd|congruence]. }
    rewrite decide_True by (by eapply Hids). rewrite (mbind_ok _ _ w d w) by (unfold mlift; by rewrite Hd).
    destruct (inv_link w Hi _ _ _ _ _ Hc Hd) as [_ _ _ (fd & dn & dp & fn & fp & Hfd' & Hdn & Hdp & Hfn & Hfp & Hty) _].
    assert (fd = fdocs) as -> by congruence.
    rewrite (mbind_ok _ _ w dp w) by (destruct (Hfd (od_prev d)) as [_ ->]; by rewrite Hdp).
    unfold mbind', mlift, doc_field, dict_get, dict_at, any_cast. rewrite Hfp. simpl.
    destruct (decide (Some (TField (f_type fp)) = Some (TField T))) as [He|He]; simpl.
    + right. left. exists k, d. split; [done|]. split; [done|]. split; [|done].
      destruct (inv_field w Hi _ _ _ _ Hfc Hdn) as [(name & t & i & s & f & -> & Hfk & Hfcoll & Htmax) _].
      simpl in Hfn. injection Hfn as ->. exists name, t, i, s, fn. rewrite <- Hn. split; [done|]. congruence.
    + left. eexists. split; [reflexivity|]. split; [done|]. right.
      destruct (inv_field w Hi _ _ _ _ Hfc Hdn) as [(name & t & i & s & f & -> & Hfk & Hfcoll & Htmax) _].
      simpl in Hfn. injection Hfn as ->. exists name, t, i, s, fn. rewrite Hn in Hdn. split; [by rewrite Hn in *|].
      left. intros <-. by rewrite Hty in He.
  - assert (findNextTime docs id = "") as -> by (by apply findDoc_miss).
    rewrite decide_False by (intros H; by apply H).
    destruct (fdocs !! id) as [fd|] eqn:Efd.
    2: { left. eexists. split; [|split; [|by left]].
         - rewrite (mbind_throw _ _ w OutOfRange w); [reflexivity|]. destruct (Hfd id) as [_ ->]. by rewrite Efd.
         - done. }
    destruct (inv_field w Hi _ _ _ _ Hfc Efd) as [(name & t & i & s & f & -> & Hfk & Hfcoll & Htmax) (m & Hm & Hidm)].
    rewrite (mbind_ok _ _ w (fdict name t i s f id) w) by (destruct (Hfd id) as [_ ->]; by rewrite Efd).
    destruct (decide (f_type f = T)) as [<-|Hty].
    2: { left. eexists. split; [|split].
         - rewrite (mbind_throw _ _ w BadAnyCast w); [reflexivity|]. unfold mlift, doc_field, dict_get, dict_at, any_cast.
           simpl. rewrite decide_False; [done|]. intros [= He]. done.
         - done.
         - right. exists name, t, i, s, f. split; [done|]. by left. }
    rewrite (mbind_ok _ _ w f w) by (unfold mlift; by rewrite doc_field_fdict).
    rewrite (mbind_ok _ _ w t w) by done.
    destruct (decide (t = int64_min)) as [Ht|Ht].
    { left. eexists. split; [|split].
      - unfold mbind' at 1. cbn [mlift]. reflexivity.
      - done.
      - right. exists name, t, i, s, f. split; [done|]. right. done. }
    right. right.
    set (t1 := (t - 1)%Z). rewrite (mbind_ok _ _ w t1 w) by done.
    rewrite (mbind_ok _ _ w i w) by done. rewrite (mbind_ok _ _ w s w) by done.
    set (name0 := f_name f +:+ "_0"). set (key := generateID (w_counter w)).
    assert (docsFresh : fdocs !! key = None /\ _) by exact (dbinv_add_doc w fc fdocs (w_counter w) (2 + w_counter w) name0 t1 i s (copy_of name0 f) Hi Hfc ltac:(lia) ltac:(lia) ltac:(unfold t1; lia)).
    destruct docsFresh as (Hfresh & Hinv1 & Hext1). fold key in Hinv1, Hext1.
    set (fdocs1 := <[key := fdict name0 t1 i s (with_key (copy_of name0 f) key fc) key]> fdocs) in *.
    set (w1 := DbWorld (2 + w_counter w) (<[fc := CField fdocs1]> (w_colls w))) in *.
    assert (registerField (f_type f) fc (createFromExistingField name0 f t1 i s) w = (Ok key, w1)) as Hreg.
    { change (f_type f) with (f_type (copy_of name0 f)).
      rewrite (registerField_spec fc _ name0 t1 i s (copy_of name0 f) w (DbWorld (2 + w_counter w) (w_colls w)) fdocs key);
        [reflexivity| | |done].
      - eapply createFrom_stored; [by rewrite Hfcoll|by rewrite Hfk|]. unfold t1. lia.
      - done. }
    rewrite (mbind_ok _ _ _ _ _ Hreg).
    assert (key <> id) as Hkid.
    { unfold key. rewrite Hidm. intros He. apply generateID_inj in He; lia. }
    assert (w_colls w1 !! fc = Some (CField fdocs1)) as Hfc1 by (simpl; by rewrite lookup_insert).
    assert (fdocs1 !! id = Some (fdict name t i s f id)) as Hid1.
    { unfold fdocs1. by rewrite lookup_insert_ne. }
    rewrite (mbind_ok _ _ w1 (fdict name t i s f id) w1).
    2: { unfold fieldDoc. rewrite (mbind_ok _ _ w1 fdocs1 w1) by (unfold field_docs; by rewrite Hfc1). by rewrite Hid1. }
    rewrite (mbind_ok _ _ w1 f w1) by (unfold mlift; by rewrite doc_field_fdict).
    set (oid := generateID (2 + w_counter w)).
    set (w2 := DbWorld (3 + w_counter w) (w_colls w1)).
    rewrite (mbind_ok _ _ w1 [("nextTime", AString (f_key f)); ("previousTime", AString key);
                         ("currentTime", AString ""); ("level", ALabel (-1)); ("id", AString oid)] w2) by reflexivity.
    rewrite (mbind_ok _ _ w2 oid w2) by reflexivity.
    assert (fc <> oldTimeName fc) as Hne by (intros He; rewrite <- He in Hc; congruence).
    assert (w_colls w1 !! oldTimeName fc = Some (COld fc docs)) as Hc1.
    { simpl. by rewrite lookup_insert_ne. }
    rewrite (mbind_ok _ _ w2 (fc, docs) w2) by (unfold old_docs; simpl; simpl in Hc1; by rewrite Hc1).
    cbn [fst snd].
    destruct (setCurrent_spec docs oid (f_key f) key "" (-1)) as (d & Hset & Hlink); [done| |].
    { intros k1 k2 d1 d2. eapply (inv_prev w Hi). exact Hc. }
    rewrite (mbind_ok _ _ w2 d w2) by (unfold mlift; by rewrite Hset).
    destruct Hlink as (Hdid & Hdn & Hdp & Hlev).
    assert (docs !! oid = None /\ dbinv (DbWorld (3 + w_counter w) (<[oldTimeName fc := COld fc (<[oid := d]> docs)]> (w_colls w1))) /\
            extends w1 (DbWorld (3 + w_counter w) (<[oldTimeName fc := COld fc (<[oid := d]> docs)]> (w_colls w1))))
      as (Hfo & Hinv2 & Hext2).
    { eapply (dbinv_add_link w1 fc docs fdocs1 m (w_counter w) (2 + w_counter w) oid d
                (fdict name t i s f id) (fdict name0 t1 i s (with_key (copy_of name0 f) key fc) key) f (with_key (copy_of name0 f) key fc)).
      - exact Hinv1.
      - exact Hc1.
      - exact Hfc1.
      - by rewrite Hdn, Hfk.
      - rewrite Hdp. unfold fdocs1. by rewrite lookup_insert.
      - done.
      - done.
      - done.
      - simpl. lia.
      - by rewrite Hdn, Hfk.
      - by rewrite Hdp.
      - done.
      - simpl. lia.
      - lia.
      - intros k' d' Hd'. rewrite Hdn, Hfk. by eapply Hno.
      - intros k' d' Hd'. rewrite Hdp.
        destruct (inv_link w Hi _ _ _ _ _ Hc Hd') as [_ _ (m' & n' & Hl & Hx & Hy) _ _].
        rewrite Hx, Hy. unfold key. split; intros He; apply generateID_inj in He; lia.
      - rewrite Hdn, Hdp. split; [done|]. split; [done|]. split; [done|]. done. }
    rewrite Hfo. exists name, t, i, s, f, d.
    eexists. split; [done|]. split; [|split; [reflexivity|]].
    + split; [done|]. split; [done|]. split; [by rewrite Hdid|]. split; [done|].
      split; [by rewrite <- Hfk, Hdid|]. rewrite Hdid. reflexivity.
    + split; [exact Hinv2|]. by eapply extends_trans.
Qed.

(** ** Steps *)
Definition small_step (w w' : dbworld) : Prop :=
  dbinv w' /\ extends w w' /\ w_counter w' <= w_counter w + 3.

Lemma small_refl w : dbinv w -> small_step w w.
Proof. intros H. split; [done|]. split; [apply extends_refl|lia]. Qed.

(** First part of oldTime: the two instances. *)
Lemma oldTime_front f w : dbinv w ->
  (exists r w1, oldTime f w = (r, w1) /\ (forall x, r <> Ok x) /\ dbinv w1 /\ extends w w1 /\ w_counter w1 = w_counter w) \/
  (exists w1 docs fdocs, registered f = true /\
     oldTime f w = getOrInsert (f_type f) (oldTimeName (f_coll f)) (f_key f) w1 /\
     dbinv w1 /\ extends w w1 /\ w_counter w1 = w_counter w /\
     w_colls w1 !! oldTimeName (f_coll f) = Some (COld (f_coll f) docs) /\
     w_colls w1 !! f_coll f = Some (CField fdocs) /\
     (w_colls w !! f_coll f = Some (CField fdocs) \/ w_colls w !! f_coll f = None /\ fdocs = ∅) /\
     (w_colls w !! oldTimeName (f_coll f) = Some (COld (f_coll f) docs) /\ w_colls w1 = w_colls w \/
      w_colls w !! oldTimeName (f_coll f) = None /\ docs = ∅ /\
      (w_colls w !! f_coll f = Some (CField fdocs) -> w_colls w1 = <[oldTimeName (f_coll f) := COld (f_coll f) ∅]> (w_colls w)))).
Proof.
  intros Hi. unfold oldTime, instance_of_field. destruct (registered f) eqn:Er.
  2: { left. exists (Throw RuntimeError), w. split; [done|]. split; [done|]. split; [done|].
       split; [apply extends_refl|done]. }
  set (fc := f_coll f).
  assert (exists w0 fdocs, fieldCollection_instance fc w = (Ok fc, w0) /\ dbinv w0 /\ extends w w0 /\
            w_counter w0 = w_counter w /\ w_colls w0 !! fc = Some (CField fdocs) /\
            (w0 = w \/ w_colls w !! fc = None /\ fdocs = ∅ /\ w_colls w0 = <[fc := CField ∅]> (w_colls w)) \/
          fieldCollection_instance fc w = (Throw BadCast, w)) as [w0 [fdocs [H|H]]].
  { destruct (fieldCollection_instance_spec fc w Hi) as [(docs & H1 & H2)|[(H1 & _)|(H1 & H2 & H3 & H4)]].
    - exists w, docs. left. split; [done|]. split; [done|]. split; [apply extends_refl|]. split; [done|]. split; [done|]. by left.
    - exists w, ∅. by right.
    - eexists _, ∅. left. split; [exact H1|]. split; [done|]. split; [done|]. split; [done|].
      split; [simpl; by rewrite lookup_insert|]. by right. }
  2: { left. exists (Throw BadCast), w. split; [by rewrite (mbind_throw _ _ _ _ _ H)|]. split; [done|]. split; [done|].
       split; [apply extends_refl|done]. }
  destruct H as (Hinst & Hi0 & He0 & Hn0 & Hfc0 & Hw0). rewrite (mbind_ok _ _ _ _ _ Hinst).
  destruct (oldTime_instance_spec fc w0 fdocs Hi0 Hfc0) as [(docs & H1 & H2)|[(H1 & _)|(H1 & H2 & H3 & H4)]].
  - right. exists w0, docs, fdocs. split; [done|]. split; [by rewrite (mbind_ok _ _ _ _ _ H1)|].
    split; [done|]. split; [done|]. split; [done|]. split; [done|]. split; [done|].
    destruct Hw0 as [->|(Hn & -> & Hw0)]; [split; by left|]. split; [by right|].
    rewrite Hw0 in H2. apply lookup_insert_Some in H2 as [[_ ?]|[_ H2]]; [done|].
    destruct (inv_old w Hi _ _ _ H2) as [_ [fd Hfd]]. congruence.
  - left. exists (Throw BadCast), w0. split; [by rewrite (mbind_throw _ _ _ _ _ H1)|]. split; [done|]. done.
  - right. eexists _, ∅, fdocs. split; [done|]. split; [by rewrite (mbind_ok _ _ _ _ _ H1)|].
    split; [done|]. split; [by eapply extends_trans|]. split; [done|]. split; [simpl; by rewrite lookup_insert|].
    assert (fc <> oldTimeName fc) as Hne.
    { intros He. rewrite <- He in H2. congruence. }
    split; [simpl; by rewrite lookup_insert_ne|].
    destruct Hw0 as [->|(Hn & -> & Hw0)].
    + split; [by left|]. right. split; [done|]. split; [done|]. done.
    + split; [by right|]. right. rewrite Hw0 in H2. rewrite lookup_insert_ne in H2 by done.
      split; [done|]. split; [done|]. intros Hx. congruence.
Qed.

Lemma oldTime_step f w : dbinv w -> (Z.of_nat (w_counter w) + 3 <= 2 ^ 32)%Z -> small_step w (oldTime f w).2.
Proof.
  intros Hi Hb. destruct (oldTime_front f w Hi) as
    [(r & w1 & -> & _ & H1 & H2 & H3)|(w1 & docs & fdocs & _ & -> & H1 & H2 & H3 & H4 & _)].
  - split; [done|]. split; [done|]. simpl. lia.
  - rewrite <- H3 in Hb. destruct (getOrInsert_cases (f_type f) w1 _ _ (f_key f) H1 H4 Hb)
      as (fd & Hfd & [(r & -> & _)|[(k & d & _ & _ & _ & ->)|(name & t & i & s & g & d & w' & _ & Hw & -> & Hi' & He')]]); simpl.
    + split; [done|]. split; [done|]. lia.
    + split; [done|]. split; [done|]. lia.
    + split; [done|]. split; [by eapply extends_trans|]. destruct Hw as (_ & _ & _ & _ & _ & ->). simpl. lia.
Qed.

(** Inputs of the right machine type. *)
Definition wop_ok (o : wop) : Prop :=
  match o with WRegister _ _ t _ _ | WCopy _ _ _ t _ _ => (t <= int64_max)%Z | _ => True end.

Lemma register_step c create w :
  dbinv w -> (Z.of_nat (w_counter w) + 3 <= 2 ^ 32)%Z ->
  forall T, (forall w0, dbinv w0 -> w_counter w0 = w_counter w ->
     (exists r, create w0 = (r, w0) /\ forall x, r <> Ok x) \/
     (exists name t i s f, f_type f = T /\ (t <= int64_max)%Z /\
        create w0 = (Ok (fdict name t i s f (generateID (w_counter w0))), DbWorld (2 + w_counter w0) (w_colls w0)))) ->
  small_step w (mbind' (fieldCollection_instance c) (fun c => registerField T c create) w).2.
Proof.
  intros Hi Hb T Hcreate.
  assert (forall w0, dbinv w0 -> extends w w0 -> w_counter w0 = w_counter w -> forall docs,
     w_colls w0 !! c = Some (CField docs) -> small_step w (registerField T c create w0).2) as Hmain.
  { intros w0 Hi0 He0 Hn0 docs Hc0. destruct (Hcreate w0 Hi0 Hn0) as [(r & Hr & Hno)|(name & t & i & s & f & HT & Ht & Hr)].
    - unfold registerField. destruct (mbind_world create
         (fun doc => if validateFieldDoc doc then mbind' (fieldCollection_insert c doc) (fun key => mbind' (fieldDoc c key) (fun fd => mbind' (mlift (doc_field T fd))
            (fun f => mbind' (update_doc c key (dset fd "field" (AField (with_key f key c)))) (fun _ => mret key)))) else mlift (Throw RuntimeError))
         w0 w0 r Hr Hno) as [-> _].
      split; [done|]. split; [done|]. lia.
    - subst T. destruct (dbinv_add_doc w0 c docs (w_counter w0) (2 + w_counter w0) name t i s f Hi0 Hc0
        ltac:(lia) ltac:(lia) Ht) as (Hfresh & Hinv & Hext).
      rewrite (registerField_spec c create name t i s f w0 _ docs _ Hr Hc0 Hfresh).
      split; [exact Hinv|]. split; [by eapply extends_trans|]. simpl. lia. }
  destruct (fieldCollection_instance_spec c w Hi) as [(docs & H1 & H2)|[(H1 & _)|(H1 & H2 & H3 & H4)]].
  - rewrite (mbind_ok _ _ _ _ _ H1). apply (Hmain w Hi (extends_refl w) eq_refl docs H2).
  - rewrite (mbind_throw _ _ _ _ _ H1). by apply small_refl.
  - rewrite (mbind_ok _ _ _ _ _ H1). apply (Hmain _ H3 H4 eq_refl ∅). simpl. by rewrite lookup_insert.
Qed.

Lemma w_step_ok w o : dbinv w -> wop_ok o -> (Z.of_nat (w_counter w) + 3 <= 2 ^ 32)%Z -> small_step w (w_step w o).
Proof.
  intros Hi Ho Hb. destruct o as [c f t i s|c name f t i s|f|d]; cbn [w_step].
  - apply register_step; [done|done|]. intros w0 _ _. right.
    exists (f_name f), t, i, s, f. split; [done|]. split; [done|]. apply fieldDocument_spec.
  - apply register_step; [done|done|]. intros w0 Hi0 _.
    destruct (createFromExistingField_cases name f t i s w0) as [(e & H1 & H2)|(t' & i' & s' & H1 & H2 & _ & _ & H3 & H4)].
    + left. eauto.
    + right. exists name, t', i', s', (copy_of name f). split; [done|]. split; [|exact H1].
      destruct (decide (t = int64_max)) as [Ht|Ht]; [|rewrite H2; done].
      destruct (registered f) eqn:Er; [|by destruct (H3 eq_refl) as (-> & _)].
      destruct (H4 eq_refl) as (docs & d & Hc & Hd & Hx & _). specialize (Hx Ht).
      destruct (inv_field w0 Hi0 _ _ _ _ Hc Hd) as [(n0 & t0 & i0 & s0 & f0 & -> & _ & _ & Hmax) _].
      destruct (doc_int_fdict n0 t0 i0 s0 f0 (f_key f)) as (Hy & _ & _). rewrite Hy in Hx. injection Hx as <-. done.
  - by apply oldTime_step.
  - unfold mdocument. simpl. split; [apply dbinv_counter; [lia|done]|]. split; [apply extends_counter; lia|simpl; lia].
Qed.

Lemma dbinv_empty : dbinv (DbWorld 0 ∅).
Proof. split; simpl; intros *; rewrite lookup_empty; done. Qed.

Lemma w_steps_ok os : forall w, dbinv w -> Forall wop_ok os ->
  (Z.of_nat (w_counter w) + 3 * Z.of_nat (length os) <= 2 ^ 32)%Z ->
  dbinv (foldl w_step w os) /\ extends w (foldl w_step w os) /\
  w_counter (foldl w_step w os) <= w_counter w + 3 * length os.
Proof.
  induction os as [|o os IH]; intros w Hi Ho Hb.
  - simpl. split; [done|]. split; [apply extends_refl|lia].
  - apply Forall_cons in Ho as [Ho Hos]. simpl in Hb.
    destruct (w_step_ok w o Hi Ho) as (H1 & H2 & H3); [lia|].
    destruct (IH (w_step w o) H1 Hos) as (H4 & H5 & H6); [lia|].
    split; [done|]. split; [by eapply extends_trans|]. simpl. lia.
Qed.
Lemma w_run_ok os : Forall wop_ok os -> (3 * Z.of_nat (length os) <= 2 ^ 32)%Z ->
  dbinv (w_run os) /\ w_counter (w_run os) <= 3 * length os.
Proof.
  intros Ho Hb. destruct (w_steps_ok os (DbWorld 0 ∅) dbinv_empty Ho) as (H1 & _ & H2); [simpl; lia|]. done.
Qed.

(** ** Requests *)
Lemma oldTime_present f w docs fdocs :
  dbinv w -> registered f = true -> w_colls w !! f_coll f = Some (CField fdocs) ->
  w_colls w !! oldTimeName (f_coll f) = Some (COld (f_coll f) docs) ->
  oldTime f w = getOrInsert (f_type f) (oldTimeName (f_coll f)) (f_key f) w.
Proof.
  intros Hi Hr Hc Ho. unfold oldTime, instance_of_field. rewrite Hr.
  rewrite (mbind_ok _ _ w (f_coll f) w).
  2: { unfold fieldCollection_instance, db_insert. rewrite Hc. by destruct w. }
  rewrite (mbind_ok _ _ w (oldTimeName (f_coll f)) w); [done|].
  unfold oldTime_instance, db_insert. rewrite Ho. by destruct w.
Qed.

Lemma oldTime_success f w r w1 :
  dbinv w -> (Z.of_nat (w_counter w) + 3 <= 2 ^ 32)%Z -> oldTime f w = (Ok r, w1) ->
  dbinv w1 /\ extends w w1 /\ w_counter w1 <= w_counter w + 3 /\ registered f = true /\
  exists docs k d fdocs name t i s g,
    w_colls w1 !! oldTimeName (f_coll f) = Some (COld (f_coll f) docs) /\ docs !! k = Some d /\
    od_next d = f_key f /\ r = (f_coll f, od_prev d) /\
    w_colls w1 !! f_coll f = Some (CField fdocs) /\ fdocs !! f_key f = Some (fdict name t i s g (f_key f)) /\
    f_type g = f_type f.
Proof.
  intros Hi Hb Hr. pose proof (oldTime_step f w Hi Hb) as (H1 & H2 & H3). rewrite Hr in H1, H2, H3. simpl in *.
  split; [done|]. split; [done|]. split; [done|].
  destruct (oldTime_front f w Hi) as [(r' & w1' & He & Hno & _)|(w0 & docs & fdocs & Hreg & He & K1 & K2 & K3 & K4 & K5 & _)].
  { rewrite Hr in He. injection He as <- <-. by destruct (Hno r). }
  split; [done|]. rewrite He in Hr. rewrite <- K3 in Hb.
  destruct (getOrInsert_cases (f_type f) w0 _ _ (f_key f) K1 K4 Hb)
      as (fd & Hfd & [(r' & Hx & Hno & _)|[(k & d & Hd & Hn & (name & t & i & s & g & Hg & HT) & Hx)|(name & t & i & s & g & d & w' & HT & Hw & Hx & Hi' & He')]]).
  - rewrite Hr in Hx. injection Hx as <- <-. by destruct (Hno r).
  - rewrite Hr in Hx. injection Hx as -> ->. exists docs, k, d, fd, name, t, i, s, g. done.
  - rewrite Hr in Hx. injection Hx as -> ->.
    destruct Hw as (Hg & Hfr & Hdo & Hnl & (L1 & L2 & L3 & L4) & ->).
    assert (f_coll f <> oldTimeName (f_coll f)) as Hne.
    { intros Heq. rewrite <- Heq in K4. congruence. }
    eexists _, (od_id d), d, _, name, t, i, s, g. simpl. rewrite lookup_insert. split; [done|].
    rewrite lookup_insert. split; [done|]. split; [done|]. split; [by rewrite L3|].
    rewrite lookup_insert_ne by done. rewrite lookup_insert. split; [done|].
    rewrite lookup_insert_ne; [done|]. intros Heq. rewrite Heq in Hfr. congruence.
Qed.

Lemma oldTime_stable f w r w1 os :
  dbinv w -> oldTime f w = (Ok r, w1) -> Forall wop_ok os ->
  (Z.of_nat (w_counter w) + 6 + 3 * Z.of_nat (length os) <= 2 ^ 32)%Z ->
  let w2 := foldl w_step w1 os in
  oldTime f w2 = (Ok r, w2) /\ oldTime_const f w2 = (Ok r, w2).
Proof.
  intros Hi Hr Ho Hb w2.
  destruct (oldTime_success f w r w1 Hi) as (I1 & E1 & N1 & Hreg & docs & k & d & fdocs & name & t & i & s & g & A1 & A2 & A3 & A4 & A5 & A6 & A7);
    [lia|done|].
  destruct (w_steps_ok os w1 I1 Ho) as (I2 & E2 & N2); [lia|]. fold w2 in I2, E2, N2.
  destruct E2 as [_ Hx]. pose proof (Hx (oldTimeName (f_coll f))) as B1. rewrite A1 in B1. destruct B1 as (docs2 & B1 & S1).
  pose proof (Hx (f_coll f)) as B2. rewrite A5 in B2. destruct B2 as (fdocs2 & B2 & S2).
  assert (docs2 !! k = Some d) as Hd2 by (by eapply lookup_weaken).
  assert (fdocs2 !! f_key f = Some (fdict name t i s g (f_key f))) as Hf2 by (by eapply lookup_weaken).
  assert (getOrInsert (f_type f) (oldTimeName (f_coll f)) (f_key f) w2 = (Ok r, w2)) as Hget.
  { destruct (getOrInsert_cases (f_type f) w2 _ _ (f_key f) I2 B1)
      as (fd & Hfd & [(r' & Hy & Hno & Hwhy)|[(k' & d' & Hd & Hn & _ & Hy)|(name' & t' & i' & s' & g' & d' & w' & HT & Hw & _)]]); [lia| | |].
    - exfalso. assert (fd = fdocs2) as -> by congruence.
      destruct Hwhy as [Hnone|(name' & t' & i' & s' & g' & Hg' & [HT|[Hnl _]])].
      + congruence.
      + rewrite Hf2 in Hg'. unfold fdict in Hg'. injection Hg' as _ _ _ _ <-. done.
      + by destruct (Hnl _ _ Hd2).
    - rewrite Hy. assert (k' = k) as -> by (eapply (inv_next w2 I2); [exact B1|exact Hd|exact Hd2|congruence]).
      congruence.
    - exfalso. destruct Hw as (_ & _ & _ & Hnl & _). by destruct (Hnl _ _ Hd2). }
  split; [by rewrite (oldTime_present f w2 docs2 fdocs2)|].
  (* the const version reads the same *)
  unfold oldTime_const, instance_of_field_const. rewrite Hreg.
  rewrite (mbind_ok _ _ w2 (f_coll f) w2) by (unfold fieldCollection_instance_const, db_at; by rewrite B2).
  rewrite (mbind_ok _ _ w2 (oldTimeName (f_coll f)) w2) by (unfold oldTime_instance_const, db_at; by rewrite B1).
  revert Hget. unfold getOrInsert, get_const.
  assert (old_docs (oldTimeName (f_coll f)) w2 = (Ok (f_coll f, docs2), w2)) as Hold by (unfold old_docs; by rewrite B1).
  rewrite !(mbind_ok _ _ _ _ _ Hold). cbn [fst snd].
  rewrite (mbind_ok _ _ w2 (f_coll f) w2).
  2: { unfold fieldCollection_instance, db_insert. rewrite B2. by destruct w2. }
  rewrite (mbind_ok (fieldCollection_instance_const _) _ w2 (f_coll f) w2).
  2: { unfold fieldCollection_instance_const, db_at. by rewrite B2. }
  assert (findNextTime docs2 (f_key f) = k) as ->.
  { apply (findDoc_hit _ _ _ _ d); [done|done| |].
    - by destruct (inv_link w2 I2 _ _ _ _ _ B1 Hd2).
    - intros k' d' Hd' Hs. eapply (inv_next w2 I2); [exact B1|exact Hd'|exact Hd2|congruence]. }
  destruct (inv_link w2 I2 _ _ _ _ _ B1 Hd2) as [_ (n & _ & ->) _ _ _].
  by rewrite !(decide_True (P := generateID n <> "")) by done.
Qed.

Lemma oldTime_first f w fdocs d g t i s docs :
  dbinv w -> (Z.of_nat (w_counter w) + 3 <= 2 ^ 32)%Z -> registered f = true ->
  w_colls w !! f_coll f = Some (CField fdocs) -> fdocs !! f_key f = Some d ->
  doc_field (f_type f) d = Ok g -> doc_int "timeIndex" d = Ok t -> t <> int64_min ->
  doc_int "iterationIndex" d = Ok i -> doc_int "subCycleIndex" d = Ok s ->
  (w_colls w !! oldTimeName (f_coll f) = Some (COld (f_coll f) docs) \/
   w_colls w !! oldTimeName (f_coll f) = None /\ docs = ∅) ->
  (forall k l, docs !! k = Some l -> od_next l <> f_key f) ->
  exists key d' l w', oldTime f w = (Ok (f_coll f, key), w') /\
    fdocs !! key = None /\ docs !! od_id l = None /\
    w_colls w' = <[oldTimeName (f_coll f) := COld (f_coll f) (<[od_id l := l]> docs)]>
                   (<[f_coll f := CField (<[key := d']> fdocs)]> (w_colls w)) /\
    dict_get TString d' "name" = Ok (AString (f_name g +:+ "_0")) /\
    doc_int "timeIndex" d' = Ok (t - 1)%Z /\
    doc_int "iterationIndex" d' = Ok i /\ doc_int "subCycleIndex" d' = Ok s /\
    doc_field (f_type f) d' = Ok (Field (f_type g) (f_name g +:+ "_0") (f_internal g) (f_boundary g) key (f_coll f) true) /\
    od_next l = f_key f /\ od_prev l = key /\
    ((exists k' l', docs !! k' = Some l' /\ od_prev l' = f_key f /\
        od_cur l = od_cur l' /\ od_level l = (od_level l' + 1)%Z) \/
     ((forall k' l', docs !! k' = Some l' -> od_prev l' <> f_key f) /\ od_cur l = f_key f /\ od_level l = 1%Z)).
Proof.
  intros Hi Hb Hreg Hfc Hd Hg Ht Hmin His Hss Ho Hno.
  assert (exists w1, oldTime f w = getOrInsert (f_type f) (oldTimeName (f_coll f)) (f_key f) w1 /\ dbinv w1 /\
     w_counter w1 = w_counter w /\ w_colls w1 !! oldTimeName (f_coll f) = Some (COld (f_coll f) docs) /\
     w_colls w1 !! f_coll f = Some (CField fdocs) /\
     forall x, <[oldTimeName (f_coll f) := x]> (w_colls w1) = <[oldTimeName (f_coll f) := x]> (w_colls w))
    as (w1 & He & I1 & N1 & C1 & F1 & U1).
  { destruct Ho as [Ho|[Ho ->]].
    - exists w. split; [by eapply oldTime_present|]. done.
    - unfold oldTime, instance_of_field. rewrite Hreg.
      rewrite (mbind_ok _ _ w (f_coll f) w).
      2: { unfold fieldCollection_instance, db_insert. rewrite Hfc. by destruct w. }
      destruct (oldTime_instance_spec (f_coll f) w fdocs Hi Hfc) as [(docs & H1 & H2)|[(H1 & x & H2 & _)|(H1 & H2 & H3 & H4)]];
        [congruence|congruence|].
      rewrite (mbind_ok _ _ _ _ _ H1). eexists. split; [reflexivity|]. split; [done|]. split; [done|]. simpl.
      split; [by rewrite lookup_insert|]. split.
      + rewrite lookup_insert_ne; [done|]. intros Heq. rewrite Heq in H2. congruence.
      + intros x. by rewrite insert_insert. }
  rewrite <- N1 in Hb.
  destruct (inv_field w Hi _ _ _ _ Hfc Hd) as [(name & t0 & i0 & s0 & g0 & -> & Hk0 & Hc0 & Hmax) _].
  destruct (doc_int_fdict name t0 i0 s0 g0 (f_key f)) as (T1 & T2 & T3).
  rewrite T1 in Ht. injection Ht as <-. rewrite T2 in His. injection His as <-. rewrite T3 in Hss. injection Hss as <-.
  assert (g0 = g /\ f_type g = f_type f) as [-> Hty].
  { unfold doc_field, dict_get, dict_at, any_cast in Hg. simpl in Hg.
    destruct (decide (Some (TField (f_type g0)) = Some (TField (f_type f)))) as [Hx|Hx]; simpl in Hg; [|done].
    injection Hg as ->. injection Hx as Hx. done. }
  destruct (getOrInsert_cases (f_type f) w1 _ _ (f_key f) I1 C1 Hb)
      as (fd & Hfd & [(r' & Hy & _ & Hwhy)|[(k' & d' & Hd' & Hn & _ & Hy)|(name' & t' & i' & s' & g' & d' & w' & HT & Hw & Hy & _)]]).
  - exfalso. assert (fd = fdocs) as -> by congruence.
    destruct Hwhy as [Hnone|(name' & t' & i' & s' & g' & Hg' & [HT|[_ Hm]])]; [congruence| |].
    + rewrite Hd in Hg'. unfold fdict in Hg'. injection Hg' as _ _ _ _ <-. done.
    + rewrite Hd in Hg'. unfold fdict in Hg'. injection Hg' as _ -> _ _ _. done.
  - by destruct (Hno _ _ Hd').
  - assert (fd = fdocs) as -> by congruence. destruct Hw as (Hg' & Hfr & Hdo & Hnl & (L1 & L2 & L3 & L4) & ->).
    rewrite Hd in Hg'. unfold fdict in Hg'. injection Hg' as <- <- <- <- <-.
    rewrite He, Hy. set (key := generateID (w_counter w1)) in *. set (name0 := f_name g +:+ "_0").
    exists key, (fdict name0 (t0 - 1) i0 s0 (with_key (copy_of name0 g) key (f_coll f)) key), d'.
    eexists. split; [reflexivity|]. split; [done|]. split; [done|]. split.
    { simpl. rewrite !(insert_commute _ (oldTimeName (f_coll f)) (f_coll f)).
      - f_equal. apply U1.
      - intros Heq. rewrite Heq in C1. congruence.
      - intros Heq. rewrite Heq in C1. congruence. }
    split; [done|]. split; [done|]. split; [done|]. split; [done|]. split.
    { rewrite <- Hty. change (f_type g) with (f_type (with_key (copy_of name0 g) key (f_coll f))) at 1.
      by rewrite doc_field_fdict. }
    split; [done|]. split; [done|]. done.
Qed.

(** ** Chains *)
Inductive chain (docs : gmap string oldDoc) (cur : string) : string -> nat -> Prop :=
| chain_current : chain docs cur cur 0
| chain_older k d n i : chain docs cur k n -> docs !! i = Some d -> od_next d = k ->
    chain docs cur (od_prev d) (S n).

Lemma link_chain w c fc docs i d :
  dbinv w -> (Z.of_nat (w_counter w) <= 2 ^ 32)%Z ->
  w_colls w !! c = Some (COld fc docs) -> docs !! i = Some d ->
  (forall i' d', docs !! i' = Some d' -> od_prev d' <> od_cur d) /\
  exists n, od_level d = Z.of_nat n /\ 1 <= n /\ chain docs (od_cur d) (od_prev d) n.
Proof.
  intros Hi Hb Hc Hd.
  destruct (inv_link w Hi _ _ _ _ _ Hc Hd) as [_ _ (m & n & Hmn & Hm & Hn) _ _].
  revert i d n Hd Hmn Hm Hn. induction m as [m IH] using (well_founded_induction lt_wf).
  intros i d n Hd Hmn Hm Hn.
  destruct (inv_link w Hi _ _ _ _ _ Hc Hd) as [_ _ _ _ [(k' & d' & Hd' & Hp & Hcur & Hlev)|(Hno & Hcur & Hlev)]].
  - destruct (inv_link w Hi _ _ _ _ _ Hc Hd') as [_ _ (m' & n' & Hmn' & Hm' & Hn') _ _].
    assert (n' = m) as ->.
    { rewrite Hn', Hm in Hp. apply generateID_inj in Hp; lia. }
    destruct (IH m' ltac:(lia) k' d' m Hd' ltac:(lia) Hm' Hn') as (Hcc & x & Hx & Hx1 & Hch).
    split; [by rewrite Hcur|]. exists (S x). split; [lia|]. split; [lia|].
    rewrite Hcur. econstructor; [exact Hch|exact Hd|]. by rewrite Hp.
  - split; [by rewrite Hcur|]. exists 1. split; [lia|]. split; [lia|].
    rewrite Hcur. econstructor; [constructor|exact Hd|done].
Qed.

(** ** registerField in general *)
Lemma registerField_cases T c create w w1 docs d :
  create w = (Ok d, w1) -> w_colls w1 !! c = Some (CField docs) ->
  (validateFieldDoc d = false -> registerField T c create w = (Throw RuntimeError, w1)) /\
  (forall key f, validateFieldDoc d = true -> doc_id d = Ok key -> docs !! key = None -> doc_field T d = Ok f ->
     registerField T c create w
     = (Ok key, DbWorld (w_counter w1)
                  (<[c := CField (<[key := dset d "field" (AField (with_key f key c))]> docs)]> (w_colls w1)))) /\
  (forall key d0, validateFieldDoc d = true -> doc_id d = Ok key -> docs !! key = Some d0 -> docs !! "" = None ->
     registerField T c create w = (Throw OutOfRange, w1)) /\
  (forall key, validateFieldDoc d = true -> doc_id d = Ok key -> docs !! key = None -> doc_field T d = Throw BadAnyCast ->
     registerField T c create w
     = (Throw BadAnyCast, DbWorld (w_counter w1) (<[c := CField (<[key := d]> docs)]> (w_colls w1)))).
Proof.
  intros Hc Hw. unfold registerField. rewrite !(mbind_ok _ _ _ _ _ Hc).
  assert (field_docs c w1 = (Ok docs, w1)) as Hf by (unfold field_docs; by rewrite Hw).
  split; [|split; [|split]].
  - intros ->. done.
  - intros key f -> Hid Hk Hfd.
    set (w2 := DbWorld (w_counter w1) (<[c := CField (<[key := d]> docs)]> (w_colls w1))).
    rewrite (mbind_ok _ _ w1 key w2).
    2: { unfold fieldCollection_insert. rewrite (mbind_ok _ _ w1 key w1) by (unfold mlift; by rewrite Hid).
         rewrite (mbind_ok _ _ _ _ _ Hf). rewrite Hk. reflexivity. }
    assert (field_docs c w2 = (Ok (<[key := d]> docs), w2)) as Hf2.
    { unfold field_docs, w2. simpl. by rewrite lookup_insert. }
    rewrite (mbind_ok _ _ w2 d w2).
    2: { unfold fieldDoc. rewrite (mbind_ok _ _ _ _ _ Hf2). by rewrite lookup_insert. }
    rewrite (mbind_ok _ _ w2 f w2) by (unfold mlift; by rewrite Hfd).
    unfold update_doc. unfold mbind' at 1. rewrite (mbind_ok _ _ _ _ _ Hf2).
    unfold set_coll, mret, w2. simpl. by rewrite !insert_insert.
  - intros key d0 -> Hid Hk He.
    rewrite (mbind_ok _ _ w1 "" w1).
    2: { unfold fieldCollection_insert. rewrite (mbind_ok _ _ w1 key w1) by (unfold mlift; by rewrite Hid).
         rewrite (mbind_ok _ _ _ _ _ Hf). rewrite Hk. reflexivity. }
    apply mbind_throw. unfold fieldDoc. rewrite (mbind_ok _ _ _ _ _ Hf). by rewrite He.
  - intros key -> Hid Hk Hfd.
    set (w2 := DbWorld (w_counter w1) (<[c := CField (<[key := d]> docs)]> (w_colls w1))).
    rewrite (mbind_ok _ _ w1 key w2).
    2: { unfold fieldCollection_insert. rewrite (mbind_ok _ _ w1 key w1) by (unfold mlift; by rewrite Hid).
         rewrite (mbind_ok _ _ _ _ _ Hf). rewrite Hk. reflexivity. }
    assert (field_docs c w2 = (Ok (<[key := d]> docs), w2)) as Hf2.
    { unfold field_docs, w2. simpl. by rewrite lookup_insert. }
    rewrite (mbind_ok _ _ w2 d w2).
    2: { unfold fieldDoc. rewrite (mbind_ok _ _ _ _ _ Hf2). by rewrite lookup_insert. }
    apply mbind_throw. unfold mlift. by rewrite Hfd.
Qed.
