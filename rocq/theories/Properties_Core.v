(** C09-C13: dictionary, token list, scheme selection, runtime selection,
    stencil database. *)
From stdpp Require Export gmap fin_maps.
From Verif Require Import Base Dict DictProofs Registry RegistryProofs.

(** * C09 *)
(** After any history of calls the dictionary answers as the finite map obtained
    by applying the documented effect of each call ([ref_step], on std++ finite
    maps; [list_to_map] keeps the first of duplicate keys). *)
Theorem C09_finite_map : forall l os, exists m : gmap string any,
  m = foldl ref_step (list_to_map l) os /\
  let d := dict_run (dict_init l) os in
  NoDup (dict_keys d) /\ (forall k, k ∈ dict_keys d <-> is_Some (m !! k)) /\
  (dict_empty d = true <-> m = ∅) /\
  forall k, (dict_contains d k = true <-> is_Some (m !! k)) /\
    dict_at d k = match m !! k with Some a => Ok a | None => Throw OutOfRange end /\
    (forall t, dict_get t d k = match m !! k with
                                | None => Throw OutOfRange
                                | Some a => if decide (type_of a = Some t) then Ok a else Throw BadAnyCast
                                end) /\
    dict_subDict d k = match m !! k with
                       | None => Throw OutOfRange
                       | Some (ADict s) => Ok s
                       | Some _ => Throw BadAnyCast
                       end /\
    (dict_isDict d k = true <-> exists s, m !! k = Some (ADict s)).
Proof. exact dict_history. Qed.
Print Assumptions C09_finite_map.

(** The C++ type of the value an entry holds, constructor by constructor; an empty
    any has none.  A typed access returns the entry when asked for exactly that
    type and throws bad_any_cast for every other. *)
Inductive holds_type : any -> ty -> Prop :=
| holds_string s : holds_type (AString s) TString
| holds_label z : holds_type (ALabel z) TLabel
| holds_scalar q : holds_type (AScalar q) TScalar
| holds_bool b : holds_type (ABool b) TBool
| holds_dict d : holds_type (ADict d) TDict
| holds_tokens l n : holds_type (ATokens l n) TTokens
| holds_other n p : holds_type (AOther n p) (TOther n)
| holds_int64 z : holds_type (AInt64 z) TInt64
| holds_field f : holds_type (AField f) (TField (f_type f)).

Theorem C09_typed_access : forall l os k a, 
  foldl ref_step (list_to_map l) os !! k = Some a ->
  forall t, let d := dict_run (dict_init l) os in
    (holds_type a t -> dict_get t d k = Ok a) /\
    (~ holds_type a t -> dict_get t d k = Throw BadAnyCast) /\
    (forall t', holds_type a t -> holds_type a t' -> t = t').
Proof.
  intros l os k a Ha t d.
  assert (Hty : forall t, holds_type a t <-> type_of a = Some t).
  { intros t'. split; [by intros []|]. destruct a; simpl; intros [= <-]; constructor. }
  destruct (C09_finite_map l os) as (m & -> & _ & _ & _ & Hm). destruct (Hm k) as (_ & _ & Hg & _).
  specialize (Hg t). rewrite Ha in Hg. fold d in Hg. rewrite Hg. split_and!.
  - intros Hh. apply Hty in Hh. by rewrite decide_True.
  - intros Hh. rewrite decide_False; [done|]. by rewrite <- Hty.
  - intros t' H1 H2. apply Hty in H1, H2. congruence.
Qed.
Print Assumptions C09_typed_access.
Example C09_typed_access_example :
  let d := dict_init [("on", ABool true); ("n", ALabel 3)] in
  dict_get TBool d "on" = Ok (ABool true) /\ dict_get TLabel d "on" = Throw BadAnyCast /\
  dict_get TLabel d "n" = Ok (ALabel 3).
Proof. vm_compute. repeat split. Qed.

(** Which exception each call throws; a call that throws changes nothing. *)
Theorem C09_exceptions : forall l os o,
  let m := foldl ref_step (list_to_map l) os in
  let d := dict_run (dict_init l) os in
  (dict_step d o).2 = (spec_key (m !! key_of o) o).2 /\
  ((dict_step d o).2 <> None -> (dict_step d o).1 = d).
Proof. exact dict_step_exception. Qed.
Print Assumptions C09_exceptions.

(** Nested dictionaries: a call through any chain of subDict acts at its own path
    as a call on a plain entry, and changes no path that is neither above nor
    below it.  [dict_wf]: every dictionary inside has distinct keys, which every
    history of calls with such values maintains. *)
Theorem C09_nested : forall d o, dict_wf d -> any_wf (op_value o) ->
  dict_wf (dict_step d o).1 /\
  (path_open d o ->
     (path_lookup (dict_step d o).1 (op_path o), (dict_step d o).2)
     = spec_key (path_lookup d (op_path o)) (op_leaf o)) /\
  (~ path_open d o -> exists e, dict_step d o = (d, Some e)) /\
  (forall q, ~ q `prefix_of` op_path o -> ~ op_path o `prefix_of` q ->
     path_lookup (dict_step d o).1 q = path_lookup d q).
Proof.
  intros d o Hd Hv. split; [by apply dict_step_wf|]. split; [intros; by apply dict_step_path|]. split.
  - intros Hn. destruct (dict_step_closed o d Hn) as [e He]. exists e.
    rewrite <- (dict_step_throw o d e He) at 2. rewrite <- He. by destruct (dict_step d o).
  - intros q H1 H2. by apply dict_step_other_path.
Qed.
Print Assumptions C09_nested.

Example C09_instance :
  let d := dict_run (dict_init [("a", ALabel 1); ("a", ALabel 2); ("s", ADict [])])
             [DSub "s" (DInsert "x" (ABool true)); DAssign "a" TString (AString "no");
              DInsert "b" (AScalar 0); DRemove "b"; DSub "a" (DRemove "x")] in
  dict_get TLabel d "a" = Ok (ALabel 1) /\ dict_get TString d "a" = Throw BadAnyCast /\
  dict_contains d "b" = false /\ path_lookup d ["s"; "x"] = Some (ABool true).
Proof. vm_compute. repeat split. Qed.

(** * C10 *)
(** One next<T>() call. *)
Theorem C10_next : forall T t,
  (exists v, tl_data t !! tl_next t = Some v /\ type_of v = Some T /\
     tl_next_tok T t = (Ok v, TokenList (tl_data t) (tl_next t + 1))) \/
  (exists v, tl_data t !! tl_next t = Some v /\ type_of v <> Some T /\
     tl_next_tok T t = (Throw BadAnyCast, t)) \/
  (tl_data t !! tl_next t = None /\ tl_next_tok T t = (Throw OutOfRange, t)).
Proof. exact tl_next_cases. Qed.
Print Assumptions C10_next.

(** The remaining operations: a default-constructed list is empty; inserting
    appends; reading by position gives that token and moves nothing; removing a
    position deletes exactly that token, keeps the order of the others and
    leaves the cursor where it is (past the end it is undefined). *)
Theorem C10_other_operations : forall t v i T,
  tl_size tl_empty_list = 0 /\
  tl_size (tl_insert t v) = S (tl_size t) /\
  tl_data (tl_insert t v) !! tl_size t = Some v /\
  (forall j, j < tl_size t -> tl_data (tl_insert t v) !! j = tl_data t !! j) /\
  (tl_get T t i = Throw OutOfRange <-> tl_size t <= i) /\
  (forall x, tl_data t !! i = Some x -> tl_get T t i = any_cast T x) /\
  (tl_remove t i = UB <-> tl_size t <= i) /\
  (i < tl_size t -> exists t', tl_remove t i = Ok t' /\ S (tl_size t') = tl_size t /\ tl_next t' = tl_next t /\
     (forall j, j < i -> tl_data t' !! j = tl_data t !! j) /\
     (forall j, i <= j -> tl_data t' !! j = tl_data t !! S j)).
Proof.
  intros t v i T. unfold tl_size, tl_insert, tl_get, tl_remove. simpl.
  split; [done|]. split; [rewrite app_length; simpl; lia|]. split; [rewrite lookup_app_r, Nat.sub_diag by lia; done|].
  split; [intros j Hj; rewrite lookup_app_l by lia; done|].
  split. { destruct (tl_data t !! i) as [x|] eqn:E.
    - split; [|intros H; apply lookup_ge_None in H; congruence]. intros H. unfold any_cast in H. case_decide; discriminate.
    - split; [|done]. intros _. apply lookup_ge_None. done. }
  split; [intros x ->; done|].
  destruct (decide (i < length (tl_data t))) as [Hi|Hi].
  - split; [split; [discriminate|lia]|]. intros _. eexists. split; [done|]. simpl.
    split; [rewrite app_length, take_length, drop_length; lia|]. split; [done|]. split.
    + intros j Hj. rewrite lookup_app_l by (rewrite take_length; lia). apply lookup_take. done.
    + intros j Hj. rewrite lookup_app_r by (rewrite take_length; lia). rewrite take_length, lookup_drop.
      f_equal. lia.
  - split; [split; [lia|done]|lia].
Qed.
Print Assumptions C10_other_operations.

(** A default-constructed list to which tokens are appended delivers them from the
    first one on. *)
Theorem C10_default_constructed : forall l,
  foldl tl_insert tl_empty_list l = tl_of_list l /\
  (forall v T, type_of v = Some T -> (tl_next_tok T (foldl tl_insert tl_empty_list (v :: l))).1 = Ok v).
Proof.
  intros l.
  assert (H : forall l a, foldl tl_insert (TokenList a 0) l = TokenList (a ++ l) 0).
  { induction l0 as [|v l0 IH]; intros a; cbn [foldl]; [by rewrite app_nil_r|]. unfold tl_insert at 2. cbn [tl_data tl_next]. by rewrite IH, <- app_assoc. }
  assert (E : forall l, foldl tl_insert tl_empty_list l = tl_of_list l) by (intros l'; apply (H l' [])).
  split; [apply E|]. intros v T Hv. rewrite E. destruct (C10_next T (tl_of_list (v :: l))) as [(x & Hx & _ & Hr)|[(x & Hx & Hn & _)|[Hx _]]].
  - injection Hx as <-. by rewrite Hr.
  - injection Hx as <-. done.
  - done.
Qed.
Print Assumptions C10_default_constructed.

(** Any history of insert, get and next on a list constructed from [l]: the tokens
    delivered by the successful next calls are an initial part of the tokens of
    the list (with those inserted so far), in order. *)
Theorem C10_in_order_without_removal : forall l os, no_removal os ->
  exists n, delivered os (tl_run (tl_of_list l) os).1 = take n (l ++ inserted os) /\
    n = length (delivered os (tl_run (tl_of_list l) os).1) /\
    tl_data (tl_run (tl_of_list l) os).2 = l ++ inserted os /\
    (* the next call delivers token number n *)
    forall T v, (l ++ inserted os) !! n = Some v -> type_of v = Some T ->
      (tl_next_tok T (tl_run (tl_of_list l) os).2).1 = Ok v.
Proof.
  intros l os Hn. pose proof (tl_run_next os (tl_of_list l) Hn) as H.
  destruct (tl_run (tl_of_list l) os) as [rs t'] eqn:E. simpl in *.
  destruct H as (Hd & Hx & Hle & Hdel); [lia|].
  exists (length (delivered os rs)). split; [done|]. split; [done|]. split; [done|].
  intros T v Hv HT. unfold tl_next_tok, tl_get, any_cast. rewrite Hd, Hx. simpl. rewrite Hv.
  by rewrite decide_True.
Qed.
Print Assumptions C10_in_order_without_removal.

Example C10_instance :
  no_removal [TNext TString; TNext TLabel; TInsert (ALabel 7); TNext TString; TNext TLabel; TNext TLabel] /\
  delivered [TNext TString; TNext TLabel; TInsert (ALabel 7); TNext TString; TNext TLabel; TNext TLabel]
    (tl_run (tl_of_list [AString "Gauss"; AString "linear"])
       [TNext TString; TNext TLabel; TInsert (ALabel 7); TNext TString; TNext TLabel; TNext TLabel]).1
  = [AString "Gauss"; AString "linear"; ALabel 7].
Proof. split; [repeat constructor|vm_compute; reflexivity]. Qed.

(** With popFront in the history a token can be skipped: the cursor is not moved
    when front tokens are removed (tokenList.hpp:70-76 against 118-124). *)
Theorem C61_in_order_refuted : ~ forall l os,
  exists n m, delivered os (tl_run (tl_of_list l) os).1 = take n (drop m (l ++ inserted os)).
Proof.
  intros H.
  destruct (H [AString "a"; AString "b"; AString "c"] [TNext TString; TPopFront TString; TNext TString]) as (n & m & Hx).
  vm_compute in Hx. destruct m as [|[|[|[|m]]]], n as [|[|[|n]]]; simpl in Hx; try discriminate.
Qed.
Print Assumptions C61_in_order_refuted.

(** * C11 *)
(** Building from a scheme dictionary: the operator, interpolation (and gradient)
    classes are those named by the next two (three) tokens of the entry, the
    caller's input is left as it was. *)
Theorem C11_div_from_dictionary : forall fluxName fieldName d a b,
  ((div_build fluxName fieldName (IDict d)).1 = Ok (a, b) <->
   exists l n, scheme_entry d "divSchemes" ("div(" +:+ fluxName +:+ "," +:+ fieldName +:+ ")") l n /\
     l !! n = Some (AString a) /\ l !! (n + 1) = Some (AString b) /\
     a ∈ known_operator /\ b ∈ known_interpolation) /\
  (div_build fluxName fieldName (IDict d)).2 = IDict d.
Proof.
  intros. split; [|done]. unfold div_build. simpl.
  set (sc := "div(" +:+ _). destruct (scheme_tokens d "divSchemes" sc) as [[l n]|e| |] eqn:E; simpl.
  - apply scheme_tokens_spec in E. rewrite create_div_tokens. split; [eauto|].
    intros (l' & n' & Hs & H). apply scheme_tokens_spec in Hs. apply scheme_tokens_spec in E.
    rewrite E in Hs. by injection Hs as -> ->.
  - split; [done|]. intros (l' & n' & Hs & H). apply scheme_tokens_spec in Hs. congruence.
  - split; [done|]. intros (l' & n' & Hs & H). apply scheme_tokens_spec in Hs. congruence.
  - split; [done|]. intros (l' & n' & Hs & H). apply scheme_tokens_spec in Hs. congruence.
Qed.
Print Assumptions C11_div_from_dictionary.

Theorem C11_laplacian_from_dictionary : forall gammaName fieldName d a b c,
  ((laplacian_build gammaName fieldName (IDict d)).1 = Ok (a, b, c) <->
   exists l n, scheme_entry d "laplacianSchemes" ("laplacian(" +:+ gammaName +:+ "," +:+ fieldName +:+ ")") l n /\
     l !! n = Some (AString a) /\ l !! (n + 1) = Some (AString b) /\ l !! (n + 2) = Some (AString c) /\
     a ∈ known_operator /\ b ∈ known_interpolation /\ c ∈ known_gradient) /\
  (laplacian_build gammaName fieldName (IDict d)).2 = IDict d.
Proof.
  intros. split; [|done]. unfold laplacian_build. simpl.
  set (sc := "laplacian(" +:+ _). destruct (scheme_tokens d "laplacianSchemes" sc) as [[l n]|e| |] eqn:E; simpl.
  - apply scheme_tokens_spec in E. rewrite create_laplacian_tokens. split; [eauto|].
    intros (l' & n' & Hs & H). apply scheme_tokens_spec in Hs. apply scheme_tokens_spec in E.
    rewrite E in Hs. by injection Hs as -> ->.
  - split; [done|]. intros (l' & n' & Hs & H). apply scheme_tokens_spec in Hs. congruence.
  - split; [done|]. intros (l' & n' & Hs & H). apply scheme_tokens_spec in Hs. congruence.
  - split; [done|]. intros (l' & n' & Hs & H). apply scheme_tokens_spec in Hs. congruence.
Qed.
Print Assumptions C11_laplacian_from_dictionary.

(** Building from a token list given directly: same reading, and the caller's
    list, cursor included, is left as it was. *)
Theorem C11_from_tokens : forall x y l n,
  (forall a b, (div_build x y (ITokens (TokenList l n))).1 = Ok (a, b) <->
     l !! n = Some (AString a) /\ l !! (n + 1) = Some (AString b) /\
     a ∈ known_operator /\ b ∈ known_interpolation) /\
  (forall a b c, (laplacian_build x y (ITokens (TokenList l n))).1 = Ok (a, b, c) <->
     l !! n = Some (AString a) /\ l !! (n + 1) = Some (AString b) /\ l !! (n + 2) = Some (AString c) /\
     a ∈ known_operator /\ b ∈ known_interpolation /\ c ∈ known_gradient) /\
  (div_build x y (ITokens (TokenList l n))).2 = ITokens (TokenList l n) /\
  (laplacian_build x y (ITokens (TokenList l n))).2 = ITokens (TokenList l n).
Proof.
  intros. split; [intros a b; apply create_div_tokens|].
  split; [intros a b c; apply create_laplacian_tokens|]. done.
Qed.
Print Assumptions C11_from_tokens.

(** Any number of builds, of any operators in any order, from the same input:
    each gives what it would give first. *)
Theorem C11_repeatable : forall (builds : list (bool * string * string)) i x y,
  let after := foldl (fun (i : input) (x : bool * string * string) =>
                        if x.1.1 then (div_build x.1.2 x.2 i).2 else (laplacian_build x.1.2 x.2 i).2) i builds in
  div_build x y after = div_build x y i /\ laplacian_build x y after = laplacian_build x y i.
Proof.
  intros builds i x y after. assert (after = i) as ->; [|done].
  unfold after. clear. induction builds as [|[[[] a] b] builds IH]; [done| |]; simpl.
  - destruct i; exact IH.
  - destruct i; exact IH.
Qed.
Print Assumptions C11_repeatable.

Definition schemes : dict :=
  [("divSchemes", ADict [("div(phi,T)", ATokens [AString "Gauss"; AString "upwind"] 0)]);
   ("laplacianSchemes", ADict [("laplacian(k,T)", ATokens [AString "Gauss"; AString "linear"; AString "uncorrected"] 0)])].
Example C11_instance :
  (div_build "phi" "T" (IDict schemes)).1 = Ok ("Gauss", "upwind") /\
  (laplacian_build "k" "T" (IDict schemes)).1 = Ok ("Gauss", "linear", "uncorrected") /\
  (div_build "phi" "U" (IDict schemes)).1 = Throw OutOfRange.
Proof. vm_compute. repeat split. Qed.

(** Constructing a scheme directly from a token Input is not repeatable: the
    const Input is advanced through the mutable cursor. *)
Theorem C62_direct_construction_refuted : ~ forall i,
  (build_interpolation (build_interpolation i).2).1 = (build_interpolation i).1.
Proof.
  intros H. specialize (H (ITokens (TokenList [AString "linear"] 0))). vm_compute in H. discriminate.
Qed.
Print Assumptions C62_direct_construction_refuted.
(** It is from a dictionary. *)
Theorem C11_direct_dictionary_repeatable : forall d,
  (build_interpolation (IDict d)).2 = IDict d /\ (build_gradient (IDict d)).2 = IDict d.
Proof. done. Qed.
Print Assumptions C11_direct_dictionary_repeatable.

(** Which entry each constructor reads from a dictionary, and what it makes of it:
    a string naming a registered class gives that class, another string ends the
    program, another type of entry throws bad_any_cast and a missing one
    out_of_range. *)
Definition entry_names (d : dict) (entry : string) (known : list string) (r : outcome string) : Prop :=
  match dfind d entry with
  | None => r = Throw OutOfRange
  | Some (AString s) => (s ∈ known -> r = Ok s) /\ (s ∉ known -> r = Exit)
  | Some _ => r = Throw BadAnyCast
  end.
Theorem C11_direct_dictionary_entries : forall d,
  entry_names d "surfaceInterpolation" ["linear"; "upwind"] (build_interpolation (IDict d)).1 /\
  entry_names d "faceNormalGradient" ["uncorrected"] (build_gradient (IDict d)).1 /\
  (forall a b, (create_div (IDict d)).1 = Ok (a, b) <->
     dfind d "DivOperator" = Some (AString "Gauss") /\ a = "Gauss"%string /\
     (build_interpolation (IDict d)).1 = Ok b) /\
  (forall a b c, (create_laplacian (IDict d)).1 = Ok (a, b, c) <->
     dfind d "LaplacianOperator" = Some (AString "Gauss") /\ a = "Gauss"%string /\
     (build_interpolation (IDict d)).1 = Ok b /\ (build_gradient (IDict d)).1 = Ok c).
Proof.
  intros d.
  assert (Hk : forall entry known, entry_names d entry known (checked known (input_key entry (IDict d)).1)).
  { intros entry known. unfold entry_names, input_key, dict_get, dict_at. cbn [fst].
    destruct (dfind d entry) as [v|]; [|done]. cbn -[decide]. unfold any_cast.
    destruct v; cbn -[decide]; try by rewrite decide_False.
    rewrite decide_True by done. cbn -[decide]. split; intros Hs; [by rewrite decide_True|by rewrite decide_False]. }
  assert (Hg : forall entry a, checked known_operator (input_key entry (IDict d)).1 = Ok a <-> dfind d entry = Some (AString "Gauss") /\ a = "Gauss"%string).
  { intros entry a. pose proof (Hk entry known_operator) as H. unfold entry_names in H.
    destruct (dfind d entry) as [[]|]; try by (rewrite H; split; [intros [=]|intros [[=] _]]).
    destruct H as [H1 H2]. destruct (decide (s ∈ known_operator)) as [Hin|Hout].
    - rewrite (H1 Hin). apply elem_of_list_singleton in Hin as ->. split; [intros [= <-]; done|by intros [_ ->]].
    - rewrite (H2 Hout). split; [intros [=]|]. intros [[= ->] _]. destruct Hout. left. }
  split; [apply (Hk "surfaceInterpolation"%string)|]. split; [apply (Hk "faceNormalGradient"%string)|]. split.
  - intros a b. unfold create_div.
    destruct (input_key "DivOperator" (IDict d)) as [r i1] eqn:E.
    assert (i1 = IDict d) as -> by (unfold input_key in E; by injection E).
    pose proof (Hg "DivOperator"%string) as Hd. rewrite E in Hd. cbn [fst] in Hd.
    destruct (checked known_operator r) as [a0|e| |].
    + destruct (build_interpolation (IDict d)) as [r2 i2]. cbn [fst]. destruct (proj1 (Hd a0) eq_refl) as [Hf ->].
      destruct r2; cbn; split; try (by intros [=]); try (by intros (_ & _ & [=])).
      * by intros [= <- <-].
      * by intros (_ & -> & [= ->]).
    + cbn. split; [intros [=]|]. intros (Hf & -> & _). by pose proof (proj2 (Hd _) (conj Hf eq_refl)).
    + cbn. split; [intros [=]|]. intros (Hf & -> & _). by pose proof (proj2 (Hd _) (conj Hf eq_refl)).
    + cbn. split; [intros [=]|]. intros (Hf & -> & _). by pose proof (proj2 (Hd _) (conj Hf eq_refl)).
  - intros a b c. unfold create_laplacian.
    destruct (input_key "LaplacianOperator" (IDict d)) as [r i1] eqn:E.
    assert (i1 = IDict d) as -> by (unfold input_key in E; by injection E).
    pose proof (Hg "LaplacianOperator"%string) as Hd. rewrite E in Hd. cbn [fst] in Hd.
    destruct (checked known_operator r) as [a0|e| |].
    + destruct (build_interpolation (IDict d)) as [r2 i2] eqn:E2. cbn [fst]. destruct (proj1 (Hd a0) eq_refl) as [Hf ->].
      assert (i2 = IDict d) as -> by (unfold build_interpolation, input_key in E2; by injection E2).
      destruct r2; cbn -[build_gradient]; try (split; [by intros [=]|by intros (_ & _ & [=] & _)]).
      destruct (build_gradient (IDict d)) as [r3 i3]. cbn. destruct r3; cbn; split; try (by intros [=]); try (by intros (_ & _ & _ & [=])).
      * by intros [= <- <- <-].
      * by intros (_ & -> & [= ->] & [= ->]).
    + cbn. split; [intros [=]|]. intros (Hf & -> & _). by pose proof (proj2 (Hd _) (conj Hf eq_refl)).
    + cbn. split; [intros [=]|]. intros (Hf & -> & _). by pose proof (proj2 (Hd _) (conj Hf eq_refl)).
    + cbn. split; [intros [=]|]. intros (Hf & -> & _). by pose proof (proj2 (Hd _) (conj Hf eq_refl)).
Qed.
Print Assumptions C11_direct_dictionary_entries.
Example C11_direct_dictionary_example :
  let d := [("surfaceInterpolation", AString "upwind"); ("faceNormalGradient", AString "uncorrected");
            ("LaplacianOperator", AString "Gauss")] in
  (create_laplacian (IDict d)).1 = Ok ("Gauss", "upwind", "uncorrected")%string /\
  (create_div (IDict d)).1 = Throw OutOfRange.
Proof. vm_compute. repeat split. Qed.

(** * C12 *)
(** After any registration history: create runs the creator registered last under
    the key in that factory, and terminates if there is none. *)
Theorem C12_create_last_registered : forall rs b key,
  (forall rs1 c rs2, rs = rs1 ++ [RegSub b key c] ++ rs2 -> (forall c', RegSub b key c' ∉ rs2) ->
     create (run_regs rs) b key = Ok c /\ derived_doc (run_regs rs) b key = Ok c) /\
  ((forall c, RegSub b key c ∉ rs) ->
     create (run_regs rs) b key = Exit /\ derived_doc (run_regs rs) b key = Throw OutOfRange).
Proof.
  intros rs b key. rewrite create_spec, derived_doc_spec. split.
  - intros rs1 c rs2 -> Hno.
    assert (registrations (rs1 ++ [RegSub b key c] ++ rs2) b key = registrations rs1 b key ++ [c]) as ->.
    { unfold registrations. rewrite !omap_app.
      assert (omap (fun r => match r with
                 | RegSub b' k c => if decide (b' = b /\ k = key) then Some c else None
                 | RegBase _ _ => None
                 end) rs2 = []) as ->.
      { destruct (decide (registrations rs2 b key = [])) as [E|E]; [done|].
        apply registrations_nonempty in E as [c' Hc]. by destruct (Hno c'). }
      rewrite app_nil_r. simpl. by rewrite decide_True. }
    by rewrite last_snoc.
  - intros Hno. destruct (decide (registrations rs b key = [])) as [->|E]; [done|].
    apply registrations_nonempty in E as [c' Hc]. by destruct (Hno c').
Qed.
Print Assumptions C12_create_last_registered.

(** entries() lists exactly the registered keys, once each. *)
Theorem C12_entries : forall rs b,
  NoDup (entries (run_regs rs) b) /\
  forall key, key ∈ entries (run_regs rs) b <-> exists c, RegSub b key c ∈ rs.
Proof. exact entries_spec. Qed.
Print Assumptions C12_entries.

(** The order of static initialisation is irrelevant when no key is registered
    twice in a factory. *)
Theorem C12_order_irrelevant : forall rs rs' b key, rs ≡ₚ rs' ->
  (forall c c', RegSub b key c ∈ rs -> RegSub b key c' ∈ rs -> c = c') ->
  create (run_regs rs') b key = create (run_regs rs) b key.
Proof.
  intros rs rs' b key Hp Hu. rewrite !create_spec.
  assert (forall l, (forall r, r ∈ l -> r ∈ rs) -> forall c, last (registrations l b key) = Some c -> RegSub b key c ∈ rs) as Hin.
  { intros l Hl c Hc. apply last_Some in Hc as [l' Hc].
    assert (c ∈ registrations l b key) as Hi by (rewrite Hc; apply elem_of_app; right; left).
    apply elem_of_list_omap in Hi as (r & Hr & Hx). destruct r as [|b' k c']; [done|].
    destruct (decide (b' = b /\ k = key)) as [[-> ->]|]; [|done]. injection Hx as ->. by apply Hl. }
  destruct (last (registrations rs b key)) as [c|] eqn:E; destruct (last (registrations rs' b key)) as [c'|] eqn:E'.
  - f_equal. apply Hu; [apply (Hin rs'); [intros r; by rewrite Hp|done]|apply (Hin rs); done].
  - apply (Hin rs) in E; [|done]. rewrite Hp in E.
    assert (registrations rs' b key <> []) as Hn by (apply registrations_nonempty; eauto).
    apply last_is_Some in Hn as [? ?]. congruence.
  - apply (Hin rs') in E'; [|intros r; by rewrite Hp].
    assert (registrations rs b key <> []) as Hn by (apply registrations_nonempty; eauto).
    apply last_is_Some in Hn as [? ?]. congruence.
  - done.
Qed.
Print Assumptions C12_order_irrelevant.

(** A registration in one factory affects no other factory's table. *)
Theorem C12_factories_independent : forall rs r b key,
  reg_factory r <> b ->
  create (run_regs (rs ++ [r])) b key = create (run_regs rs) b key /\
  derived_doc (run_regs (rs ++ [r])) b key = derived_doc (run_regs rs) b key /\
  entries (run_regs (rs ++ [r])) b = entries (run_regs rs) b.
Proof. exact other_factory. Qed.
Print Assumptions C12_factories_independent.

(** The documentation table by base class name, when no two factories use the
    same base name ... *)
Theorem C12_base_documentation : forall rs base b key,
  RegBase b base ∈ rs -> (forall b', RegBase b' base ∈ rs -> b' = b) ->
  base_doc (run_regs rs) base key = derived_doc (run_regs rs) b key /\
  base_entries (run_regs rs) base = Ok (entries (run_regs rs) b).
Proof.
  intros rs base b key H1 H2. unfold base_doc, base_entries. by rewrite (baseDocs_lookup _ _ _ H1 H2).
Qed.
Print Assumptions C12_base_documentation.
(** ... and not otherwise: two factories with the same Base::name() (e.g. the
    instantiations for different value types) overwrite each other's entry. *)
Theorem C63_base_documentation_refuted : ~ forall rs r base b key,
  RegBase b base ∈ rs -> reg_factory r <> b ->
  base_doc (run_regs (rs ++ [r])) base key = base_doc (run_regs rs) base key.
Proof.
  intros H. specialize (H [RegBase 0 "surfaceInterpolation"; RegSub 0 "linear" 7] (RegBase 1 "surfaceInterpolation")
    "surfaceInterpolation" 0 "linear").
  vm_compute in H. discriminate H; [left|done].
Qed.
Print Assumptions C63_base_documentation_refuted.

Example C12_instance :
  let w := run_regs [RegSub 0 "linear" 1; RegSub 1 "linear" 2; RegSub 0 "linear" 3; RegSub 0 "upwind" 4] in
  create w 0 "linear" = Ok 3 /\ create w 1 "linear" = Ok 2 /\ create w 1 "upwind" = Exit.
Proof. vm_compute. repeat split. Qed.

(** * C13 *)
(** The first request builds a new object ... *)
Theorem C13_first_request_builds : forall t k w, sd_db w !! k = None ->
  (readOrCreate t k w).1 = Ok (sd_next w) /\ sd_next (readOrCreate t k w).2 = S (sd_next w).
Proof. intros t k w H. destruct (readOrCreate_result t k w) as [-> ->]. by rewrite H. Qed.
Print Assumptions C13_first_request_builds.
(** ... every later request, after any history of inserts and requests on the
    mesh, returns the same object and builds nothing. *)
Theorem C13_later_requests_share : forall t k w obj os,
  (readOrCreate t k w).1 = Ok obj ->
  let w' := sd_run (readOrCreate t k w).2 os in
  (readOrCreate t k w').1 = Ok obj /\ (readOrCreate t k w').2 = w'.
Proof. exact readOrCreate_stable. Qed.
Print Assumptions C13_later_requests_share.

(** The geometry scheme of a mesh is never handed out as a sparsity pattern, nor
    the other way round: after any further history asking for it under the other
    type throws. *)
Theorem C13_types_kept_apart : forall w obj os,
  ((geometryScheme_readOrCreate w).1 = Ok obj ->
   sd_get sparsityTy (sd_db (sd_run (geometryScheme_readOrCreate w).2 os)) "GeometryScheme" = Throw BadAnyCast) /\
  ((sparsityPattern_readOrCreate w).1 = Ok obj ->
   sd_get geometryTy (sd_db (sd_run (sparsityPattern_readOrCreate w).2 os)) "SparsityPattern" = Throw BadAnyCast).
Proof.
  assert (H : forall t t' k w obj os, t <> t' -> (readOrCreate t k w).1 = Ok obj ->
    sd_get t' (sd_db (sd_run (readOrCreate t k w).2 os)) k = Throw BadAnyCast).
  { intros t t' k w obj os Hn Hr.
    assert (Hl : sd_db (readOrCreate t k w).2 !! k = Some (t, obj)).
    { rewrite readOrCreate_lookup. destruct (readOrCreate_result t k w) as [E _]. rewrite E in Hr.
      destruct (sd_db w !! k) as [[t'' o]|].
      - destruct (decide (t'' = t)); [|discriminate]. congruence.
      - rewrite decide_True by done. congruence. }
    unfold sd_get. rewrite (sd_run_mono os _ _ _ Hl). by rewrite decide_False. }
  intros w obj os. split; intros Hr.
  - by apply (H geometryTy sparsityTy "GeometryScheme" w obj os).
  - by apply (H sparsityTy geometryTy "SparsityPattern" w obj os).
Qed.
Print Assumptions C13_types_kept_apart.
(** No call changes an entry that exists; a request creates at most its own. *)
Theorem C13_entries_never_replaced : forall os w k v,
  sd_db w !! k = Some v -> sd_db (sd_run w os) !! k = Some v.
Proof. intros os w k v. exact (sd_run_mono os w k v). Qed.
Print Assumptions C13_entries_never_replaced.
Theorem C13_other_names_unaffected : forall t k w k', k' <> k ->
  sd_db (readOrCreate t k w).2 !! k' = sd_db w !! k' /\
  forall v, sd_insert (sd_db w) k v !! k' = sd_db w !! k'.
Proof.
  intros t k w k' Hk. rewrite readOrCreate_lookup, decide_False by done.
  split; [by destruct (sd_db w !! k')|]. intros v. rewrite sd_insert_lookup, decide_False by done.
  by destruct (sd_db w !! k').
Qed.
Print Assumptions C13_other_names_unaffected.
(** The geometry scheme and the sparsity pattern of a fresh mesh are built once
    each whatever the order and number of requests. *)
Theorem C13_built_once : forall os,
  Forall (fun o => match o with SInsert _ _ => False | _ => True end) os ->
  sd_next (sd_run (StencilWorld ∅ 0) os)
  = (if decide (SGeometry ∈ os) then 1 else 0) + (if decide (SSparsity ∈ os) then 1 else 0).
Proof. exact built_once. Qed.
Print Assumptions C13_built_once.

Example C13_instance :
  let w := sd_run (StencilWorld ∅ 0) [SGeometry; SSparsity; SInsert "GeometryScheme" (5, 5); SGeometry] in
  (geometryScheme_readOrCreate w).1 = Ok 0 /\ (sparsityPattern_readOrCreate w).1 = Ok 1 /\ sd_next w = 2.
Proof. vm_compute. repeat split. Qed.
