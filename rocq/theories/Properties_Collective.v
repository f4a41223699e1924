(** C106: allReduce. *)
From Coq Require Import Reals Lra Psatz.
From Flocq Require Import Core Relative.
From Verif Require Import Base Value Reduce Properties_Float Properties_Reduce Collective.
Local Open Scope nat_scope.

(** * Specification *)

(** The types an operation can be applied to. *)
Definition integer_type (t : ctype) : Prop :=
  t ∈ [TShort; TInt; TLong; TLongLong; TUShort; TUnsigned; TULong; TULongLong].
Definition accepted (t : ctype) (op : ReduceOp) : Prop :=
  match op with
  | Max | Min => integer_type t \/ t ∈ [TFloat; TDouble; TLongDouble]
  | Sum | Prod => integer_type t \/ t ∈ [TFloat; TDouble; TLongDouble; TComplexFloat; TComplexDouble; TComplexLongDouble]
  | Land | Lor => integer_type t \/ t = TBool
  | Band | Bor => integer_type t
  | Maxloc | Minloc => False
  end.
(** The numbers an integer type holds. *)
Definition holds (t : ctype) (z : Z) : Prop :=
  match t with
  | TShort => -2^15 <= z < 2^15 | TInt => -2^31 <= z < 2^31
  | TLong | TLongLong => -2^63 <= z < 2^63
  | TUShort => 0 <= z < 2^16 | TUnsigned => 0 <= z < 2^32
  | TULong | TULongLong => 0 <= z < 2^64
  | _ => False
  end%Z.
Definition modulus (t : ctype) : Z :=
  (match t with TShort | TUShort => 2^16 | TInt | TUnsigned => 2^32 | _ => 2^64 end)%Z.
Definition sumZ (zs : list Z) : Z := foldr Z.add 0%Z zs.
Definition prodZ (zs : list Z) : Z := foldr Z.mul 1%Z zs.
(** [z] is the reduction of the integers [zs]. *)
Definition int_reduction (t : ctype) (op : ReduceOp) (zs : list Z) (z : Z) : Prop :=
  match op with
  | Max => z ∈ zs /\ (forall x, x ∈ zs -> x <= z)%Z
  | Min => z ∈ zs /\ (forall x, x ∈ zs -> z <= x)%Z
  | Sum => holds t z /\ exists k, (z = sumZ zs + k * modulus t)%Z
  | Prod => holds t z /\ exists k, (z = prodZ zs + k * modulus t)%Z
  | Land => z <> 0%Z <-> (forall x, x ∈ zs -> x <> 0%Z)
  | Lor => z <> 0%Z <-> (exists x, x ∈ zs /\ x <> 0%Z)
  | Band => forall k, Z.testbit z k = true <-> (forall x, x ∈ zs -> Z.testbit x k = true)
  | Bor => forall k, Z.testbit z k = true <-> (exists x, x ∈ zs /\ Z.testbit x k = true)
  | Maxloc | Minloc => False
  end.
(** [x] is the product of the numbers [xs], taken in some order and with some
    bracketing, each multiplication rounded. *)
Inductive rounded_product (p : precision) : list R -> R -> Prop :=
| product_one x : rounded_product p [x] x
| product_join l k x y : rounded_product p l x -> rounded_product p k y -> rounded_product p (l ++ k) (rnd p (x * y))
| product_order l k x : l ≡ₚ k -> rounded_product p l x -> rounded_product p k x.
(** [x] is the reduction of the floating-point numbers [xs]. *)
Definition float_reduction (p : precision) (op : ReduceOp) (xs : list R) (x : R) : Prop :=
  match op with
  | Max => x ∈ xs /\ (forall y, y ∈ xs -> (y <= x)%R)
  | Min => x ∈ xs /\ (forall y, y ∈ xs -> (x <= y)%R)
  | Sum => scalar_format p x /\ (Rabs (x - sumR xs) <= ((1 + u p) ^ (length xs - 1) - 1) * sumabs xs)%R
  | Prod => scalar_format p x /\ rounded_product p xs x
  | _ => False
  end.

(** * Proofs *)
Section library.
Context (opaque : MPI_Datatype -> MPI_Op -> Z -> Z -> Z).
Notation allReduce := (allReduce opaque).
Notation allReduce_vector := (allReduce_vector opaque).
Notation combine := (combine opaque).

(** What holds of single values, and of a combination of two parts, holds of the result. *)
Lemma reduced_ind (f : mval -> mval -> mval) (P : list mval -> mval -> Prop) vals res :
  (forall l k v, l ≡ₚ k -> P l v -> P k v) -> (forall v, v ∈ vals -> P [v] v) ->
  (forall l k v w, P l v -> P k w -> P (l ++ k) (f v w)) -> reduced f vals res -> P vals res.
Proof.
  intros Hp H1 H2 (t & Ht & ->). set (g := fun r => default (VInt 0) (vals !! r)).
  assert (E : g <$> seq 0 (length vals) = vals).
  { apply list_eq. intros i. rewrite list_lookup_fmap. destruct (decide (i < length vals)) as [Hi|Hi].
    - rewrite lookup_seq_lt by lia. cbn. unfold g. destruct (vals !! i) eqn:E; [done|]. apply lookup_ge_None in E. lia.
    - rewrite lookup_seq_ge by lia. symmetry. apply lookup_ge_None. lia. }
  apply (Hp (g <$> ranks_of t)); [by rewrite Ht, E|].
  assert (Hr : forall r, r ∈ ranks_of t -> r < length vals) by (intros r; rewrite Ht; intros Hr%elem_of_seq; lia).
  clear Ht E. induction t as [r|l IHl r IHr]; cbn [ranks_of tree_value].
  - apply H1. specialize (Hr r ltac:(by left)). unfold g. destruct (vals !! r) eqn:E; [by eapply elem_of_list_lookup_2|]. apply lookup_ge_None in E. lia.
  - rewrite fmap_app. apply H2; [apply IHl|apply IHr]; intros x Hx; apply Hr; cbn; rewrite elem_of_app; auto.
Qed.

Lemma allReduce_ok t op vals r : allReduce t op vals r ->
  match getType t with
  | Ok d => if supported d (getOp op) then exists v, reduced (combine d (getOp op)) vals v /\ r = Ok ((fun _ => v) <$> vals) else r = Exit
  | _ => r = Exit
  end.
Proof.
  unfold Collective.allReduce. destruct (getType t) as [d| | |]; try done. intros (r' & H & ->). revert H. unfold MPI_Allreduce.
  destruct (supported d (getOp op)); [|by intros ->]. intros (res & Hl & Hk & ->). destruct res as [|v [|]]; try done.
  exists v. split.
  - specialize (Hk 0 v eq_refl). rewrite <- list_fmap_compose in Hk. cbn in Hk. change (list_fmap mval mval ((λ b, default (VInt 0) (b !! 0)) ∘ (λ v : mval, [v]))) with (fmap (M := list) (fun v : mval => v)) in Hk.
    by rewrite list_fmap_id in Hk.
  - cbn. f_equal. rewrite <- !list_fmap_compose. done.
Qed.

Lemma reduced_exists f vals : vals <> [] -> exists v, reduced f vals v.
Proof.
  intros Hne. destruct vals as [|v0 vals]; [done|]. clear Hne.
  set (t := fold_left (fun t r => Both t (Rank r)) (seq 1 (length vals)) (Rank 0)).
  eexists. exists t. split; [|reflexivity]. unfold t.
  assert (G : forall l t0, ranks_of (fold_left (fun t r => Both t (Rank r)) l t0) = ranks_of t0 ++ l).
  { induction l as [|x l IH]; intros t0; cbn; [by rewrite app_nil_r|]. rewrite IH. cbn. by rewrite <- app_assoc. }
  by rewrite G.
Qed.

(** Every rank receives the same value. *)
Theorem C106_same_on_all_ranks : forall t op vals res, allReduce t op vals (Ok res) ->
  exists v, res = replicate (length vals) v.
Proof.
  intros t op vals res H%allReduce_ok. destruct (getType t) as [d| | |]; try done. destruct (supported d (getOp op)); [|done].
  destruct H as (v & _ & [= ->]). exists v. induction vals; cbn; by f_equal.
Qed.

(** The program ends exactly if the type is not one the operation is defined for;
    otherwise the call returns.  No other outcome is possible. *)
Theorem C106_accepted : forall t op vals, vals <> [] ->
  (accepted t op <-> exists res, allReduce t op vals (Ok res)) /\
  (~ accepted t op <-> allReduce t op vals Exit) /\
  (forall r, allReduce t op vals r -> r = Exit \/ exists res, r = Ok res).
Proof.
  intros t op vals Hne.
  assert (D : {d | getType t = Ok d /\ (supported d (getOp op) = true /\ accepted t op \/ supported d (getOp op) = false /\ ~ accepted t op)} + (getType t = Exit /\ ~ accepted t op)).
  { destruct t, op; (right; split; [reflexivity|]; unfold accepted, integer_type; rewrite ?elem_of_cons, ?elem_of_nil; intuition discriminate) ||
    (left; eexists; split; [reflexivity|]; first [left; split; [reflexivity|]; unfold accepted, integer_type; rewrite ?elem_of_cons; tauto
      | right; split; [reflexivity|]; unfold accepted, integer_type; rewrite ?elem_of_cons, ?elem_of_nil; intuition discriminate]). }
  destruct D as [(d & Hd & [[Hs Ha]|[Hs Ha]])|[Hd Ha]].
  - assert (E : exists res, allReduce t op vals (Ok res)).
    { destruct (reduced_exists (combine d (getOp op)) vals Hne) as [v Hv]. exists ((fun _ => v) <$> vals). unfold Collective.allReduce. rewrite Hd.
      exists (Ok ((fun _ => [v]) <$> ((fun v => [v]) <$> vals))). split.
      - unfold MPI_Allreduce. rewrite Hs. exists [v]. split; [done|]. split; [|done]. intros [|k] x; [|done]. intros [= <-].
        rewrite <- list_fmap_compose. cbn. change (list_fmap mval mval ((λ b, default (VInt 0) (b !! 0)) ∘ (λ v : mval, [v]))) with (fmap (M := list) (fun v : mval => v)). by rewrite list_fmap_id.
      - cbn. f_equal. rewrite <- !list_fmap_compose. done. }
    assert (N : forall r, allReduce t op vals r -> r = Exit \/ exists res, r = Ok res).
    { intros r Hr%allReduce_ok. rewrite Hd, Hs in Hr. destruct Hr as (v & _ & ->). eauto. }
    split; [tauto|]. split; [|done]. split; [tauto|]. intros Hr%allReduce_ok. rewrite Hd, Hs in Hr. destruct Hr as (v & _ & Hr). done.
  - assert (N : forall r, allReduce t op vals r -> r = Exit) by (intros r Hr%allReduce_ok; by rewrite Hd, Hs in Hr).
    assert (E : allReduce t op vals Exit).
    { unfold Collective.allReduce. rewrite Hd. exists Exit. split; [|done]. unfold MPI_Allreduce. by rewrite Hs. }
    split; [split; [tauto|]; intros [res Hr%N]; done|]. split; [tauto|]. intros r Hr%N. by left.
  - assert (N : forall r, allReduce t op vals r -> r = Exit) by (intros r Hr%allReduce_ok; by rewrite Hd in Hr).
    assert (E : allReduce t op vals Exit) by (unfold Collective.allReduce; by rewrite Hd).
    split; [split; [tauto|]; intros [res Hr%N]; done|]. split; [tauto|]. intros r Hr%N. by left.
Qed.

Lemma wrap_spec bits sgn z : (0 < bits)%Z ->
  (exists k, wrap bits sgn z = z + k * 2 ^ bits)%Z /\
  (if sgn then - 2 ^ (bits - 1) <= wrap bits sgn z < 2 ^ (bits - 1) else 0 <= wrap bits sgn z < 2 ^ bits)%Z.
Proof.
  intros Hb. assert (Hp : (0 < 2 ^ bits)%Z) by (apply Z.pow_pos_nonneg; lia).
  assert (H2 : (2 ^ bits = 2 * 2 ^ (bits - 1))%Z) by (rewrite <- Z.pow_succ_r by lia; f_equal; lia).
  unfold wrap. destruct sgn.
  - pose proof (Z.mod_pos_bound (z + 2 ^ (bits - 1)) (2 ^ bits) Hp). pose proof (Z.div_mod (z + 2 ^ (bits - 1)) (2 ^ bits) ltac:(lia)).
    split; [|lia]. exists (- ((z + 2 ^ (bits - 1)) / 2 ^ bits))%Z. nia.
  - pose proof (Z.mod_pos_bound z (2 ^ bits) Hp). pose proof (Z.div_mod z (2 ^ bits) ltac:(lia)).
    split; [|lia]. exists (- (z / 2 ^ bits))%Z. nia.
Qed.
Lemma integer_class t : integer_type t -> exists d bits sgn, getType t = Ok d /\ class_of d = CInteger bits sgn /\ (0 < bits)%Z /\
  modulus t = (2 ^ bits)%Z /\ (forall z, holds t z <-> if sgn then (- 2 ^ (bits - 1) <= z < 2 ^ (bits - 1))%Z else (0 <= z < 2 ^ bits)%Z).
Proof.
  unfold integer_type. rewrite !elem_of_cons, elem_of_nil.
  intros H; repeat (destruct H as [->|H]); [..|done]; do 3 eexists; (split; [reflexivity|]; split; [reflexivity|]; split; [lia|]; split; [reflexivity|]; done).
Qed.
Lemma sumZ_app l k : sumZ (l ++ k) = (sumZ l + sumZ k)%Z. Proof. unfold sumZ. induction l; cbn; lia. Qed.
Lemma prodZ_app l k : prodZ (l ++ k) = (prodZ l * prodZ k)%Z. Proof. unfold prodZ. induction l as [|a l IH]; cbn; [lia|]. unfold prodZ in *. rewrite IH. lia. Qed.
Lemma sumZ_perm l k : l ≡ₚ k -> sumZ l = sumZ k. Proof. induction 1; unfold sumZ in *; cbn in *; lia. Qed.
Lemma prodZ_perm l k : l ≡ₚ k -> prodZ l = prodZ k. Proof. induction 1; unfold prodZ in *; cbn in *; [lia|nia|lia|lia]. Qed.

Definition ints (vals : list mval) : list Z := omap (fun v => match v with VInt z => Some z | _ => None end) vals.
Lemma ints_app l k : ints (l ++ k) = ints l ++ ints k. Proof. unfold ints. apply omap_app. Qed.
Lemma ints_of zs : ints (VInt <$> zs) = zs. Proof. unfold ints. induction zs; cbn; [done|]. by f_equal. Qed.

Lemma int_reduction_perm t op l k z : l ≡ₚ k -> int_reduction t op l z -> int_reduction t op k z.
Proof.
  intros Hp. destruct op; cbn; rewrite ?(sumZ_perm _ _ Hp), ?(prodZ_perm _ _ Hp); try done.
  - intros [H1 H2]. split; [by rewrite <- Hp|]. intros x. rewrite <- Hp. apply H2.
  - intros [H1 H2]. split; [by rewrite <- Hp|]. intros x. rewrite <- Hp. apply H2.
  - intros H. rewrite H. split; intros G x; [rewrite <- Hp|rewrite Hp]; apply G.
  - intros H i. rewrite H. split; intros G x; [rewrite <- Hp|rewrite Hp]; apply G.
  - intros H. rewrite H. split; intros (x & G1 & G2); exists x; (split; [|done]); [by rewrite <- Hp|by rewrite Hp].
  - intros H i. rewrite H. split; intros (x & G1 & G2); exists x; (split; [|done]); [by rewrite <- Hp|by rewrite Hp].
Qed.

Lemma truth_nz b : truth b <> 0%Z <-> b = true. Proof. destruct b; cbn; split; done. Qed.

Lemma int_reduction_combine t d bits sgn op l k v w : class_of d = CInteger bits sgn -> (0 < bits)%Z -> modulus t = (2 ^ bits)%Z ->
  (forall z, holds t z <-> if sgn then (- 2 ^ (bits - 1) <= z < 2 ^ (bits - 1))%Z else (0 <= z < 2 ^ bits)%Z) ->
  int_reduction t op l v -> int_reduction t op k w -> int_reduction t op (l ++ k) (int_combine bits sgn (getOp op) v w).
Proof.
  intros Hc Hb Hmod Hh. destruct op; cbn [int_reduction getOp int_combine]; try done.
  - intros [H1 H2] [H3 H4]. split; [destruct (Z.max_spec v w) as [[_ ->]|[_ ->]]; rewrite elem_of_app; auto|].
    intros x [Hx|Hx]%elem_of_app; [specialize (H2 x Hx)|specialize (H4 x Hx)]; lia.
  - intros [H1 H2] [H3 H4]. split; [destruct (Z.min_spec v w) as [[_ ->]|[_ ->]]; rewrite elem_of_app; auto|].
    intros x [Hx|Hx]%elem_of_app; [specialize (H2 x Hx)|specialize (H4 x Hx)]; lia.
  - intros (_ & a & ->) (_ & b & ->). destruct (wrap_spec bits sgn (sumZ l + a * modulus t + (sumZ k + b * modulus t)) Hb) as [[c Ec] Hr].
    split; [by apply Hh|]. rewrite Ec, sumZ_app, Hmod. exists (a + b + c)%Z. ring.
  - intros (_ & a & ->) (_ & b & ->). destruct (wrap_spec bits sgn ((prodZ l + a * modulus t) * (prodZ k + b * modulus t)) Hb) as [[c Ec] Hr].
    split; [by apply Hh|]. rewrite Ec, prodZ_app, Hmod. exists (prodZ l * b + a * prodZ k + a * b * 2 ^ bits + c)%Z. ring.
  - intros H1 H2. rewrite truth_nz, andb_true_iff, !negb_true_iff, !Z.eqb_neq, H1, H2. split.
    + intros [A B] x [Hx|Hx]%elem_of_app; auto.
    + intros A. split; intros x Hx; apply A, elem_of_app; auto.
  - intros H1 H2 i. rewrite Z.land_spec, andb_true_iff, H1, H2. split.
    + intros [A B] x [Hx|Hx]%elem_of_app; auto.
    + intros A. split; intros x Hx; apply A, elem_of_app; auto.
  - intros H1 H2. rewrite truth_nz, orb_true_iff, !negb_true_iff, !Z.eqb_neq, H1, H2. split.
    + intros [(x & Hx & Hn)|(x & Hx & Hn)]; exists x; rewrite elem_of_app; auto.
    + intros (x & [Hx|Hx]%elem_of_app & Hn); eauto.
  - intros H1 H2 i. rewrite Z.lor_spec, orb_true_iff, H1, H2. split.
    + intros [(x & Hx & Hn)|(x & Hx & Hn)]; exists x; rewrite elem_of_app; auto.
    + intros (x & [Hx|Hx]%elem_of_app & Hn); eauto.
Qed.

(** Integers: the exact maximum, minimum, conjunction, ... of all ranks' values;
    sums and products up to a multiple of the size of the type, hence exactly if they fit. *)
Theorem C106_integers : forall t op zs res, integer_type t -> accepted t op -> Forall (holds t) zs ->
  allReduce t op (VInt <$> zs) (Ok res) ->
  exists z, res = replicate (length zs) (VInt z) /\ int_reduction t op zs z.
Proof.
  intros t op zs res Ht Hacc Hz H%allReduce_ok. destruct (integer_class t Ht) as (d & bits & sgn & Hd & Hc & Hb & Hmod & Hh). rewrite Hd in H.
  destruct (supported d (getOp op)); [|done]. destruct H as (v & Hv & [= ->]).
  assert (G : exists z, v = VInt z /\ int_reduction t op (ints (VInt <$> zs)) z).
  { revert Hv. apply (reduced_ind _ (fun l v => exists z, v = VInt z /\ int_reduction t op (ints l) z)).
    - intros l k w Hp (z & -> & Hz'). exists z. split; [done|]. eapply int_reduction_perm; [|exact Hz']. unfold ints. by rewrite Hp.
    - intros w Hw. apply elem_of_list_fmap in Hw as (z & -> & Hin). exists z. split; [done|]. rewrite Forall_forall in Hz. specialize (Hz z Hin).
      unfold ints. cbn [omap list_omap]. clear -Hz Hacc. destruct op; cbn [int_reduction].
      + split; [by left|]. intros x ->%elem_of_list_singleton. lia.
      + split; [by left|]. intros x ->%elem_of_list_singleton. lia.
      + split; [done|]. exists 0%Z. cbn. lia.
      + split; [done|]. exists 0%Z. cbn. lia.
      + split; [intros A x ->%elem_of_list_singleton; done|intros A; apply A; by left].
      + intros i. split; [intros A x ->%elem_of_list_singleton; done|intros A; apply A; by left].
      + split; [intros A; exists z; split; [by left|done]|]. intros (x & ->%elem_of_list_singleton & A). done.
      + intros i. split; [intros A; exists z; split; [by left|done]|]. intros (x & ->%elem_of_list_singleton & A). done.
      + done.
      + done.
    - intros l k w1 w2 (z1 & -> & H1) (z2 & -> & H2). exists (int_combine bits sgn (getOp op) z1 z2). split.
      + unfold combine. by rewrite Hc.
      + rewrite ints_app. by eapply int_reduction_combine. }
  destruct G as (z & -> & G). rewrite ints_of in G. exists z. split; [|done]. clear. induction zs; cbn; by f_equal.
Qed.

Theorem C106_sum_that_fits : forall t zs res, integer_type t -> Forall (holds t) zs -> holds t (sumZ zs) ->
  allReduce t Sum (VInt <$> zs) (Ok res) -> res = replicate (length zs) (VInt (sumZ zs)).
Proof.
  intros t zs res Ht Hz Hs H. destruct (C106_integers t Sum zs res Ht ltac:(by left) Hz H) as (z & -> & Hr & k & E). do 2 f_equal.
  destruct (integer_class t Ht) as (d & bits & sgn & Hd & Hc & Hb & Hmod & Hh). rewrite Hmod in E. apply Hh in Hr, Hs.
  assert (Hp : (0 < 2 ^ bits)%Z) by (apply Z.pow_pos_nonneg; lia).
  assert (H2 : (2 ^ bits = 2 * 2 ^ (bits - 1))%Z) by (rewrite <- Z.pow_succ_r by lia; f_equal; lia).
  assert (k = 0)%Z; [|subst; lia]. destruct sgn; nia.
Qed.

(** bool: the conjunction and the disjunction. *)
Theorem C106_bool : forall op bs res, op = Land \/ op = Lor ->
  allReduce TBool op ((fun b => VInt (truth b)) <$> bs) (Ok res) -> bs <> [] ->
  res = replicate (length bs) (VInt (truth (match op with Land => forallb (fun b => b) bs | _ => existsb (fun b => b) bs end))).
Proof.
  intros op bs res Hop H%allReduce_ok Hne. cbn [getType] in H. assert (Hs : supported MPI_CXX_BOOL (getOp op) = true) by (by destruct Hop as [-> | ->]).
  rewrite Hs in H. destruct H as (v & Hv & [= ->]).
  set (P := fun (l : list mval) (v : mval) => exists b : bool, v = VInt (truth b) /\
    match op with Land => b = true <-> (forall x, x ∈ ints l -> x <> 0%Z) | _ => b = true <-> (exists x, x ∈ ints l /\ x <> 0%Z) end).
  assert (G : P ((fun b => VInt (truth b)) <$> bs) v).
  { revert Hv. apply reduced_ind; unfold P.
    - intros l k w Hp (b & -> & Hb). exists b. split; [done|]. assert (Hi : ints l ≡ₚ ints k) by (unfold ints; by rewrite Hp).
      destruct Hop as [-> | ->]; rewrite Hb; clear Hb.
      + split; intros A x; [rewrite <- Hi|rewrite Hi]; apply A.
      + split; intros (x & A1 & A2); exists x; (split; [|done]); [by rewrite <- Hi|by rewrite Hi].
    - intros w (b & -> & _)%elem_of_list_fmap. exists b. split; [done|]. unfold ints. cbn [omap list_omap]. destruct Hop as [-> | ->]; rewrite <- truth_nz.
      + split; [intros A x ->%elem_of_list_singleton; done|intros A; apply A; by left].
      + split; [intros A; exists (truth b); split; [by left|done]|]. intros (x & ->%elem_of_list_singleton & A). done.
    - intros l k w1 w2 (b1 & -> & H1) (b2 & -> & H2). unfold combine. cbn [class_of].
      destruct Hop as [-> | ->]; cbn [getOp int_combine]; eexists; (split; [reflexivity|]); rewrite ints_app.
      + rewrite andb_true_iff, !negb_true_iff, !Z.eqb_neq, !truth_nz, H1, H2. split.
        * intros [A B] x [Hx|Hx]%elem_of_app; auto.
        * intros A. split; intros x Hx; apply A, elem_of_app; auto.
      + rewrite orb_true_iff, !negb_true_iff, !Z.eqb_neq, !truth_nz, H1, H2. split.
        * intros [(x & Hx & Hn)|(x & Hx & Hn)]; exists x; rewrite elem_of_app; auto.
        * intros (x & [Hx|Hx]%elem_of_app & Hn); eauto. }
  destruct G as (b & -> & Hb).
  assert (Hin : forall x, x ∈ ints ((fun b => VInt (truth b)) <$> bs) <-> exists b, b ∈ bs /\ x = truth b).
  { intros x. change ((fun b => VInt (truth b)) <$> bs) with (fmap (M := list) (VInt ∘ truth) bs). rewrite list_fmap_compose, ints_of, elem_of_list_fmap. naive_solver. }
  assert (E : b = match op with Land => forallb (fun b => b) bs | _ => existsb (fun b => b) bs end).
  { apply eq_true_iff_eq. destruct Hop as [-> | ->]; rewrite Hb.
    - rewrite forallb_forall. split.
      + intros A x Hx. apply truth_nz, A, Hin. exists x. split; [by apply elem_of_list_In|done].
      + intros A x (y & Hy & ->)%Hin. apply truth_nz, A. by apply elem_of_list_In.
    - rewrite existsb_exists. split.
      + intros (x & (y & Hy & ->)%Hin & A). exists y. split; [by apply elem_of_list_In|by apply truth_nz].
      + intros (y & Hy & ->). exists 1%Z. split; [|done]. apply Hin. exists true. split; [by apply elem_of_list_In|done]. }
  rewrite <- E. clear. induction bs; cbn; by f_equal.
Qed.

(** float and double *)
Definition reals (vals : list mval) : list R := omap (fun v => match v with VReal z => Some z | _ => None end) vals.
Lemma reals_app l k : reals (l ++ k) = reals l ++ reals k. Proof. unfold reals. apply omap_app. Qed.
Lemma reals_of xs : reals (VReal <$> xs) = xs. Proof. unfold reals. induction xs; cbn; [done|]. by f_equal. Qed.

Lemma reduced_floats p op d xs v : class_of d = CFloating p -> op ∈ [Max; Min; Sum; Prod] -> Forall (scalar_format p) xs -> xs <> [] ->
  reduced (combine d (getOp op)) (VReal <$> xs) v -> exists x, v = VReal x /\ float_reduction p op xs x.
Proof.
  intros Hc Hop Hf Hne Hv.
  set (P := fun (l : list mval) (v : mval) => exists x, v = VReal x /\
    match op with Max | Min => float_reduction p op (reals l) x | Sum => accurate p (reals l) x | Prod => scalar_format p x /\ rounded_product p (reals l) x | _ => True end).
  assert (G : P (VReal <$> xs) v).
  { revert Hv. apply reduced_ind; unfold P.
    - intros l k w Hp (x & -> & Hx). exists x. split; [done|]. assert (Hi : reals l ≡ₚ reals k) by (unfold reals; by rewrite Hp).
      destruct op; cbn in *; try done.
      + destruct Hx as [H1 H2]. split; [by rewrite <- Hi|]. intros y. rewrite <- Hi. apply H2.
      + destruct Hx as [H1 H2]. split; [by rewrite <- Hi|]. intros y. rewrite <- Hi. apply H2.
      + by eapply accurate_perm.
      + destruct Hx as [H1 H2]. split; [done|]. by eapply product_order.
    - intros w (x & -> & Hin)%elem_of_list_fmap. exists x. split; [done|]. rewrite Forall_forall in Hf. specialize (Hf x Hin). unfold reals. cbn [omap list_omap].
      destruct op; cbn; try done.
      + split; [by left|]. intros y ->%elem_of_list_singleton. lra.
      + split; [by left|]. intros y ->%elem_of_list_singleton. lra.
      + split; [done|]. split; [done|]. cbn. rewrite Rplus_0_r. replace (x - x)%R with 0%R by ring. rewrite Rabs_R0. pose proof (Rabs_pos x). lra.
      + split; [done|]. constructor.
    - intros l k w1 w2 (x & -> & H1) (y & -> & H2). unfold combine. rewrite Hc. eexists. split; [reflexivity|]. rewrite reals_app.
      destruct op; cbn [getOp float_combine float_reduction] in *; try done.
      + destruct H1 as [A1 A2], H2 as [B1 B2]. pose proof (Rmax_l x y). pose proof (Rmax_r x y). split.
        * unfold Rmax. destruct (Rle_dec x y); rewrite elem_of_app; auto.
        * intros z [Hz|Hz]%elem_of_app; [specialize (A2 z Hz)|specialize (B2 z Hz)]; lra.
      + destruct H1 as [A1 A2], H2 as [B1 B2]. pose proof (Rmin_l x y). pose proof (Rmin_r x y). split.
        * unfold Rmin. destruct (Rle_dec x y); rewrite elem_of_app; auto.
        * intros z [Hz|Hz]%elem_of_app; [specialize (A2 z Hz)|specialize (B2 z Hz)]; lra.
      + by apply accurate_join.
      + split; [apply format_rnd|]. destruct H1 as [_ H1], H2 as [_ H2]. by constructor. }
  destruct G as (x & -> & Hx). rewrite reals_of in Hx. exists x. split; [done|].
  rewrite !elem_of_cons, elem_of_nil in Hop. destruct op; cbn in *; try done; try (by destruct Hop as [?|[?|[?|[?|?]]]]).
  destruct Hx as (A & _ & B). done.
Qed.

Theorem C106_scalars : forall p op xs res, Forall (scalar_format p) xs -> xs <> [] ->
  allReduce (scalar_type p) op (VReal <$> xs) (Ok res) ->
  exists x, res = replicate (length xs) (VReal x) /\ float_reduction p op xs x.
Proof.
  intros p op xs res Hf Hne H%allReduce_ok.
  assert (Hd : exists d, getType (scalar_type p) = Ok d /\ class_of d = CFloating p) by (destruct p; eexists; done). destruct Hd as (d & Hd & Hc).
  rewrite Hd in H. destruct (supported d (getOp op)) eqn:Hs; [|done]. destruct H as (v & Hv & [= ->]).
  assert (Hop : op ∈ [Max; Min; Sum; Prod]) by (rewrite !elem_of_cons; unfold supported in Hs; rewrite Hc in Hs; destruct op; cbn in Hs; try done; tauto).
  destruct (reduced_floats p op d xs v Hc Hop Hf Hne Hv) as (x & -> & Hx). exists x. split; [|done]. clear. induction xs; cbn; by f_equal.
Qed.

(** A Vector is reduced component by component. *)
Theorem C106_vector : forall p op vs res, vs <> [] ->
  Forall (fun v => scalar_format p v.1.1 /\ scalar_format p v.1.2 /\ scalar_format p v.2) vs ->
  allReduce_vector p op vs (Ok res) ->
  exists x y z, res = replicate (length vs) (x, y, z) /\
    float_reduction p op ((fun v => v.1.1) <$> vs) x /\ float_reduction p op ((fun v => v.1.2) <$> vs) y /\ float_reduction p op (snd <$> vs) z.
Proof.
  intros p op vs res Hne Hf. unfold Collective.allReduce_vector.
  assert (Hd : exists d, getType (scalar_type p) = Ok d /\ class_of d = CFloating p) by (destruct p; eexists; done). destruct Hd as (d & Hd & Hc).
  rewrite Hd. intros (r' & H & E). revert H. unfold MPI_Allreduce. destruct (supported d (getOp op)) eqn:Hs; [|by intros ->].
  assert (Hop : op ∈ [Max; Min; Sum; Prod]) by (rewrite !elem_of_cons; unfold supported in Hs; rewrite Hc in Hs; destruct op; cbn in Hs; try done; tauto).
  intros (b & Hl & Hk & ->). destruct b as [|b0 [|b1 [|b2 [|]]]]; try done. clear Hl. cbn in E. injection E as ->.
  assert (G : forall k g b, (forall v : R * R * R, default (VInt 0) ([VReal v.1.1; VReal v.1.2; VReal v.2] !! k) = VReal (g v)) ->
    [b0; b1; b2] !! k = Some b -> (forall v, v ∈ vs -> scalar_format p (g v)) -> exists x, b = VReal x /\ float_reduction p op (g <$> vs) x).
  { intros k g b Hg Hb Hfg. specialize (Hk k b Hb). rewrite <- list_fmap_compose in Hk.
    apply (reduced_floats p op d (g <$> vs) b Hc Hop); [| |].
    - apply Forall_fmap, Forall_forall. intros v Hv. by apply Hfg.
    - by destruct vs.
    - rewrite <- list_fmap_compose. erewrite list_fmap_ext; [exact Hk|]. intros i v _. cbn. symmetry. apply Hg. }
  rewrite Forall_forall in Hf.
  destruct (G 0 (fun v => v.1.1) b0) as (x & -> & Hx); [done|done|intros v Hv; by apply Hf|].
  destruct (G 1 (fun v => v.1.2) b1) as (y & -> & Hy); [done|done|intros v Hv; by apply Hf|].
  destruct (G 2 snd b2) as (z & -> & Hz); [done|done|intros v Hv; by apply Hf|].
  exists x, y, z. split; [|done]. rewrite <- list_fmap_compose. clear. induction vs; cbn; by f_equal.
Qed.
End library.
Print Assumptions C106_same_on_all_ranks.
Print Assumptions C106_accepted.
Print Assumptions C106_integers.
Print Assumptions C106_sum_that_fits.
Print Assumptions C106_bool.
Print Assumptions C106_scalars.

(** A product of numbers that are zero or at least 1 in size (so that nothing
    underflows) has a relative error of at most (1 + u)^(n - 1) - 1. *)
Definition prodR (xs : list R) : R := foldr Rmult 1%R xs.
Local Lemma prodR_app l k : prodR (l ++ k) = (prodR l * prodR k)%R.
Proof. unfold prodR. induction l as [|x l IH]; cbn; [ring|]. rewrite IH. ring. Qed.
Local Lemma prodR_perm l k : l ≡ₚ k -> prodR l = prodR k.
Proof. unfold prodR. induction 1; cbn in *; [done|by f_equal|ring|congruence]. Qed.
Local Lemma rnd_big p z : (z = 0 \/ 1 <= Rabs z)%R ->
  (rnd p z = 0 \/ 1 <= Rabs (rnd p z))%R /\ (Rabs (rnd p z - z) <= u p * Rabs z)%R.
Proof.
  assert (Hp : Prec_gt_0 (digits p)) by (by destruct p). assert (Hv : Valid_exp (FLT_exp (emin p) (digits p))) by (apply FLT_exp_valid; done).
  intros [->|Hz].
  - assert (rnd p 0 = 0%R) as -> by (apply round_0; typeclasses eauto). split; [by left|]. rewrite Rminus_0_r, Rabs_R0, Rmult_0_r. lra.
  - split.
    + right. apply abs_round_ge_generic; [typeclasses eauto..| |done]. change 1%R with (bpow radix2 0). apply generic_format_bpow. unfold FLT_exp. destruct p; cbn; lia.
    + rewrite <- (u_ro_p p). unfold rnd. change ZnearestE with (Znearest (fun z => negb (Z.even z))).
      apply (relative_error_N_FLT radix2 (emin p) (digits p) Hp). eapply Rle_trans; [|exact Hz]. change 1%R with (bpow radix2 0). apply bpow_le. destruct p; cbn; lia.
Qed.
Theorem C106_product_accuracy : forall p xs x, Forall (fun y => y = 0 \/ 1 <= Rabs y)%R xs -> rounded_product p xs x ->
  (Rabs (x - prodR xs) <= ((1 + u p) ^ (length xs - 1) - 1) * Rabs (prodR xs))%R.
Proof.
  intros p xs x Hb H. enough (xs <> [] /\ (x = 0 \/ 1 <= Rabs x)%R /\
    (Rabs (x - prodR xs) <= ((1 + u p) ^ (length xs - 1) - 1) * Rabs (prodR xs))%R) by tauto.
  assert (Hu : (0 < u p)%R) by apply u_pos.
  induction H as [x|l k x y Hl IHl Hk IHk|l k x Hp Hl IHl].
  - rewrite Forall_singleton in Hb. split; [discriminate|]. split; [exact Hb|]. unfold prodR. cbn. rewrite Rmult_1_r.
    replace (x - x)%R with 0%R by ring. rewrite Rabs_R0. pose proof (Rabs_pos x). lra.
  - apply Forall_app in Hb as [Hbl Hbk]. destruct (IHl Hbl) as (Hn1 & Bx & Ex). destruct (IHk Hbk) as (Hn2 & By & Ey).
    assert (Bxy : (x * y = 0 \/ 1 <= Rabs (x * y))%R).
    { destruct Bx as [->|Bx]; [left; ring|]. destruct By as [->|By]; [left; ring|]. right. rewrite Rabs_mult. nra. }
    destruct (rnd_big p _ Bxy) as [Br Er]. split; [by destruct l|]. split; [done|].
    rewrite prodR_app, app_length, Rabs_mult. set (P := prodR l) in *. set (Q := prodR k) in *.
    set (A := ((1 + u p) ^ (length l - 1))%R) in *. set (B := ((1 + u p) ^ (length k - 1))%R) in *.
    assert (HA : (1 <= A)%R) by (apply pow_R1_Rle; lra). assert (HB : (1 <= B)%R) by (apply pow_R1_Rle; lra).
    assert (((1 + u p) ^ (length l + length k - 1))%R = ((1 + u p) * (A * B))%R) as ->.
    { unfold A, B. rewrite <- pow_add. change ((1 + u p) * (1 + u p) ^ (length l - 1 + (length k - 1)))%R with ((1 + u p) ^ (S (length l - 1 + (length k - 1))))%R.
      f_equal. destruct l, k; try done. cbn [length]. lia. }
    assert (Hx : (Rabs x <= A * Rabs P)%R).
    { replace x with ((x - P) + P)%R by ring. eapply Rle_trans; [apply Rabs_triang|]. lra. }
    assert (Hxy : (Rabs (x * y - P * Q) <= (A * B - 1) * (Rabs P * Rabs Q))%R).
    { replace (x * y - P * Q)%R with (x * (y - Q) + (x - P) * Q)%R by ring. eapply Rle_trans; [apply Rabs_triang|].
      rewrite !Rabs_mult. pose proof (Rabs_pos x). pose proof (Rabs_pos (y - Q)). pose proof (Rabs_pos Q). pose proof (Rabs_pos P).
      apply (Rle_trans _ (A * Rabs P * ((B - 1) * Rabs Q) + (A - 1) * Rabs P * Rabs Q)); [|right; ring].
      apply Rplus_le_compat; [by apply Rmult_le_compat|by apply Rmult_le_compat_r]. }
    assert (Hm : (Rabs (x * y) <= A * B * (Rabs P * Rabs Q))%R).
    { replace (x * y)%R with ((x * y - P * Q) + P * Q)%R by ring. eapply Rle_trans; [apply Rabs_triang|]. rewrite (Rabs_mult P Q). lra. }
    replace (rnd p (x * y) - P * Q)%R with ((rnd p (x * y) - x * y) + (x * y - P * Q))%R by ring.
    eapply Rle_trans; [apply Rabs_triang|].
    apply (Rmult_le_compat_l (u p)) in Hm; [|lra]. lra.
  - assert (Hb' : Forall (fun y => y = 0 \/ 1 <= Rabs y)%R l) by (by rewrite Hp). destruct (IHl Hb') as (Hn & Bx & Ex).
    split; [intros ->; apply Hn; by apply Permutation_nil_r|]. split; [done|]. by rewrite <- (prodR_perm _ _ Hp), <- Hp.
Qed.
Print Assumptions C106_product_accuracy.
Print Assumptions C106_vector.

(** Four ranks hold 3, -5, 7 and 100 as int, and the call returns. *)
Example C106_instance : forall opaque, exists zs res, integer_type TInt /\ accepted TInt Sum /\ Forall (holds TInt) zs /\ holds TInt (sumZ zs) /\
  Collective.allReduce opaque TInt Sum (VInt <$> zs) (Ok res) /\ res = replicate 4 (VInt 105).
Proof.
  intros opaque. exists [3; -5; 7; 100]%Z.
  assert (Hi : integer_type TInt) by (unfold integer_type; rewrite !elem_of_cons; tauto).
  assert (Hf : Forall (holds TInt) [3; -5; 7; 100]%Z) by (repeat constructor; done).
  assert (Hne : VInt <$> [3; -5; 7; 100]%Z <> []) by (intros E; discriminate E).
  assert (Hs : holds TInt (sumZ [3; -5; 7; 100]%Z)) by done.
  destruct (proj1 (proj1 (C106_accepted opaque TInt Sum (VInt <$> [3; -5; 7; 100]%Z) Hne)) (or_introl Hi)) as [res Hres].
  exists res. split; [done|]. split; [by left|]. split; [done|]. split; [done|]. split; [done|].
  by rewrite (C106_sum_that_fits opaque TInt _ res Hi Hf Hs Hres).
Qed.
