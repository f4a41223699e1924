(** C01, C02, C04, C05, C06, C39, C51, C52, C53: every operation has an outcome,
    so that the theorems "for every outcome" of Properties_Fields are not empty;
    what value-returning operators do on a size mismatch; implicit user-defined
    operators; mag; the counter of the time loop. *)
From Coq Require Import Reals Lra.
From Flocq Require Import Core.
From Verif Require Import Base Par ParProofs Exec ExecProofs Fields FieldsProofs Reduce Misc.
From Verif Require Import Properties_Float.
From Verif Require Import Value Coeff Kernel Mesh FV Assembly Boundary Dsl Geometry.
Local Open Scope nat_scope.

Lemma kernel_rmw_exists {V} (f : nat -> V -> option V) (a : field V) n :
  n <= fsize a -> (forall i v, i < n -> is_Some (f i v)) ->
  exists a', kernel_on a (iterations 0 n (rmw_kernel f)) a' (Ok tt).
Proof.
  intros Hn Hf. destruct (rmw_exec_exists f (fexec a) 0 n (fdata a)) as [d Hd]; [lia|exact Hn|intros; apply Hf; lia|].
  exists (mkField (fexec a) d), (Some d). done.
Qed.
Lemma kernel_set_exists {V} (f : nat -> option V) (a : field V) s e :
  s <= e -> e <= fsize a -> (forall i, s <= i < e -> is_Some (f i)) ->
  exists a', kernel_on a (iterations s e (set_kernel f)) a' (Ok tt).
Proof.
  intros Hs Hn Hf. destruct (set_exec_exists f (fexec a) s e (fdata a)) as [d Hd]; [lia|exact Hn|intros; apply Hf; lia|].
  exists (mkField (fexec a) d), (Some d). done.
Qed.

(** * C01 *)
Lemma assign_exists {V} (a rhs : field V) : fexec a = fexec rhs -> exists a', assign_field a rhs a' (Ok tt).
Proof.
  intros He. unfold assign_field. rewrite He, exec_eqb_refl.
  assert (Hset : forall b : field V, fsize b = fsize rhs -> exists a', setField b (fdata rhs) default_range a' (Ok tt)).
  { intros b Hb. apply kernel_set_exists; [cbn; lia|cbn; lia|]. cbn. intros i Hi. apply lookup_lt_is_Some.
    unfold fsize in *. lia. }
  destruct (Nat.eqb_spec (fsize a) (fsize rhs)) as [Hs|Hs]; [by apply Hset|].
  pose (b := mkField (fexec rhs) (fdata rhs)).
  destruct (fdata a) as [|x l] eqn:Ea.
  - assert (Hr : resize a (fsize rhs) b).
    { unfold resize. cbn. split; [done|]. split; [done|]. left. exact Ea. }
    destruct (Hset b eq_refl) as [a' Ha']. exists a', b. done.
  - pose (c := mkField (fexec a) (take (fsize rhs) (fdata a) ++ replicate (fsize rhs - fsize a) x)).
    assert (Hl : fsize c = fsize rhs).
    { unfold fsize, c. cbn. rewrite app_length, take_length, replicate_length. unfold fsize. lia. }
    destruct (Hset c Hl) as [a' Ha']. exists a', c. split; [|done]. unfold resize. split; [done|]. split; [exact Hl|]. right.
    unfold c. cbn [fdata]. unfold fsize in *. destruct (decide (length (fdata rhs) <= length (fdata a))) as [H|H].
    + rewrite Nat.min_l by lia. replace (length (fdata rhs) - length (fdata a)) with 0 by lia. cbn. rewrite app_nil_r.
      rewrite Ea. by rewrite firstn_firstn, Nat.min_id.
    + rewrite Nat.min_r by lia. rewrite (firstn_all2 (n := length (fdata rhs)) (fdata a)) by lia.
      by rewrite firstn_app, Nat.sub_diag, firstn_all, firstn_O, app_nil_r.
Qed.

(** Every arithmetic operation on fields of one size and executor ends normally
    (and then does what the theorems C01_... say); the scalar ones always do. *)
Theorem C01_always_ends : forall dbg (a b : field Qc) s, fsize a = fsize b -> fexec a = fexec b ->
  (exists a', plus_assign dbg a b a' (Ok tt)) /\ (exists a', minus_assign dbg a b a' (Ok tt)) /\
  (exists a', mult_assign dbg a b a' (Ok tt)) /\ (exists a', scale_assign a s a' (Ok tt)) /\
  (exists c, plus dbg a b c (Ok tt)) /\ (exists c, minus dbg a b c (Ok tt)) /\
  (exists c, mult dbg a b c (Ok tt)) /\ (exists c, scale a s c (Ok tt)) /\
  (forall op, exists a', fieldBinaryOp_self a op a' (Ok tt)).
Proof.
  intros dbg a b s Hs He.
  assert (Hc : forall s, exists a', scale_assign a s a' (Ok tt)).
  { intros k. apply kernel_rmw_exists; [lia|]. intros. by eexists. }
  assert (Hcopy : exists r0, new_uninit (fexec a) (fsize a) r0 /\ assign_field r0 a a (Ok tt)).
  { exists a. split; [done|]. destruct (assign_exists a a eq_refl) as [a' Ha'].
    destruct (assign_field_ok a a a' _ eq_refl Ha') as [_ ->]. exact Ha'. }
  destruct Hcopy as (r0 & Hu & Ha).
  split; [by apply binop_exists|]. split; [by apply binop_exists|]. split; [by apply binop_exists|]. split; [apply Hc|].
  split; [by apply binop_exists|]. split; [by apply binop_exists|]. split; [|split; [|]].
  - destruct (binop_exists dbg Qcmult a b Hs He) as [c Hcb]. exists c. unfold mult. unfold checked_binop in Hcb.
    destruct (validateOtherField dbg a b); [|by destruct Hcb]. exists r0, a, (Ok tt). done.
  - destruct (Hc s) as [c Hs']. exists c, r0, a, (Ok tt). done.
  - intros op. apply kernel_rmw_exists; [lia|]. intros. by eexists.
Qed.
Print Assumptions C01_always_ends.

(** Value-returning operators on fields of different sizes: no result, the same
    error as the in-place ones, and only this. *)
Theorem C01_value_size_mismatch : forall (dbg : bool) (a b : field Qc) o, fsize a <> fsize b -> fexec a = fexec b ->
  let error : outcome unit := if dbg then Exit else Throw DimensionMismatch in
  ((exists c, plus dbg a b c o) <-> o = error) /\ ((exists c, minus dbg a b c o) <-> o = error) /\
  ((exists c, mult dbg a b c o) <-> o = error).
Proof.
  intros dbg a b o Hs He error.
  assert (Hb : forall op x, fsize x = fsize a -> fexec x = fexec a -> forall c, fieldBinaryOp x b op c o <-> c = x /\ o = Throw DimensionMismatch).
  { intros op x Hx Hx' c. unfold fieldBinaryOp. destruct (Nat.eqb_spec (fsize x) (fsize b)); [congruence|done]. }
  assert (Hv : forall x, fsize x = fsize a -> validateOtherField dbg x b = negb dbg).
  { intros x Hx. unfold validateOtherField. destruct (Nat.eqb_spec (fsize x) (fsize b)); [congruence|]. destruct dbg; done. }
  assert (Hop : forall op, (exists c, checked_binop dbg op (new_copy (fexec a) (fdata a)) b c o) <-> o = error).
  { intros op. unfold checked_binop. rewrite Hv by done. unfold error. destruct dbg; cbn.
    - split; [by intros (c & _ & ->)|]. intros ->. by eexists.
    - split.
      + intros (c & H). by destruct (proj1 (Hb op (new_copy (fexec a) (fdata a)) eq_refl eq_refl c) H).
      + intros ->. exists (new_copy (fexec a) (fdata a)). by apply Hb. }
  split; [apply Hop|]. split; [apply Hop|]. unfold mult. rewrite Hv by done. unfold error. destruct dbg; cbn.
  - split; [by intros (c & ->)|]. intros ->. by exists a.
  - split.
    + intros (c & r0 & r1 & o1 & [Hu1 Hu2] & Hass & H). destruct (assign_field_ok r0 a r1 o1 Hu1 Hass) as [-> ->].
      by destruct (proj1 (Hb Qcmult a eq_refl eq_refl c) H).
    + intros ->. destruct (assign_exists a a eq_refl) as [a' Ha']. destruct (assign_field_ok a a a' _ eq_refl Ha') as [_ ->].
      exists a, a, a, (Ok tt). split; [done|]. split; [done|]. by apply Hb.
Qed.
Print Assumptions C01_value_size_mismatch.

Example C01_ends_instance : exists c, mult false (mkField GPUExecutor [Q2Qc 2; Q2Qc 3]) (mkField GPUExecutor [Q2Qc 5; Q2Qc 7]) c (Ok tt) /\
  fdata c !! 1 = Some (Q2Qc 3 * Q2Qc 7)%Qc.
Proof.
  destruct (C01_always_ends false (mkField GPUExecutor [Q2Qc 2; Q2Qc 3]) (mkField GPUExecutor [Q2Qc 5; Q2Qc 7]) 1%Qc eq_refl eq_refl)
    as (_ & _ & _ & _ & _ & _ & [c H] & _). exists c. split; [exact H|].
  cbv beta iota zeta delta [mult validateOtherField negb orb] in H. destruct H as (r0 & r1 & o1 & [Hu1 _] & Ha & H).
  destruct (assign_field_ok r0 _ r1 o1 Hu1 Ha) as [-> ->].
  destruct (checked_binop_ok false Qcmult _ _ c (Ok tt) (eq_refl : fsize (mkField GPUExecutor [Q2Qc 2; Q2Qc 3]) = fsize (mkField GPUExecutor [Q2Qc 5; Q2Qc 7])) eq_refl H) as (_ & _ & _ & Hc).
  by apply Hc.
Qed.

(** * C02, C04, C05, C06 *)
Theorem C02_always_ends : forall (a : field Qc) v (f : nat -> Qc) (b : list Qc) s e, s <= e -> e <= fsize a -> 0 < e -> e <= length b ->
  (exists a', fill a v (s, e) a' (Ok tt)) /\ (exists a', map_field a f (s, e) a' (Ok tt)) /\
  (exists a', setField a b (s, e) a' (Ok tt)) /\
  (exists a', fill a v default_range a' (Ok tt)) /\ (exists a', map_field a f default_range a' (Ok tt)) /\
  (exists a', assign_value a v a' (Ok tt)).
Proof.
  intros a v f b s e Hs He He0 Hb. unfold fill, map_field, setField, assign_value, fill.
  assert (Ee : eff_end e (fsize a) = e) by (unfold eff_end; destruct (Nat.eqb_spec e 0); [lia|done]).
  cbn [fst snd default_range]. rewrite Ee.
  split; [apply kernel_set_exists; [lia|done|by eexists]|]. split; [apply kernel_set_exists; [lia|done|by eexists]|].
  split; [apply kernel_set_exists; [lia|done|]; intros i Hi; apply lookup_lt_is_Some; lia|].
  split; [apply kernel_set_exists; [cbn; lia|cbn; lia|by eexists]|].
  split; [apply kernel_set_exists; [cbn; lia|cbn; lia|by eexists]|].
  apply kernel_set_exists; [cbn; lia|cbn; lia|by eexists].
Qed.
Print Assumptions C02_always_ends.

Theorem C04_always_ends : forall (a rhs : field Qc),
  (forall n, exists a', resize a n a') /\ (fexec a = fexec rhs -> exists a', assign_field a rhs a' (Ok tt)).
Proof.
  intros a rhs. split; [|apply assign_exists]. intros n.
  exists (mkField (fexec a) (take n (fdata a) ++ replicate (n - fsize a) 0%Qc)). unfold resize, fsize. cbn.
  split; [done|]. split; [rewrite app_length, take_length, replicate_length; lia|]. right.
  destruct (decide (n <= length (fdata a))) as [H|H].
  - rewrite Nat.min_l by lia. replace (n - length (fdata a)) with 0 by lia. cbn. rewrite app_nil_r.
    by rewrite firstn_firstn, Nat.min_id.
  - rewrite Nat.min_r by lia. rewrite (firstn_all2 (n := n) (fdata a)) by lia.
    by rewrite firstn_app, Nat.sub_diag, firstn_all, firstn_O, app_nil_r.
Qed.
Print Assumptions C04_always_ends.

(** A parallelFor whose iterations touch only their own slot has an outcome on
    every executor; any kernel that succeeds serially can succeed in parallel. *)
Theorem C05_always_ends : forall (f : nat -> Qc -> option Qc) e start stop s, start <= stop -> stop <= length s ->
  (forall i v, start <= i -> i < stop -> is_Some (f i v)) ->
  exists s', exec_result e (iterations start stop (rmw_kernel f)) s (Some s').
Proof. intros f e start stop s. apply rmw_exec_exists. Qed.
Print Assumptions C05_always_ends.
Theorem C05_serial_schedule : forall (S L : Type) e (ts : list (thread S L)) s s',
  exec_result SerialExecutor ts s (Some s') -> exec_result e ts s (Some s').
Proof. intros S L e ts s s' H. by apply exec_result_exists. Qed.
Print Assumptions C05_serial_schedule.

Theorem C06_always_ends : forall (T : Type) (join : T -> T -> T) ident contrib e start stop value,
  exists r, parallelReduce join ident contrib e start stop value r.
Proof.
  intros T join ident contrib e start stop value. destruct e; cbn; [by eexists| |];
  exists (jeval join ident contrib (Piece (seq start (stop - start)))), (Piece (seq start (stop - start))); done.
Qed.
Print Assumptions C06_always_ends.

(** * C53: the counter.  include/NeoFOAM/core/time.hpp:38-43, 49 in floating
    point: [time_ += 1.] adds in double (the literal is a double) and converts to
    [scalar]; [10.0 >= time_] is exact. *)
Definition loop_scalar (p : precision) (t : R) : R * bool :=
  let t' := rnd p (rnd Double (t + 1)) in (t', if Rle_dec t' 10 then true else false).

#[local] Instance digits_pos p : Prec_gt_0 (digits p). Proof. by destruct p. Qed.

Lemma rnd_small_integer p m : (0 <= m <= 2 ^ digits p)%Z -> rnd p (IZR m) = IZR m.
Proof.
  intros Hm. apply round_generic; [typeclasses eauto|].
  destruct (Z.eq_dec m (2 ^ digits p)%Z) as [->|Hne].
  - rewrite (IZR_Zpower radix2) by (by destruct p). apply generic_format_bpow. unfold FLT_exp. destruct p; cbn; lia.
  - apply generic_format_FLT. exists (Defs.Float radix2 m 0).
    + unfold F2R. cbn. by rewrite Rmult_1_r.
    + cbn [Fnum]. rewrite Z.abs_eq by lia. change (radix_val radix2) with 2%Z. lia.
    + cbn. by destruct p.
Qed.

Lemma rnd_tie p : rnd p (IZR (2 ^ digits p) + 1) = IZR (2 ^ digits p).
Proof.
  assert (Hd : (0 < digits p)%Z) by (by destruct p).
  assert (Hp : IZR (2 ^ digits p) = bpow radix2 (digits p)) by (apply (IZR_Zpower radix2); lia).
  set (x := (IZR (2 ^ digits p) + 1)%R).
  assert (H1 : (1 < bpow radix2 (digits p))%R) by (apply (bpow_lt radix2 0); lia).
  assert (Hmag : Raux.mag radix2 x = (digits p + 1)%Z :> Z).
  { apply mag_unique_pos. replace (digits p + 1 - 1)%Z with (digits p) by lia. unfold x. rewrite Hp.
    rewrite bpow_plus. change (bpow radix2 1) with 2%R. lra. }
  unfold rnd, round. set (fx := FLT_exp (emin p) (digits p)).
  assert (Hc : cexp radix2 fx x = 1%Z).
  { unfold cexp. rewrite Hmag. unfold fx, FLT_exp. destruct p; cbn; lia. }
  unfold scaled_mantissa. rewrite Hc. change (bpow radix2 (- (1))) with (/ 2)%R.
  set (h := (2 ^ (digits p - 1))%Z).
  assert (Hh : (2 ^ digits p = 2 * h)%Z) by (unfold h; rewrite <- Z.pow_succ_r by lia; f_equal; lia).
  assert (Hx : (x * / 2 = IZR h + / 2)%R) by (unfold x; rewrite Hh, mult_IZR; lra).
  rewrite Hx.
  assert (Hfl : Zfloor (IZR h + / 2) = h) by (apply Zfloor_imp; rewrite plus_IZR; lra).
  assert (Hn : ZnearestE (IZR h + / 2) = h).
  { unfold Znearest. rewrite Hfl. replace (IZR h + / 2 - IZR h)%R with (/ 2)%R by lra. rewrite Rcompare_Eq by done.
    replace (Z.even h) with true; [done|]. unfold h. by destruct p. }
  rewrite Hn. unfold F2R. cbn [Fnum Fexp]. change (bpow radix2 1) with 2%R. rewrite Hh, mult_IZR. lra.
Qed.

(** The counter counts the calls, until it reaches 2^24 (float) or 2^53 (double),
    where it stays; loop() returns true for the first ten calls and false for
    ever after, also when the counter no longer moves. *)
Theorem C53_counter : forall p (k : nat),
  Nat.iter k (fun t => (loop_scalar p t).1) 0%R = IZR (Z.min (Z.of_nat k) (2 ^ digits p)) /\
  (loop_scalar p (Nat.iter k (fun t => (loop_scalar p t).1) 0%R)).2 = bool_decide (k < 10).
Proof.
  intros p.
  assert (Hstep : forall m, (0 <= m)%Z -> (loop_scalar p (IZR (Z.min m (2 ^ digits p)))).1 = IZR (Z.min (m + 1) (2 ^ digits p))).
  { intros m Hm. unfold loop_scalar. cbn [fst].
    destruct (Z_lt_le_dec m (2 ^ digits p)%Z) as [Hlt|Hge].
    - rewrite !Z.min_l by lia. rewrite <- plus_IZR.
      rewrite (rnd_small_integer Double) by (destruct p; cbn in *; lia). apply rnd_small_integer. lia.
    - rewrite !Z.min_r by lia. destruct p.
      + rewrite <- plus_IZR. rewrite (rnd_small_integer Double) by (cbn; lia). rewrite plus_IZR. apply (rnd_tie Properties_Float.Float).
      + rewrite rnd_tie. apply rnd_small_integer. cbn. lia. }
  assert (Hk : forall k : nat, Nat.iter k (fun t => (loop_scalar p t).1) 0%R = IZR (Z.min (Z.of_nat k) (2 ^ digits p))).
  { induction k as [|k IH].
    - cbn [Nat.iter nat_rect]. rewrite Z.min_l; [done|]. destruct p; cbn; lia.
    - cbn [Nat.iter nat_rect]. unfold Nat.iter in IH. rewrite IH. rewrite Hstep by lia. f_equal. lia. }
  intros k. split; [apply Hk|]. rewrite Hk.
  assert (E : (loop_scalar p (IZR (Z.min (Z.of_nat k) (2 ^ digits p)))).2 =
    if Rle_dec (loop_scalar p (IZR (Z.min (Z.of_nat k) (2 ^ digits p)))).1 10 then true else false) by done.
  rewrite E. clear E.
  assert (Hbig : (10 < 2 ^ digits p)%Z) by (destruct p; cbn; lia).
  destruct (Rle_dec _ 10) as [H|H]; rewrite Hstep in H by lia.
  - apply le_IZR in H. rewrite bool_decide_true; [done|]. lia.
  - rewrite bool_decide_false; [done|]. intros Hlt. apply H. apply IZR_le. lia.
Qed.
Print Assumptions C53_counter.

(** The exact counter of Misc.v agrees with it. *)
Theorem C53_exact_model : forall p (k : nat), (Z.of_nat k < 2 ^ digits p)%Z ->
  IZR (Nat.iter k (fun t => (time_loop t).1) time_init) = Nat.iter k (fun t => (loop_scalar p t).1) 0%R.
Proof.
  intros p k Hk. destruct (C53_counter p k) as [-> _]. rewrite Z.min_l by lia. f_equal.
  clear Hk. induction k as [|k IH]; [done|]. cbn [Nat.iter nat_rect]. unfold Nat.iter in IH. rewrite IH. cbn. lia.
Qed.
Print Assumptions C53_exact_model.

(** * C52: mag is the norm of the inner product
    (include/NeoFOAM/core/primitives/vector.hpp: mag). *)
Theorem C52_mag : forall (a b : rvec) (k : R),
  (0 <= Geometry.mag a)%R /\ (Geometry.mag a * Geometry.mag a = rdot a a)%R /\ (Geometry.mag a = 0%R <-> a = RVec 0 0 0) /\
  Geometry.mag (rscale k a) = (Rabs k * Geometry.mag a)%R /\ (Rabs (rdot a b) <= Geometry.mag a * Geometry.mag b)%R /\
  (Geometry.mag (RVec (rx a + rx b) (ry a + ry b) (rz a + rz b)) <= Geometry.mag a + Geometry.mag b)%R.
Proof.
  intros a b k.
  assert (Hsq : forall v, (0 <= rx v * rx v + ry v * ry v + rz v * rz v)%R) by (intros v; nra).
  assert (H0 : forall v, (0 <= Geometry.mag v)%R) by (intros v; apply sqrt_pos).
  assert (H2 : forall v, (Geometry.mag v * Geometry.mag v = rdot v v)%R).
  { intros v. unfold Geometry.mag. rewrite sqrt_sqrt by apply Hsq. unfold rdot. ring. }
  assert (HCS : (Rabs (rdot a b) <= Geometry.mag a * Geometry.mag b)%R).
  { apply Rsqr_incr_0_var; [|apply Rmult_le_pos; apply H0]. rewrite <- Rsqr_abs. unfold Rsqr.
    replace (Geometry.mag a * Geometry.mag b * (Geometry.mag a * Geometry.mag b))%R
      with ((Geometry.mag a * Geometry.mag a) * (Geometry.mag b * Geometry.mag b))%R by ring.
    rewrite !H2. unfold rdot.
    assert (Hid : forall x y z x' y' z' : R, ((x*x+y*y+z*z)*(x'*x'+y'*y'+z'*z') - (x*x'+y*y'+z*z')*(x*x'+y*y'+z*z') =
      (x*y'-y*x')*(x*y'-y*x') + (x*z'-z*x')*(x*z'-z*x') + (y*z'-z*y')*(y*z'-z*y'))%R) by (intros; ring).
    specialize (Hid (rx a) (ry a) (rz a) (rx b) (ry b) (rz b)).
    pose proof (Rle_0_sqr (rx a * ry b - ry a * rx b)). pose proof (Rle_0_sqr (rx a * rz b - rz a * rx b)).
    pose proof (Rle_0_sqr (ry a * rz b - rz a * ry b)). unfold Rsqr in *. lra. }
  split; [apply H0|]. split; [apply H2|]. split; [|split; [|split; [exact HCS|]]].
  - split.
    + intros Hm. pose proof (H2 a) as H. rewrite Hm in H. unfold rdot in H. destruct a as [x y z]. cbn in *.
      pose proof (Rle_0_sqr x). pose proof (Rle_0_sqr y). pose proof (Rle_0_sqr z). unfold Rsqr in *.
      f_equal; apply Rsqr_0_uniq; unfold Rsqr; lra.
    + intros ->. unfold Geometry.mag. cbn. replace (0 * 0 + 0 * 0 + 0 * 0)%R with 0%R by ring. apply sqrt_0.
  - apply Rsqr_inj; [apply H0|apply Rmult_le_pos; [apply Rabs_pos|apply H0]|]. rewrite Rsqr_mult, <- Rsqr_abs. unfold Rsqr.
    rewrite !H2. unfold rdot, rscale. cbn. ring.
  - apply Rsqr_incr_0_var; [|apply Rplus_le_le_0_compat; apply H0]. unfold Rsqr.
    replace ((Geometry.mag a + Geometry.mag b) * (Geometry.mag a + Geometry.mag b))%R
      with (Geometry.mag a * Geometry.mag a + Geometry.mag b * Geometry.mag b + 2 * (Geometry.mag a * Geometry.mag b))%R by ring.
    rewrite !H2. pose proof (Rle_trans _ _ _ (Rle_abs (rdot a b)) HCS) as H. unfold rdot in *. cbn. lra.
Qed.
Print Assumptions C52_mag.

(** * C39, C51 *)
Theorem C39_user_operators_implicit : forall {V} `{ValueType V} `{ValueUnit V} `{ValueTag V} (cx : ctx V) rowOffs u t co ls r,
  (cl_fieldValueType (u_class u) = Some vtag -> cl_implicit (u_class u) = Some vtag ->
   spatial_implicit cx rowOffs (SpatialOp (UserOperator u) t co) ls r <-> u_implicit u cx rowOffs co ls r) /\
  (cl_fieldValueType (u_class u) = None ->
   spatial_implicit cx rowOffs (SpatialOp (UserOperator u) t co) ls r <-> r = Ok ls).
Proof.
  intros V ? ? ? cx rowOffs u t co ls r. unfold spatial_implicit, HasImplicitOperator, member_fits. simpl. split.
  - intros -> ->. rewrite bool_decide_true by done. done.
  - intros ->. done.
Qed.
Print Assumptions C39_user_operators_implicit.

(** Making boundary fields succeeds for every non-empty offset vector, with any
    contents of the uninitialised arrays. *)
Theorem C51_new_exists : forall V (e : executor) offsets n (v r q : list V) g, last offsets = Some n ->
  length v = n -> length r = n -> length g = n -> length q = n ->
  exists b, bf_new e offsets (Ok b) /\ fdata (bf_value b) = v /\ fdata (bf_refValue b) = r /\ fdata (bf_valueFraction b) = g /\ fdata (bf_refGrad b) = q.
Proof.
  intros V e offsets n v r q g Hl Hv Hr Hg Hq.
  exists (BoundaryFields e (mkField e v) (mkField e r) (mkField e g) (mkField e q) (mkField e (replicate (length offsets - 1) 0%Z)) (new_copy e offsets) (length offsets - 1) n).
  split; [|done]. unfold bf_new. rewrite Hl.
  exists (mkField e v), (mkField e r), (mkField e g), (mkField e q), (mkField e (replicate (length offsets - 1) 0%Z)).
  do 4 (split; [by split|]). split; [split; [done|apply replicate_length]|done].
Qed.
Print Assumptions C51_new_exists.
