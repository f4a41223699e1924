(** C01-C08, C53, C54: fields, parallel algorithms, segments, views. *)
From stdpp Require Import gmap.
From Verif Require Import Base Par ParProofs Exec ExecProofs Fields FieldsProofs
  FieldMem FieldMemProofs Reduce ReduceProofs Misc MiscProofs.

(** * C01: element-wise arithmetic.  [dbg]: debug build or not; any executor; [o]
    and [a'] range over every possible outcome under every schedule. *)
Theorem C01_plus_assign : forall dbg (a b a' : field Qc) o,
  fsize a = fsize b -> fexec a = fexec b -> plus_assign dbg a b a' o ->
  o = Ok tt /\ fexec a' = fexec a /\ fsize a' = fsize a /\
  forall i x y, fdata a !! i = Some x -> fdata b !! i = Some y -> fdata a' !! i = Some (x + y)%Qc.
Proof. intros dbg. exact (checked_binop_ok dbg Qcplus). Qed.
Print Assumptions C01_plus_assign.

Theorem C01_minus_assign : forall dbg (a b a' : field Qc) o,
  fsize a = fsize b -> fexec a = fexec b -> minus_assign dbg a b a' o ->
  o = Ok tt /\ fexec a' = fexec a /\ fsize a' = fsize a /\
  forall i x y, fdata a !! i = Some x -> fdata b !! i = Some y -> fdata a' !! i = Some (x - y)%Qc.
Proof. intros dbg. exact (checked_binop_ok dbg Qcminus). Qed.
Print Assumptions C01_minus_assign.

Theorem C01_mult_assign : forall dbg (a b a' : field Qc) o,
  fsize a = fsize b -> fexec a = fexec b -> mult_assign dbg a b a' o ->
  o = Ok tt /\ fexec a' = fexec a /\ fsize a' = fsize a /\
  forall i x y, fdata a !! i = Some x -> fdata b !! i = Some y -> fdata a' !! i = Some (x * y)%Qc.
Proof. intros dbg. exact (checked_binop_ok dbg Qcmult). Qed.
Print Assumptions C01_mult_assign.

(** a += a, a -= a, a *= a (aliased operands). *)
Theorem C01_self_op : forall (op : Qc -> Qc -> Qc) (a a' : field Qc) o,
  fieldBinaryOp_self a op a' o ->
  o = Ok tt /\ fexec a' = fexec a /\ fsize a' = fsize a /\
  forall i x, fdata a !! i = Some x -> fdata a' !! i = Some (op x x).
Proof. exact binop_self_ok. Qed.
Print Assumptions C01_self_op.

Theorem C01_scale_assign : forall (a a' : field Qc) s o,
  scale_assign a s a' o ->
  o = Ok tt /\ fexec a' = fexec a /\ fsize a' = fsize a /\
  forall i x, fdata a !! i = Some x -> fdata a' !! i = Some (x * s)%Qc.
Proof. exact scalarMul_ok. Qed.
Print Assumptions C01_scale_assign.

Theorem C01_plus : forall dbg (a b c : field Qc) o,
  fsize a = fsize b -> fexec a = fexec b -> plus dbg a b c o ->
  o = Ok tt /\ fexec c = fexec a /\ fsize c = fsize a /\
  forall i x y, fdata a !! i = Some x -> fdata b !! i = Some y -> fdata c !! i = Some (x + y)%Qc.
Proof. intros dbg a. exact (checked_binop_ok dbg Qcplus (new_copy (fexec a) (fdata a))). Qed.
Print Assumptions C01_plus.

Theorem C01_minus : forall dbg (a b c : field Qc) o,
  fsize a = fsize b -> fexec a = fexec b -> minus dbg a b c o ->
  o = Ok tt /\ fexec c = fexec a /\ fsize c = fsize a /\
  forall i x y, fdata a !! i = Some x -> fdata b !! i = Some y -> fdata c !! i = Some (x - y)%Qc.
Proof. intros dbg a. exact (checked_binop_ok dbg Qcminus (new_copy (fexec a) (fdata a))). Qed.
Print Assumptions C01_minus.

Theorem C01_mult : forall dbg (a b c : field Qc) o,
  fsize a = fsize b -> fexec a = fexec b -> mult dbg a b c o ->
  o = Ok tt /\ fexec c = fexec a /\ fsize c = fsize a /\
  forall i x y, fdata a !! i = Some x -> fdata b !! i = Some y -> fdata c !! i = Some (x * y)%Qc.
Proof. exact mult_ok. Qed.
Print Assumptions C01_mult.

Theorem C01_scale : forall (a c : field Qc) s o,
  scale a s c o ->
  o = Ok tt /\ fexec c = fexec a /\ fsize c = fsize a /\
  forall i x, fdata a !! i = Some x -> fdata c !! i = Some (x * s)%Qc.
Proof. exact scale_ok. Qed.
Print Assumptions C01_scale.

(** Different sizes: nothing is changed; release builds throw, debug builds
    terminate. *)
Theorem C01_size_mismatch : forall dbg (op : Qc -> Qc -> Qc) (a b a' : field Qc) o,
  fsize a <> fsize b -> checked_binop dbg op a b a' o ->
  a' = a /\ o = if dbg then Exit else Throw DimensionMismatch.
Proof. exact checked_binop_mismatch. Qed.
Print Assumptions C01_size_mismatch.

(** The operations do have an outcome (the statements above are not vacuous). *)
Theorem C01_outcome_exists : forall dbg (op : Qc -> Qc -> Qc) (a b : field Qc),
  fsize a = fsize b -> fexec a = fexec b -> exists a', checked_binop dbg op a b a' (Ok tt).
Proof. exact binop_exists. Qed.
Print Assumptions C01_outcome_exists.

(** equal(a,b) / equal(a,v) compare contents on any executors. *)
Theorem C01_equal_field : forall a b : field Qc, equal_field a b = true <-> fdata a = fdata b.
Proof. exact equal_field_spec. Qed.
Print Assumptions C01_equal_field.

Theorem C01_equal_value : forall (a : field Qc) v,
  equal_value a v = true <-> forall i x, fdata a !! i = Some x -> x = v.
Proof.
  intros a v. unfold equal_value, copyToHost, copyToExecutor, new_copy.
  destruct (exec_eqb SerialExecutor (fexec a)); apply all_equal_spec.
Qed.
Print Assumptions C01_equal_value.

(** Non-vacuity: every operation has an outcome on a parallel executor, and the
    size check fires on a shorter operand. *)
Example C01_instance :
  let a := mkField CPUExecutor [Q2Qc 3; Q2Qc 4] in let b := mkField CPUExecutor [Q2Qc 5; Q2Qc 6] in
  (exists a', plus_assign true a b a' (Ok tt)) /\ (exists a', minus_assign true a b a' (Ok tt)) /\
  (exists a', mult_assign true a b a' (Ok tt)) /\
  fieldBinaryOp_self a Qcplus (mkField CPUExecutor [Q2Qc 3 + Q2Qc 3; Q2Qc 4 + Q2Qc 4]%Qc) (Ok tt) /\
  scale_assign a (Q2Qc 2) (mkField CPUExecutor [Q2Qc 3 * Q2Qc 2; Q2Qc 4 * Q2Qc 2]%Qc) (Ok tt) /\
  (exists c, plus true a b c (Ok tt)) /\ (exists c, minus true a b c (Ok tt)) /\
  (exists c, mult true a b c (Ok tt)) /\ (exists c, scale a (Q2Qc 2) c (Ok tt)) /\
  (exists c, checked_binop false Qcplus a (mkField CPUExecutor [1%Qc]) c (Throw DimensionMismatch)).
Proof.
  assert (Ha : assign_field (mkField CPUExecutor [0%Qc; 0%Qc]) (mkField CPUExecutor [Q2Qc 3; Q2Qc 4])
                 (mkField CPUExecutor [Q2Qc 3; Q2Qc 4]) (Ok tt)).
  { exists (Some [Q2Qc 3; Q2Qc 4]). split; [|done]. exists [1; 0; 0; 1], [(None, []); (None, [])].
    split; [reflexivity|]. repeat constructor. }
  assert (Hs : scalarMul (mkField CPUExecutor [Q2Qc 3; Q2Qc 4]) (Q2Qc 2)
                 (mkField CPUExecutor [Q2Qc 3 * Q2Qc 2; Q2Qc 4 * Q2Qc 2]%Qc) (Ok tt)).
  { exists (Some [Q2Qc 3 * Q2Qc 2; Q2Qc 4 * Q2Qc 2]%Qc). split; [|done].
    exists [0; 1; 0; 1], [(Some (Q2Qc 3), []); (Some (Q2Qc 4), [])]. split; [reflexivity|]. repeat constructor. }
  cbv zeta.
  split; [apply binop_exists; reflexivity|]. split; [apply binop_exists; reflexivity|].
  split; [apply binop_exists; reflexivity|]. split.
  { exists (Some [Q2Qc 3 + Q2Qc 3; Q2Qc 4 + Q2Qc 4]%Qc). split; [|done].
    exists [0; 1; 0; 1], [(Some (Q2Qc 3), []); (Some (Q2Qc 4), [])]. split; [reflexivity|]. repeat constructor. }
  split; [exact Hs|].
  split; [apply binop_exists; reflexivity|]. split; [apply binop_exists; reflexivity|]. split.
  { destruct (binop_exists true Qcmult (mkField CPUExecutor [Q2Qc 3; Q2Qc 4])
      (mkField CPUExecutor [Q2Qc 5; Q2Qc 6]) eq_refl eq_refl) as [c Hc].
    exists c. unfold mult. change (validateOtherField _ _ _) with true. cbv iota.
    exists (mkField CPUExecutor [0%Qc; 0%Qc]), (mkField CPUExecutor [Q2Qc 3; Q2Qc 4]), (Ok tt).
    split; [split; reflexivity|]. split; [exact Ha|exact Hc]. }
  split.
  { eexists. exists (mkField CPUExecutor [0%Qc; 0%Qc]), (mkField CPUExecutor [Q2Qc 3; Q2Qc 4]), (Ok tt).
    split; [split; reflexivity|]. split; [exact Ha|exact Hs]. }
  eexists. split; reflexivity.
Qed.

(** * C02: range-restricted writes *)
Theorem C02_fill_range : forall (a a' : field Qc) v s e o,
  s <= e -> e <= fsize a -> 0 < e -> fill a v (s, e) a' o ->
  o = Ok tt /\ fexec a' = fexec a /\ fsize a' = fsize a /\
  forall i, fdata a' !! i = if decide (s <= i < e) then Some v else fdata a !! i.
Proof. exact fill_range. Qed.
Print Assumptions C02_fill_range.

Theorem C02_map_range : forall (a a' : field Qc) (f : nat -> Qc) s e o,
  s <= e -> e <= fsize a -> 0 < e -> map_field a f (s, e) a' o ->
  o = Ok tt /\ fexec a' = fexec a /\ fsize a' = fsize a /\
  forall i, fdata a' !! i = if decide (s <= i < e) then Some (f i) else fdata a !! i.
Proof. exact map_range. Qed.
Print Assumptions C02_map_range.

Theorem C02_setField_range : forall (a a' : field Qc) (b : list Qc) s e o,
  s <= e -> e <= fsize a -> e <= length b -> 0 < e -> setField a b (s, e) a' o ->
  o = Ok tt /\ fexec a' = fexec a /\ fsize a' = fsize a /\
  forall i, fdata a' !! i = if decide (s <= i < e) then b !! i else fdata a !! i.
Proof. exact setField_range. Qed.
Print Assumptions C02_setField_range.

Theorem C02_fill_whole : forall (a : field Qc) v (a' : field Qc) o,
  fill a v default_range a' o -> o = Ok tt /\ a' = mkField (fexec a) (replicate (fsize a) v).
Proof. exact fill_default. Qed.
Print Assumptions C02_fill_whole.

(** [field = value] and the constructor from a size and a value: every element
    is that value, whatever the storage held before. *)
Theorem C02_assign_value : forall V (a a' : field V) v o,
  assign_value a v a' o -> o = Ok tt /\ a' = mkField (fexec a) (replicate (fsize a) v).
Proof. intros V a a' v o H. exact (fill_default a v a' o H). Qed.
Print Assumptions C02_assign_value.

Theorem C02_new_value : forall V e n (v : V),
  (exists a', new_value e n v a' (Ok tt)) /\
  forall a' o, new_value e n v a' o -> o = Ok tt /\ a' = mkField e (replicate n v).
Proof.
  intros V e n v. split.
  - exists (mkField e (replicate n v)), (mkField e (replicate n v)). split; [split; [done|apply replicate_length]|].
    assert (Hk : forall a : field V, exists a', fill a v default_range a' (Ok tt)).
    { intros a. apply (set_kernel_exists a (fun _ => Some v) 0 (eff_end 0 (fsize a))); unfold eff_end; simpl; try lia. done. }
    destruct (Hk (mkField e (replicate n v))) as (a' & Ha').
    destruct (fill_default _ _ _ _ Ha') as [_ E]. rewrite E in Ha'. simpl in Ha'. unfold fsize in Ha'. simpl in Ha'. rewrite replicate_length in Ha'. exact Ha'.
  - intros a' o (a0 & [He Hs] & Hf). apply fill_default in Hf as [-> ->]. rewrite He, Hs. done.
Qed.
Print Assumptions C02_new_value.

(** The explicitly empty range {0,0} is not empty: it writes the whole field. *)
Theorem C57_empty_range_refuted : exists (a a' : field Qc) v,
  fill a v (0, 0) a' (Ok tt) /\ exists i, ~ (0 <= i < 0) /\ fdata a' !! i <> fdata a !! i.
Proof.
  exists (mkField SerialExecutor [0%Qc; 0%Qc]), (mkField SerialExecutor [1%Qc; 1%Qc]), 1%Qc.
  split.
  - exists (Some [1%Qc; 1%Qc]). split; [reflexivity|done].
  - exists 0. split; [lia|]. simpl. intros [=].
Qed.
Print Assumptions C57_empty_range_refuted.

(** Non-vacuity: a proper sub-range on a parallel executor. *)
Example C02_nonvacuous : exists a', fill (mkField CPUExecutor [0%Qc; 0%Qc; 0%Qc]) 1%Qc (1, 2) a' (Ok tt).
Proof. apply (set_kernel_exists (mkField CPUExecutor _) _ 1 2); [lia|unfold fsize; simpl; lia|eauto]. Qed.

(** * C03: ownership *)
Theorem C03_value_semantics : forall alloc0 realloc0 (h : list (op Qc)),
  match run_ops alloc0 realloc0 empty_mem h, spec_run ∅ h with
  | Ok m, Some s =>
      forall x, observe m x = match s !! x with
                              | Some (e, d) => Some (e, Some d)
                              | None => None
                              end
  | Exit, None => True
  | _, _ => False
  end.
Proof. exact history_values. Qed.
Print Assumptions C03_value_semantics.

Theorem C03_unique_owner : forall alloc0 realloc0 (h : list (op Qc)) m x1 x2 o1 o2 a,
  run_ops alloc0 realloc0 empty_mem h = Ok m ->
  objs m !! x1 = Some o1 -> objs m !! x2 = Some o2 ->
  o_ptr o1 = Some a -> o_ptr o2 = Some a -> x1 = x2.
Proof. exact history_owner. Qed.
Print Assumptions C03_unique_owner.

(** No leak when zero-size requests yield null pointers. *)
Theorem C03_no_leak : forall (h : list (op Qc)) m,
  run_ops false false empty_mem h = Ok m ->
  forall a, is_Some (heap m !! a) -> exists x o, objs m !! x = Some o /\ o_ptr o = Some a.
Proof. exact no_leak_history. Qed.
Print Assumptions C03_no_leak.

(** With an allocator whose realloc(p,0) returns a block, shrinking a field to
    zero and growing it again leaks: all fields destroyed, a block remains. *)
Theorem C58_no_leak_refuted : exists (h : list (op Qc)) m,
  run_ops false true empty_mem h = Ok m /\ objs m = ∅ /\ exists a, is_Some (heap m !! a).
Proof. exact leak_witness. Qed.
Print Assumptions C58_no_leak_refuted.

Example C03_nonvacuous : exists m,
  run_ops false true (empty_mem : mem Qc) sample_history = Ok m /\
  observe m 1 = Some (CPUExecutor, Some [1%Qc; 0%Qc]) /\
  observe m 3 = Some (SerialExecutor, Some [(1+1)%Qc; (0+1)%Qc; 0%Qc]).
Proof. exact sample_history_ok. Qed.

(** * C04: resize, assignment, executor copies *)
Theorem C04_resize : forall (a a' : field Qc) n,
  resize a n a' -> fsize a' = n /\ fexec a' = fexec a /\
  forall i, i < n -> i < fsize a -> fdata a' !! i = fdata a !! i.
Proof. exact resize_prefix. Qed.
Print Assumptions C04_resize.

Theorem C04_assign : forall (a rhs a' : field Qc) o,
  fexec a = fexec rhs -> assign_field a rhs a' o -> o = Ok tt /\ a' = rhs.
Proof. exact assign_field_ok. Qed.
Print Assumptions C04_assign.

Theorem C04_copyToExecutor : forall (a : field Qc) e,
  fdata (copyToExecutor a e) = fdata a /\ fexec (copyToExecutor a e) = e.
Proof. exact copyToExecutor_data. Qed.
Print Assumptions C04_copyToExecutor.

Theorem C04_copy_round_trip : forall (a : field Qc) e,
  copyToExecutor (copyToExecutor a e) (fexec a) = a.
Proof. exact copy_round_trip. Qed.
Print Assumptions C04_copy_round_trip.

(** Non-vacuity: growing a non-empty field, and assigning a field of another size. *)
Example C04_instance :
  let a := mkField CPUExecutor [Q2Qc 3] in let b := mkField CPUExecutor [Q2Qc 5; Q2Qc 6] in
  resize a 2 (mkField CPUExecutor [Q2Qc 3; Q2Qc 9]) /\ fexec a = fexec b /\ assign_field a b b (Ok tt).
Proof.
  cbv zeta. split; [split; [reflexivity|split; [reflexivity|right; reflexivity]]|]. split; [reflexivity|].
  exists (mkField CPUExecutor [Q2Qc 3; Q2Qc 9]). split; [split; [reflexivity|split; [reflexivity|right; reflexivity]]|].
  exists (Some [Q2Qc 5; Q2Qc 6]). split; [|done]. exists [1; 0; 0; 1], [(None, []); (None, [])].
  split; [reflexivity|]. repeat constructor.
Qed.

(** * C05: parallelFor *)
(** Kernels that read and write their own slot: every executor and schedule. *)
Theorem C05_own_slot : forall (f : nat -> Qc -> option Qc) e start stop s r,
  start <= stop -> stop <= length s ->
  (forall i v, start <= i -> i < stop -> is_Some (f i v)) ->
  exec_result e (iterations start stop (rmw_kernel f)) s r ->
  exists s', r = Some s' /\ length s' = length s /\
    forall j, s' !! j = if decide (start <= j < stop) then s !! j ≫= f j else s !! j.
Proof. exact rmw_exec. Qed.
Print Assumptions C05_own_slot.

(** Any commuting kernel: every schedule gives the serial result. *)
Theorem C05_schedule_independent : forall (S L : Type) (Inv : S -> Prop) e (ts : list (thread S L)) s r,
  all_total Inv ts -> all_commute Inv ts -> Inv s ->
  exec_result e ts s r -> exec_result SerialExecutor ts s r.
Proof. exact @exec_result_det. Qed.
Print Assumptions C05_schedule_independent.

(** Every iteration is executed: the range form runs each index exactly once. *)
Theorem C05_each_index_once : forall (S L : Type) start stop (k : nat -> thread S L) i,
  iterations start stop k !! i = if decide (start + i < stop) then Some (k (start + i)) else None.
Proof. exact iterations_lookup. Qed.
Print Assumptions C05_each_index_once.

Example C05_nonvacuous : exec_result GPUExecutor
  (iterations 1 3 (rmw_kernel (fun i v => Some (v + 1)%Qc))) [0%Qc; 0%Qc; 0%Qc]
  (Some [0%Qc; (0 + 1)%Qc; (0 + 1)%Qc]).
Proof. exists [1; 0; 0; 1; 5], [(Some 0%Qc, []); (Some 0%Qc, [])]. split; [reflexivity|]. repeat constructor. Qed.

(** * C06: parallelReduce *)
Theorem C06_reduce_from_identity : forall (T : Type) (join : T -> T -> T) ident contrib,
  (forall a b c, join a (join b c) = join (join a b) c) ->
  (forall a b, join a b = join b a) -> (forall a, join ident a = a) ->
  forall e1 e2 start stop r1 r2,
  parallelReduce join ident contrib e1 start stop ident r1 ->
  parallelReduce join ident contrib e2 start stop ident r2 -> r1 = r2.
Proof. exact @reduce_same. Qed.
Print Assumptions C06_reduce_from_identity.

(** The sum of a field, whatever the splitting. *)
Theorem C06_sum : forall (l : list Qc) e r,
  parallelReduce Qcplus 0%Qc (fun i => default 0%Qc (l !! i)) e 0 (length l) 0%Qc r -> r = sumQ l.
Proof. exact sum_reduce. Qed.
Print Assumptions C06_sum.

(** A non-identity initial value is added by the serial executor and discarded by
    the Kokkos ones: the executors disagree. *)
Theorem C59_initial_value_refuted : exists (contrib : nat -> Qc) value r1 r2,
  parallelReduce Qcplus 0%Qc contrib SerialExecutor 0 1 value r1 /\
  parallelReduce Qcplus 0%Qc contrib CPUExecutor 0 1 value r2 /\ r1 <> r2.
Proof.
  exists (fun _ => 0%Qc), 1%Qc, (1 + 0)%Qc, (0 + 0)%Qc. split; [reflexivity|]. split.
  - exists (Piece [0]). split; [done|]. reflexivity.
  - intros H. discriminate H.
Qed.
Print Assumptions C59_initial_value_refuted.

(** What the two code paths do with any initial value. *)
Theorem C06_initial_value : forall (T : Type) (join : T -> T -> T) ident contrib,
  (forall a b c, join a (join b c) = join (join a b) c) ->
  (forall a b, join a b = join b a) -> (forall a, join ident a = a) ->
  forall e start stop value rs rk,
  e <> SerialExecutor ->
  parallelReduce join ident contrib SerialExecutor start stop value rs ->
  parallelReduce join ident contrib e start stop value rk -> rs = join value rk.
Proof. exact reduce_initial_value. Qed.
Print Assumptions C06_initial_value.

(** Non-vacuity: a serial and a split reduction of the same values. *)
Example C06_instance : let l := [Q2Qc 3; Q2Qc 4; Q2Qc 5] in let c := fun i => default 0%Qc (l !! i) in
  exists r1 r2, parallelReduce Qcplus 0%Qc c SerialExecutor 0 3 0%Qc r1 /\
    parallelReduce Qcplus 0%Qc c CPUExecutor 0 3 0%Qc r2 /\ r1 = Q2Qc 12 /\ r2 = Q2Qc 12.
Proof.
  cbv zeta. eexists _, _. split; [reflexivity|]. split.
  - exists (Join (Piece [2; 0]) (Piece [1])). split; [exact (Permutation_app_comm [2] [0; 1])|reflexivity].
  - split; apply Qc_is_canon; vm_compute; reflexivity.
Qed.

(** * C07: segments *)
Theorem C07_prefix_sums : forall intervals o0 offs chunks order,
  scan_plan (length intervals) chunks order -> length offs = length intervals ->
  exists offs', segmentsFromIntervals intervals (o0 :: offs) chunks order
      = Ok (sum_list intervals, o0 :: offs') /\
    length offs' = length intervals /\
    forall k, k < length intervals -> offs' !! k = Some (sum_list (take (S k) intervals)).
Proof. exact segments_ok. Qed.
Print Assumptions C07_prefix_sums.

Theorem C07_partition : forall intervals chunks order s,
  scan_plan (length intervals) chunks order -> segmentedField intervals chunks order = Ok s ->
  (forall k len, intervals !! k = Some len ->
     exists a, seg_bounds s k = Ok (a, a + len) /\ seg_range s k = Ok (a, len) /\
       seg_span s k = Ok (seq a len)) /\
  (forall v, v < seg_size s -> exists k is, seg_span s k = Ok is /\ v ∈ is /\
     forall k' is', seg_span s k' = Ok is' -> v ∈ is' -> k' = k).
Proof. exact segmented_partition. Qed.
Print Assumptions C07_partition.

(** There are no other segments, and segments reaching past the values (of an
    object put together from two fields) cannot be read. *)
Theorem C07_misuse : forall intervals chunks order s k,
  scan_plan (length intervals) chunks order -> segmentedField intervals chunks order = Ok s ->
  length intervals <= k -> seg_range s k = UB /\ seg_span s k = UB.
Proof.
  intros intervals chunks order s k Hp Hs Hk.
  assert (Hn : length (segments s) = length intervals + 1).
  { unfold segmentedField in Hs.
    destruct (replicate (length intervals + 1) 0) as [|o0 offs] eqn:Er; [apply (f_equal length) in Er; rewrite replicate_length in Er; cbn in Er; lia|].
    assert (Hl : length offs = length intervals) by (apply (f_equal length) in Er; rewrite replicate_length in Er; cbn in Er; lia).
    destruct (C07_prefix_sums intervals o0 offs chunks order Hp Hl) as (offs' & E & Hl' & _). rewrite E in Hs. cbn in Hs.
    injection Hs as <-. cbn. lia. }
  assert (segments s !! (k + 1) = None) as E by (apply lookup_ge_None_2; lia).
  unfold seg_span, seg_range. rewrite E. by destruct (segments s !! k).
Qed.
Print Assumptions C07_misuse.
Theorem C07_past_the_values : forall s k a len,
  seg_range s k = Ok (a, len) -> seg_size s < a + len -> seg_span s k = UB.
Proof.
  intros s k a len H Hl. unfold seg_span. rewrite H. cbn. by rewrite (proj2 (Nat.leb_gt _ _)).
Qed.
Print Assumptions C07_past_the_values.

Theorem C07_construct : forall intervals chunks order,
  scan_plan (length intervals) chunks order ->
  exists s, segmentedField intervals chunks order = Ok s /\
    seg_size s = sum_list intervals /\ numSegments s = length intervals /\
    forall k, k <= length intervals -> segments s !! k = Some (sum_list (take k intervals)).
Proof. exact segmentedField_ok. Qed.
Print Assumptions C07_construct.

Example C07_nonvacuous : scan_plan 3 [[0; 1]; []; [2]] [2; 0; 1] /\
  segmentedField [2; 0; 3] [[0; 1]; []; [2]] [2; 0; 1] = Ok (mkSeg 5 [0; 2; 2; 5]).
Proof. split; [|reflexivity]. split; [done|]. apply (perm_trans (l' := [0; 2; 1])); [apply perm_swap|apply perm_skip, perm_swap]. Qed.

(** * C08: View *)
Theorem C08_reports : forall size idxs fi,
  0 < size -> view_accesses false size 0 idxs = Ok fi ->
  (fi = 0 <-> forall i, i ∈ idxs -> i < size) /\
  (fi <> 0 -> exists pre post, idxs = pre ++ fi :: post /\ size <= fi /\ forall i, i ∈ pre -> i < size).
Proof. exact view_reports. Qed.
Print Assumptions C08_reports.

Theorem C08_abort : forall size idxs,
  (view_accesses true size 0 idxs = Ok 0 <-> forall i, i ∈ idxs -> i < size) /\
  (view_accesses true size 0 idxs = Exit <-> exists i, i ∈ idxs /\ size <= i).
Proof. exact view_abort. Qed.
Print Assumptions C08_abort.

(** Two bad accesses among good ones: the first is reported. *)
Example C08_instance : view_accesses false 3 0 [0; 2; 7; 1; 5] = Ok 7 /\ view_accesses true 3 0 [0; 2; 1] = Ok 0 /\
  view_accesses true 3 0 [0; 2; 7] = Exit.
Proof. split; [reflexivity|]. split; reflexivity. Qed.

(** An empty view: access 0 is out of range but reported as success. *)
Theorem C60_empty_view_refuted : exists size idxs,
  view_accesses false size 0 idxs = Ok 0 /\ exists i, i ∈ idxs /\ size <= i.
Proof. exists 0, [0]. split; [reflexivity|]. exists 0. split; [constructor|lia]. Qed.
Print Assumptions C60_empty_view_refuted.

(** * C53: time loop *)
Theorem C53_time_loop : forall n k, k < n -> time_loops n time_init !! k = Some (Nat.ltb k 10).
Proof. exact time_exactly_ten. Qed.
Print Assumptions C53_time_loop.

Example C53_instance : time_loops 12 time_init !! 9 = Some true /\ time_loops 12 time_init !! 10 = Some false.
Proof. split; reflexivity. Qed.

(** * C54: executors *)
Theorem C54_equality : forall a b, exec_eqb a b = true <-> a = b.
Proof. exact exec_eqb_eq. Qed.
Print Assumptions C54_equality.

Theorem C54_assign_guard : forall (a rhs a' : field Qc) o,
  fexec a <> fexec rhs -> assign_field a rhs a' o -> o = Exit /\ a' = a.
Proof. exact assign_field_exec. Qed.
Print Assumptions C54_assign_guard.

(** +=, -= and *= on fields of different executors: a debug build terminates; a
    release build works if both are in host memory, as if the other field had
    been copied to the executor of the left one, and is undefined if one is in
    device memory. *)
Theorem C54_mixed_operation : forall op (a b a' : field Qc) o, op ∈ [plus_assign; minus_assign; mult_assign] ->
  fexec a <> fexec b -> fsize a = fsize b ->
  (op true a b a' o <-> a' = a /\ o = Exit) /\
  (fexec a = GPUExecutor \/ fexec b = GPUExecutor -> op false a b a' o <-> o = UB) /\
  (fexec a <> GPUExecutor -> fexec b <> GPUExecutor -> op false a b a' o <-> op false a (copyToExecutor b (fexec a)) a' o).
Proof.
  assert (H : forall f (a b a' : field Qc) o, fexec a <> fexec b -> fsize a = fsize b ->
    (checked_binop true f a b a' o <-> a' = a /\ o = Exit) /\
    (fexec a = GPUExecutor \/ fexec b = GPUExecutor -> checked_binop false f a b a' o <-> o = UB) /\
    (fexec a <> GPUExecutor -> fexec b <> GPUExecutor -> checked_binop false f a b a' o <-> checked_binop false f a (copyToExecutor b (fexec a)) a' o)).
  { intros f [ea da] [eb db] a' o He Hs. unfold checked_binop, validateOtherField, fieldBinaryOp, copyToExecutor, new_copy, fsize in *. cbn in *.
    rewrite Hs, Nat.eqb_refl. cbn. destruct ea, eb; cbn in *; try done; rewrite ?Hs, ?Nat.eqb_refl; repeat split; intros; try done; try tauto. all: destruct H as [H|H]; discriminate. }
  intros op a b a' o Hop He Hs. rewrite !elem_of_cons, elem_of_nil in Hop. destruct Hop as [->|[->|[->|[]]]]; by apply H.
Qed.
Print Assumptions C54_mixed_operation.

Example C54_instance : let a := mkField CPUExecutor [Q2Qc 3] in let b := mkField SerialExecutor [Q2Qc 5] in
  exec_eqb CPUExecutor CPUExecutor = true /\ exec_eqb CPUExecutor SerialExecutor = false /\
  fexec a <> fexec b /\ assign_field a b a Exit.
Proof. cbv zeta. split; [done|]. split; [done|]. split; [done|]. split; reflexivity. Qed.
