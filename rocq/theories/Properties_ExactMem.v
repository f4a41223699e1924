(** C58, C59: exactly which blocks leak, and exactly when the executors disagree
    about a reduction. *)
From stdpp Require Import gmap.
From Verif Require Import Base Exec Reduce FieldMem FieldMemProofs LeakProofs Properties_Fields.

(** * C58: a block is lost if and only if, at some point of the history, the
    field owning it was empty (it had been shrunk to, or created with, size 0 by
    an allocator that returns a block for size 0) and was then resized or
    assigned a non-empty field. *)
Theorem C58_leaks_exactly : forall (alloc0 realloc0 : bool) (h : list (op Qc)) m,
  run_ops alloc0 realloc0 empty_mem h = Ok m ->
  forall a,
  (is_Some (heap m !! a) /\ ~ exists x o, objs m !! x = Some o /\ o_ptr o = Some a) <->
  exists h1 c h2 m1 x o, h = h1 ++ c :: h2 /\ run_ops alloc0 realloc0 empty_mem h1 = Ok m1 /\
    objs m1 !! x = Some o /\ o_size o = 0 /\ o_ptr o = Some a /\
    ((exists n junk, c = Resize x n junk /\ n <= length junk) \/
     (exists y oy junk, c = Assign x y junk /\ objs m1 !! y = Some oy /\ o_exec oy = o_exec o /\
        o_size oy <> 0 /\ o_size oy <= length junk)).
Proof.
  intros alloc0 realloc0 h m Hr a. pose proof (leaked_history alloc0 realloc0 h m Hr a) as L.
  unfold leaked, owned, abandons in L. split.
  - intros H. apply L in H as (h1 & c & h2 & m1 & E & Hm & x & o & Hrest). exists h1, c, h2, m1, x, o. done.
  - intros (h1 & c & h2 & m1 & x & o & E & Hm & Hrest). apply L. exists h1, c, h2, m1. split; [done|]. split; [done|]. by exists x, o.
Qed.
Print Assumptions C58_leaks_exactly.

(** An allocator whose realloc(p,0) keeps a block: shrink, grow, destroy. *)
Example C58_exact_instance : exists h (m : mem Qc) a,
  run_ops false true empty_mem h = Ok m /\ is_Some (heap m !! a) /\
  ~ exists x o, objs m !! x = Some o /\ o_ptr o = Some a.
Proof.
  destruct C58_no_leak_refuted as (h & m & Hr & Ho & a & Ha). exists h, m, a. split; [done|]. split; [done|].
  intros (x & o & Hx & _). rewrite Ho in Hx. by rewrite lookup_empty in Hx.
Qed.

(** * C59: a sum started from [value] comes out the same on the serial and on
    another executor if and only if [value] is zero. *)
Theorem C59_agree_exactly : forall contrib e start stop value rs rk,
  e <> SerialExecutor ->
  parallelReduce Qcplus 0%Qc contrib SerialExecutor start stop value rs ->
  parallelReduce Qcplus 0%Qc contrib e start stop value rk ->
  (rs = rk <-> value = 0%Qc).
Proof.
  intros contrib e start stop value rs rk He H1 H2.
  assert (E : rs = (value + rk)%Qc).
  { eapply (C06_initial_value Qc Qcplus 0%Qc contrib); [intros; ring|intros; ring|intros; ring|exact He|exact H1|exact H2]. }
  rewrite E. split; [|intros ->; ring]. intros E2. replace value with ((value + rk) - rk)%Qc by ring. rewrite E2. ring.
Qed.
Print Assumptions C59_agree_exactly.

Example C59_exact_instance : exists (contrib : nat -> Qc) value r1 r2, value <> 0%Qc /\
  parallelReduce Qcplus 0%Qc contrib SerialExecutor 0 1 value r1 /\
  parallelReduce Qcplus 0%Qc contrib CPUExecutor 0 1 value r2.
Proof.
  destruct C59_initial_value_refuted as (contrib & value & r1 & r2 & H1 & H2 & Hne). exists contrib, value, r1, r2.
  split; [|done]. intros ->. apply Hne. by apply (C59_agree_exactly contrib CPUExecutor 0 1 0%Qc r1 r2).
Qed.
