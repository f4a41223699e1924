(** parallelReduce, parallelScan and SegmentedField. *)
From Verif Require Import Base Exec.

(** * Reductions *)
Section reduce.
  Context {T : Type} (join : T -> T -> T) (ident : T) (contrib : nat -> T).

  (** The user's kernel updates its accumulator argument with its contribution,
      e.g. [lsum += f[i]] (fields/operations/sum.hpp:22) or
      [if (c > m) m = c] (coNum.cpp). *)
  Definition reduce_kernel (i : nat) (acc : T) : T := join acc (contrib i).

  (** parallelAlgorithms.hpp:113-126 (and 150-164): the Serial branch runs the
      kernel on the caller's variable, starting from whatever it holds. *)
  Definition reduce_serial (start stop : nat) (value : T) : T :=
    fold_left (fun acc i => reduce_kernel i acc) (seq start (stop - start)) value.

  (** parallelAlgorithms.hpp:128-133 (and 165-171): Kokkos::parallel_reduce
      initialises private accumulators with the identity, runs the kernel on
      pieces of the range and joins the partial results in some tree; the
      caller's variable is overwritten. *)
  Inductive jtree := Piece (is : list nat) | Join (l r : jtree).
  Fixpoint jeval (t : jtree) : T :=
    match t with
    | Piece is => fold_left (fun acc i => reduce_kernel i acc) is ident
    | Join l r => join (jeval l) (jeval r)
    end.
  Fixpoint jindices (t : jtree) : list nat :=
    match t with
    | Piece is => is
    | Join l r => jindices l ++ jindices r
    end.
  Definition reduce_kokkos (start stop : nat) (result : T) : Prop :=
    exists t, jindices t ≡ₚ seq start (stop - start) /\ result = jeval t.

  Definition parallelReduce (e : executor) (start stop : nat) (value result : T) : Prop :=
    match e with
    | SerialExecutor => result = reduce_serial start stop value
    | _ => reduce_kokkos start stop result
    end.
End reduce.

(** * Scans
    fields/segmentedField.hpp:23-45.  The kernel (l.35-41): *)
Definition scan_kernel (inp : list nat) (final : bool) (i : nat)
  (st : nat * list nat) : option (nat * list nat) :=
  let '(update, offs) := st in
  match inp !! i with
  | None => None
  | Some v =>
      let update' := update + v in
      if final then
        match offs !! i with
        | Some _ => Some (update', <[i := update']> offs)
        | None => None
        end
      else Some (update', offs)
  end.

Fixpoint scan_chunk (inp : list nat) (final : bool) (is : list nat)
  (st : nat * list nat) : option (nat * list nat) :=
  match is with
  | [] => Some st
  | i :: is' => match scan_kernel inp final i st with
                | Some st' => scan_chunk inp final is' st'
                | None => None
                end
  end.

(** Kokkos::parallel_scan (parallelAlgorithms.hpp:196-209): the range is cut into
    consecutive chunks; a first pass computes chunk totals (final=false); in the
    final pass each chunk starts from the sum of the totals before it; chunks run
    in any order.  The serial back-end is the case of a single chunk. *)
Fixpoint chunk_totals (inp : list nat) (chunks : list (list nat)) (offs : list nat)
  : option (list nat) :=
  match chunks with
  | [] => Some []
  | c :: cs =>
      match scan_chunk inp false c (0, offs), chunk_totals inp cs offs with
      | Some (t, _), Some ts => Some (t :: ts)
      | _, _ => None
      end
  end.

Fixpoint scan_pass2 (inp : list nat) (chunks : list (list nat)) (totals : list nat)
  (order : list nat) (offs : list nat) : option (list nat) :=
  match order with
  | [] => Some offs
  | k :: order' =>
      match chunks !! k with
      | None => None
      | Some c =>
          match scan_chunk inp true c (sum_list (take k totals), offs) with
          | Some (_, offs') => scan_pass2 inp chunks totals order' offs'
          | None => None
          end
      end
  end.

Definition kokkos_scan (inp : list nat) (offs : list nat)
  (chunks : list (list nat)) (order : list nat) : option (nat * list nat) :=
  match chunk_totals inp chunks offs with
  | None => None
  | Some ts => match scan_pass2 inp chunks ts order offs with
               | Some offs' => Some (sum_list ts, offs')
               | None => None
               end
  end.

(** A legal execution plan for a scan over [0,n). *)
Definition scan_plan (n : nat) (chunks : list (list nat)) (order : list nat) : Prop :=
  concat chunks = seq 0 n /\ order ≡ₚ seq 0 (length chunks).

(** segmentedField.hpp:24-45; [offsets] is a field; subspan(1) of an empty span
    is undefined; the sizes are asserted equal (l.31).  Index overflow of
    IndexType is not modelled. *)
Definition segmentsFromIntervals (intervals offsets : list nat)
  (chunks : list (list nat)) (order : list nat) : outcome (nat * list nat) :=
  match offsets with
  | [] => UB
  | o0 :: offs =>
      if Nat.eqb (length intervals) (length offs) then
        match kokkos_scan intervals offs chunks order with
        | Some (total, offs') => Ok (total, o0 :: offs')
        | None => UB
        end
      else Exit
  end.

(** SegmentedField(intervals): segmentedField.hpp:143-149; values uninitialised,
    so only their number is kept. *)
Record segmented := mkSeg { seg_size : nat; segments : list nat }.
Definition segmentedField (intervals : list nat) (chunks : list (list nat)) (order : list nat)
  : outcome segmented :=
  let! (total, offs) := segmentsFromIntervals intervals
                          (replicate (length intervals + 1) 0) chunks order in
  Ok (mkSeg total offs).

(** SegmentedFieldView::bounds / range / span: segmentedField.hpp:74-104. *)
Definition seg_bounds (s : segmented) (i : nat) : outcome (nat * nat) :=
  match segments s !! i, segments s !! (i + 1) with
  | Some a, Some b => Ok (a, b)
  | _, _ => UB
  end.
Definition seg_range (s : segmented) (i : nat) : outcome (nat * nat) :=
  match segments s !! i, segments s !! (i + 1) with
  | Some a, Some b => Ok (a, b - a)
  | _, _ => UB
  end.
(** The indices of the values the span of segment i covers; undefined when the
    subspan leaves the values. *)
Definition seg_span (s : segmented) (i : nat) : outcome (list nat) :=
  let! (start, len) := seg_range s i in
  if Nat.leb (start + len) (seg_size s) then Ok (seq start len) else UB.
(** segmentedField.hpp:180 *)
Definition numSegments (s : segmented) : nat := length (segments s) - 1.
