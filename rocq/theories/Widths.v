(** The integer types: label (int32_t, or int64_t with NEOFOAM_DP_LABEL), localIdx
    (uint32_t / uint64_t), size_t, mpi_label_t (int); include/NeoFOAM/core/primitives/label.hpp:
    13-24.  Elsewhere in the model indices are unbounded; here are the places
    where the code converts between these types or adds in them, with [w] the
    number of bits of label and localIdx. *)
From stdpp Require Import list.
From Verif Require Import Base Reduce.
Local Open Scope Z_scope.

(** Conversion to an unsigned / signed type of [w] bits (C++20: modulo 2^w). *)
Definition to_unsigned (w z : Z) : Z := z mod 2 ^ w.
Definition to_signed (w z : Z) : Z := (z + 2 ^ (w - 1)) mod 2 ^ w - 2 ^ (w - 1).
Definition size_t_of (z : Z) : Z := to_unsigned 64 z.
(** Signed arithmetic: undefined on overflow. *)
Definition signed_result (w z : Z) : outcome Z :=
  if (- 2 ^ (w - 1) <=? z) && (z <? 2 ^ (w - 1)) then Ok z else UB.

(** ** SegmentedField with IndexType = localIdx *)
Section scan.
  Context (w : Z).
  (** [update += inSpan[i]] in IndexType *)
  Definition wadd (a b : Z) : Z := (a + b) mod 2 ^ w.
  Definition wsum (l : list Z) : Z := foldr wadd 0 l.
  (** fields/segmentedField.hpp:35-41 *)
  Definition wscan_kernel (inp : list Z) (final : bool) (i : nat) (st : Z * list Z) : option (Z * list Z) :=
    let '(update, offs) := st in
    match inp !! i with
    | None => None
    | Some v =>
        let update' := wadd update v in
        if final then match offs !! i with Some _ => Some (update', <[i := update']> offs) | None => None end
        else Some (update', offs)
    end.
  Fixpoint wscan_chunk (inp : list Z) (final : bool) (is : list nat) (st : Z * list Z) : option (Z * list Z) :=
    match is with
    | [] => Some st
    | i :: is' => match wscan_kernel inp final i st with
                  | Some st' => wscan_chunk inp final is' st'
                  | None => None
                  end
    end.
  (** Kokkos::parallel_scan, parallelAlgorithms.hpp:196-209, as in Reduce.v, with
      the chunk totals joined in IndexType. *)
  Fixpoint wchunk_totals (inp : list Z) (chunks : list (list nat)) (offs : list Z) : option (list Z) :=
    match chunks with
    | [] => Some []
    | c :: cs => match wscan_chunk inp false c (0, offs), wchunk_totals inp cs offs with
                 | Some (t, _), Some ts => Some (t :: ts)
                 | _, _ => None
                 end
    end.
  Fixpoint wscan_pass2 (inp : list Z) (chunks : list (list nat)) (totals : list Z) (order : list nat) (offs : list Z)
    : option (list Z) :=
    match order with
    | [] => Some offs
    | k :: order' =>
        match chunks !! k with
        | None => None
        | Some c => match wscan_chunk inp true c (wsum (take k totals), offs) with
                    | Some (_, offs') => wscan_pass2 inp chunks totals order' offs'
                    | None => None
                    end
        end
    end.
  Definition wscan (inp offs : list Z) (chunks : list (list nat)) (order : list nat) : option (Z * list Z) :=
    match wchunk_totals inp chunks offs with
    | None => None
    | Some ts => match wscan_pass2 inp chunks ts order offs with
                 | Some offs' => Some (wsum ts, offs')
                 | None => None
                 end
    end.
  (** segmentedField.hpp:24-45 and 143-149: the number of values and the offsets. *)
  Definition wsegmentedField (intervals : list Z) (chunks : list (list nat)) (order : list nat) : outcome (Z * list Z) :=
    match wscan intervals (replicate (length intervals) 0) chunks order with
    | Some (total, offs') => Ok (total, 0 :: offs')
    | None => UB
    end.
End scan.

(** ** Labels of the uniform mesh, src/mesh/unstructured/unstructuredMesh.cpp *)
(** l.170-171 *)
Definition owner_label (w i : Z) : Z := to_signed w i.
Definition neighbour_label (w i : Z) : Z := to_signed w (i + 1).
(** l.160: static_cast<label>(nCells) - 1 *)
Definition last_owner_label (w n : Z) : outcome Z := signed_result w (to_signed w n - 1).
(** l.191: static_cast<int>(nCells) - 1, whatever the width of label, stored as a label *)
Definition last_face_cell (w n : Z) : outcome Z :=
  let! x := signed_result 32 (to_signed 32 n - 1) in Ok (to_signed w x).
(** ** Boundary patches, boundaryPatchMixin.hpp:34-49 *)
Definition patch_start (w off : Z) : Z := to_signed w off.
Definition patch_end (w off : Z) : Z := to_signed w off.
Definition patch_size (w s e : Z) : outcome Z :=
  let! d := signed_result w (patch_end w e - patch_start w s) in Ok (size_t_of d).
Definition patch_range (w s e : Z) : Z * Z := (size_t_of (patch_start w s), size_t_of (patch_end w e)).
(** ** Message sizes in bytes, src/core/mpi/halfDuplexCommBuffer.cpp:34, 52 *)
Definition message_count (bytes : Z) : Z := to_signed 32 bytes.
(** ** Sizes reported as localIdx or label: sparsityPattern.hpp:42, 44; field.hpp:358 *)
Definition pattern_rows (w cells : Z) : Z := to_unsigned w cells.
Definition pattern_nnz (w entries : Z) : Z := to_unsigned w entries.
Definition field_ssize (w size : Z) : Z := to_signed w size.
