(** What a CSR triple means. *)
From Verif Require Import Base Exec Value CSR.
From Verif Require Fields.

Notation fdata := Fields.fdata.

(** A CSR matrix: offsets start at 0, never decrease and end at the number of
    values; one column per value. *)
Record csr_ok {V} (a : csr V nat) : Prop := CsrOk {
  ok_exec : Fields.fexec (a_cols a) = a_exec a /\ Fields.fexec (a_rows a) = a_exec a;
  ok_first : fdata (a_rows a) !! 0 = Some 0;
  ok_mono : forall i lo hi, fdata (a_rows a) !! i = Some lo -> fdata (a_rows a) !! S i = Some hi -> lo <= hi;
  ok_last : last (fdata (a_rows a)) = Some (length (fdata (a_values a)));
  ok_cols : length (fdata (a_cols a)) = length (fdata (a_values a));
}.

(** Offset k holds the coefficient of row i, column j. *)
Definition stored {V} (a : csr V nat) (i j k : nat) : Prop :=
  exists lo hi, fdata (a_rows a) !! i = Some lo /\ fdata (a_rows a) !! S i = Some hi /\ lo <= k < hi /\
    fdata (a_cols a) !! k = Some j.
(** Columns increase along each row. *)
Definition sorted_rows {V} (a : csr V nat) : Prop :=
  forall i j j' k k', stored a i j k -> stored a i j' k' -> k < k' -> j < j'.
Definition no_empty_row {V} (a : csr V nat) : Prop :=
  forall i lo hi, fdata (a_rows a) !! i = Some lo -> fdata (a_rows a) !! S i = Some hi -> lo < hi.

(** The coefficient of the matrix at (i,j): the sum of what is stored there. *)
Definition row_range (rows : list nat) (i : nat) : list nat :=
  let lo := default 0 (rows !! i) in seq lo (default 0 (rows !! S i) - lo).
Definition coef (a : csr Qc nat) (i j : nat) : Qc :=
  sumQ (map (fun k => if decide (fdata (a_cols a) !! k = Some j) then default 0%Qc (fdata (a_values a) !! k) else 0%Qc)
          (row_range (fdata (a_rows a)) i)).

(** The entry (i,j) of the matrix PETSc builds from coordinates, and entry i of
    its vector. *)
Definition coo_entry (c : coo) (i j : nat) : Qc :=
  sumQ (map (fun k => if decide (coo_i c !! k = Some i /\ coo_j c !! k = Some j) then default 0%Qc (coo_v c !! k) else 0%Qc)
          (seq 0 (length (coo_v c)))).
Definition coo_rhs (c : coo) (i : nat) : Qc :=
  sumQ (map (fun k => if decide (vec_i c !! k = Some i) then default 0%Qc (vec_v c !! k) else 0%Qc)
          (seq 0 (length (vec_v c)))).
