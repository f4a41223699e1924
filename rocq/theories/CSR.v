(** CSR matrices, linear systems and the hand-over to PETSc and Ginkgo.

    Files: include/NeoFOAM/linearAlgebra/CSRMatrix.hpp, linearSystem.hpp,
           petscSolverContext.hpp, petsc.hpp, utilities.hpp.

    Index types are unbounded naturals except where a narrowing conversion is
    modelled explicitly; values are exact rationals or any ValueType. *)
From Verif Require Import Base Par Exec Value Kernel.
From Verif Require Fields.

(** CSRMatrix, members CSRMatrix.hpp:214-216. Each Field carries its own
    executor. *)
Record csr (V I : Type) := Csr {
  a_values : Fields.field V;
  a_cols : Fields.field I;
  a_rows : Fields.field I;
}.
Arguments Csr {V I}. Arguments a_values {V I}. Arguments a_cols {V I}. Arguments a_rows {V I}.

(** CSRMatrix.hpp:94-103: NF_ASSERT terminates *)
Definition csr_new {V I} (values : Fields.field V) (cols rows : Fields.field I) : outcome (csr V I) :=
  if exec_eqb (Fields.fexec values) (Fields.fexec cols) then
    if exec_eqb (Fields.fexec values) (Fields.fexec rows) then Ok (Csr values cols rows) else Exit
  else Exit.
(** l.105 *)
Definition csr_empty {V I} (e : executor) : csr V I :=
  Csr (Fields.mkField e []) (Fields.mkField e []) (Fields.mkField e []).
(** l.116 *)
Definition a_exec {V I} (a : csr V I) : executor := Fields.fexec (a_values a).
(** l.122-126 *)
Definition nRows {V I} (a : csr V I) : nat :=
  Fields.fsize (a_rows a) - (if Nat.eqb (Fields.fsize (a_rows a)) 0 then 0 else 1).
(** l.132 *)
Definition nNonZeros {V I} (a : csr V I) : nat := Fields.fsize (a_values a).

(** l.175-185 *)
Definition csr_copyToExecutor {V I} (a : csr V I) (dst : executor) : outcome (csr V I) :=
  if exec_eqb dst (a_exec a) then Ok a
  else csr_new (Fields.copyToHost (a_values a)) (Fields.copyToHost (a_cols a)) (Fields.copyToHost (a_rows a)).
(** l.191-194 *)
Definition csr_copyToHost {V I} (a : csr V I) : outcome (csr V I) := csr_copyToExecutor a SerialExecutor.

(** CSRMatrixView::entry, l.49-63. The result is the offset of the reference
    returned. [todo] is rowSize - ic. Decreasing row offsets (rowSize wraps
    around) are treated as undefined behaviour. *)
Fixpoint entry_loop (cols : list nat) (j pos todo : nat) : outcome nat :=
  match todo with
  | 0 => Exit                                   (* Kokkos::abort *)
  | S todo' =>
      let! c := oget (cols !! pos) in
      if Nat.eqb c j then Ok pos
      else if Nat.ltb j c then Exit             (* break, then abort *)
      else entry_loop cols j (S pos) todo'
  end.
Definition entry {V} (a : csr V nat) (i j : nat) : outcome nat :=
  let! lo := oget (Fields.fdata (a_rows a) !! i) in
  let! hi := oget (Fields.fdata (a_rows a) !! (i + 1)) in
  if Nat.ltb hi lo then UB else
  let! pos := entry_loop (Fields.fdata (a_cols a)) j lo (hi - lo) in
  let! _ := oget (Fields.fdata (a_values a) !! pos) in
  Ok pos.
(** view.entry(i,j) = v and reading view.entry(i,j) *)
Definition entry_set {V} (a : csr V nat) (i j : nat) (v : V) : outcome (csr V nat) :=
  let! pos := entry a i j in
  Ok (Csr (Fields.mkField (Fields.fexec (a_values a)) (<[pos := v]> (Fields.fdata (a_values a)))) (a_cols a) (a_rows a)).
Definition entry_get {V} (a : csr V nat) (i j : nat) : outcome V :=
  let! pos := entry a i j in oget (Fields.fdata (a_values a) !! pos).

(** convert, CSRMatrix.hpp:223-244, for a view of matrix [a]. The values field is
    constructed from in.values.data() by the Field constructor taking host
    memory (field.hpp:78-91 with the default hostExec), whatever the executor of
    the view; device memory there is undefined behaviour. That constructor also
    forces ValueTypeIn = ValueTypeOut (pointers to different types do not
    convert), so the conversion in the last kernel is the identity. *)
Definition convert {V I I'} (e : executor) (a : csr V I) (castI : I -> I') (r : option (csr V I')) : Prop :=
  if Fields.same_space (a_exec a) SerialExecutor && Fields.same_space e (a_exec a) then
   exists c0 r0 c1 r1 v1 o1 o2 o3,
    Fields.new_uninit e (Fields.fsize (a_cols a)) c0 /\ Fields.new_uninit e (Fields.fsize (a_rows a)) r0 /\
    let v0 := Fields.mkField e (Fields.fdata (a_values a)) in
    Fields.kernel_on c0 (iterations 0 (Fields.fsize c0) (set_kernel (fun i => castI <$> (Fields.fdata (a_cols a) !! i)))) c1 o1 /\
    Fields.kernel_on r0 (iterations 0 (Fields.fsize r0) (set_kernel (fun i => castI <$> (Fields.fdata (a_rows a) !! i)))) r1 o2 /\
    Fields.kernel_on v0 (iterations 0 (Fields.fsize v0) (set_kernel (fun i => Fields.fdata (a_values a) !! i))) v1 o3 /\
    r = match o1, o2, o3 with Ok _, Ok _, Ok _ => Some (Csr v1 c1 r1) | _, _, _ => None end
  else r = None.

(** ** LinearSystem (linearSystem.hpp) *)
Record linsys (V I : Type) := LinSys { l_matrix : csr V I; l_rhs : Fields.field V }.
Arguments LinSys {V I}. Arguments l_matrix {V I}. Arguments l_rhs {V I}.
(** l.46-51 *)
Definition ls_new {V I} (a : csr V I) (rhs : Fields.field V) : outcome (linsys V I) :=
  if exec_eqb (a_exec a) (Fields.fexec rhs) then
    if Nat.eqb (nRows a) (Fields.fsize rhs) then Ok (LinSys a rhs) else Exit
  else Exit.
(** l.67-70 *)
Definition ls_copyToHost {V I} (ls : linsys V I) : outcome (linsys V I) :=
  let! a := csr_copyToHost (l_matrix ls) in ls_new a (Fields.copyToHost (l_rhs ls)).
(** l.72-76 *)
Definition ls_reset {V I} `{ValueType V} (ls : linsys V I) (ls' : linsys V I) (o : outcome unit) : Prop :=
  exists v' o1, Fields.fill (a_values (l_matrix ls)) vzero Fields.default_range v' o1 /\
    match o1 with
    | Ok _ => exists r', Fields.fill (l_rhs ls) vzero Fields.default_range r' o /\
        ls' = LinSys (Csr v' (a_cols (l_matrix ls)) (a_rows (l_matrix ls))) r'
    | _ => o = o1
    end.

(** l.103-134 spmv, instantiated at scalar. Loop l.122-125 over [todo] entries
    from [pos]; [None]: out of bounds. *)
Fixpoint row_sum (values : list Qc) (cols : list nat) (x : list Qc) (pos todo : nat) (acc : Qc) : option Qc :=
  match todo with
  | 0 => Some acc
  | S todo' =>
      v ← values !! pos; c ← cols !! pos; y ← x !! c;
      row_sum values cols x (S pos) todo' (acc + v * y)%Qc
  end.
Definition spmv_kernel (a : csr Qc nat) (b x : list Qc) : kernel Qc := fun rowi =>
  lo ← Fields.fdata (a_rows a) !! rowi;
  hi ← Fields.fdata (a_rows a) !! (rowi + 1);
  s ← row_sum (Fields.fdata (a_values a)) (Fields.fdata (a_cols a)) x lo (hi - lo) 0%Qc;
  bi ← b !! rowi;
  Some [SSet (0, rowi) (s - bi)%Qc].
Definition spmv (ls : linsys Qc nat) (x : Fields.field Qc) (r : option (list (list Qc))) : Prop :=
  let e := a_exec (l_matrix ls) in
  if Fields.same_space e (Fields.fexec x) then
    pfor e 0 (nRows (l_matrix ls)) (spmv_kernel (l_matrix ls) (Fields.fdata (l_rhs ls)) (Fields.fdata x))
      [replicate (Fields.fsize (l_rhs ls)) 0%Qc] r
  else r = None.

(** l.154-168 createEmptyLinearSystem, for a pattern with these columns and row
    offsets on executor [e] *)
Definition createEmptyLinearSystem {V} `{ValueType V} (e : executor) (rows nnz : nat)
    (cols rowPtrs : Fields.field nat) : outcome (linsys V nat) :=
  let! a := csr_new (Fields.mkField e (replicate nnz vzero)) cols rowPtrs in
  ls_new a (Fields.mkField e (replicate rows vzero)).

(** ** PETSc (petscSolverContext.hpp:65-143, petsc.hpp:90-107) *)
(** l.99-110: rowIdx from rowPtr. State: rowI, rowOffset. *)
Fixpoint expand_rows (rowPtr : list nat) (rowI rowOffset index todo : nat) : outcome (list nat) :=
  match todo with
  | 0 => Ok []
  | S todo' =>
      if Nat.eqb index rowOffset then
        let! off := oget (rowPtr !! (S rowI + 1)) in
        let! rest := expand_rows rowPtr (S rowI) off (S index) todo' in
        Ok (S rowI :: rest)
      else
        let! rest := expand_rows rowPtr rowI rowOffset (S index) todo' in
        Ok (rowI :: rest)
  end.
(** What PETSc is given: MatSetPreallocationCOO(A, ncoo, coo_i, coo_j) and
    MatSetValuesCOO(A, v, ADD_VALUES): entry (i,j) is the sum of the values whose
    coo_i is i and coo_j is j; the same for the vector. *)
Record coo := Coo { coo_i : list nat; coo_j : list nat; coo_v : list Qc; vec_i : list nat; vec_v : list Qc }.
Definition petsc_system (ls : linsys Qc nat) : outcome coo :=
  let! host := ls_copyToHost ls in                                             (* l.76 *)
  let size := Fields.fsize (a_values (l_matrix ls)) in
  let nrows := Fields.fsize (l_rhs ls) in
  let rowPtr := Fields.fdata (a_rows (l_matrix host)) in
  let! colIdx := foldr (fun k acc => let! c := oget (Fields.fdata (a_cols (l_matrix host)) !! k) in
                                     let! l := acc in Ok (c :: l)) (Ok []) (seq 0 size) in  (* l.93-96 *)
  let! off := oget (rowPtr !! 1) in
  let! rowIdx := expand_rows rowPtr 0 off 0 size in
  (* l.135: MatSetPreallocationCOO(Amat_, size, colIdx, rowIdx) *)
  Ok (Coo colIdx rowIdx (Fields.fdata (a_values (l_matrix ls))) (seq 0 nrows) (Fields.fdata (l_rhs ls))).

(** ** Ginkgo (utilities.hpp:40-57) *)
(** localIdx -> int (two's complement) *)
Definition to_int (n : nat) : Z := ((Z.of_nat n + 2 ^ 31) mod 2 ^ 32 - 2 ^ 31)%Z.
(** gko::matrix::Csr<V, int> of size n x n *)
Record gko_csr (V : Type) := GkoCsr { g_size : nat; g_values : list V; g_cols : list Z; g_rows : list Z }.
Arguments GkoCsr {V}. Arguments g_size {V}. Arguments g_values {V}. Arguments g_cols {V}. Arguments g_rows {V}.
(** The arrays handed to create() are copied there (lvalue gko::array), so they
    outlive the local [mtx]. *)
Definition createGkoMtx {V} (ls : linsys V nat) (r : option (gko_csr V)) : Prop :=
  exists r', convert (a_exec (l_matrix ls)) (l_matrix ls) to_int r' /\
    r = (fun a => GkoCsr (Fields.fsize (l_rhs ls)) (Fields.fdata (a_values a)) (Fields.fdata (a_cols a)) (Fields.fdata (a_rows a))) <$> r'.
