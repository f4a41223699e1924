(** The Ginkgo linear solver as a whole: what solve() gets from it. *)
From Verif Require Import Base Dict Exec Ginkgo Value Mesh Sparsity CSR CSRSpec Dsl Petsc.
From Verif Require Fields.
Local Open Scope nat_scope.

(** ** src/linearAlgebra/utilities.cpp:13-50 getGkoExecutor *)
(** The macros it tests (l.24, 31, 35; l.26 KOKKOS_ENABLE_THREADS picks what the
    end of the function returns anyway).  Kokkos itself defines
    KOKKOS_ENABLE_OPENMP, not KOKKOS_ENABLE_OMP. *)
Record kokkosBuild := KokkosBuild { kb_omp : bool; kb_cuda : bool; kb_hip : bool }.
Inductive gkoExecutor := GkoReference | GkoOmp | GkoCuda | GkoHip.
Definition getGkoExecutor (b : kokkosBuild) (e : executor) : outcome gkoExecutor :=
  match e with
  | SerialExecutor => Ok GkoReference                                              (* l.19-22 *)
  | CPUExecutor => Ok (if kb_omp b then GkoOmp else GkoReference)                  (* l.23-30, 46 *)
  | GPUExecutor => if kb_cuda b then Ok GkoCuda else if kb_hip b then Ok GkoHip    (* l.31-42 *)
                   else Throw RuntimeError
  end.

Section ginkgo.
  (** [cstr], [flt]: see Ginkgo.v. [gko x c A b x0 r]: what gko::config::parse on
      configuration [c], generate and apply on executor [x] may do with matrix [A],
      right-hand side [b] and initial guess [x0]; external, so any relation. *)
  Context (cstr : nat -> string) (flt : nat -> Qc).
  Context (gko : gkoExecutor -> pnode -> gko_csr Qc -> list Qc -> list Qc -> outcome (list Qc) -> Prop).

  (** include/NeoFOAM/linearAlgebra/ginkgo.hpp:30-36, the constructor, in the order
      of the members; what gko::config::parse does is part of [gko]. *)
  Definition ginkgo_create (b : kokkosBuild) (e : executor) (d : dict) : outcome (gkoExecutor * pnode) :=
    let! x := getGkoExecutor b e in
    let! c := parse cstr flt d in
    Ok (x, c).
  (** ginkgo.hpp:44-63 solve; utilities.hpp:37-72 createGkoMtx (CSR.v), createGkoDense:
      the right-hand side is copied, the result is a view of nrows elements of [x0]. *)
  Definition ginkgo_solve (s : gkoExecutor * pnode) (ls : linsys Qc nat) (x0 : list Qc) (r : outcome (list Qc)) : Prop :=
    let nrows := Fields.fsize (l_rhs ls) in
    exists g, createGkoMtx ls g /\
      match g with
      | None => r = UB
      | Some g =>
          if decide (nrows <= length x0) then
            rseq (gko s.1 s.2 g (Fields.fdata (l_rhs ls)) (take nrows x0)) (fun x r' => r' = Ok (x ++ drop nrows x0)) r
          else r = UB
      end.
  (** dsl/solver.hpp:84-85 and backwardEuler.hpp:71-72: create the solver, call it. *)
  Definition ginkgo_solver (b : kokkosBuild) (e : executor) (d : dict) (p : sparsity) (values rhs x0 : list Qc) (r : outcome (list Qc)) : Prop :=
    rseq (fun o => o = ginkgo_create b e d) (fun s => ginkgo_solve s (system_of e p values rhs) x0) r.
  (** solve() picks the backend by name (TimeInt.v, [solver_create]); the backend
      "Ginkgo" is the above. *)
  Definition ginkgo_backend (b : kokkosBuild) (e : executor) (lin : string -> dict -> sparsity -> list Qc -> list Qc -> list Qc -> outcome (list Qc) -> Prop) : Prop :=
    forall d p values rhs x0 r, lin "Ginkgo"%string d p values rhs x0 r <-> ginkgo_solver b e d p values rhs x0 r.

  (** ** Specification *)
  (** Row [i] of the product of the matrix with [x]. *)
  Definition gko_at (g : gko_csr Qc) (x : list Qc) (i : nat) : Qc :=
    let start := Z.to_nat (default 0%Z (g_rows g !! i)) in
    let stop := Z.to_nat (default 0%Z (g_rows g !! S i)) in
    sumQ (map (fun k => default 0 (g_values g !! k) * default 0 (x !! Z.to_nat (default 0%Z (g_cols g !! k))))%Qc (seq start (stop - start))).
  (** What Ginkgo requires of a CSR matrix. *)
  Record gko_valid (g : gko_csr Qc) : Prop := {
    gv_rows : length (g_rows g) = S (g_size g);
    gv_first : g_rows g !! 0 = Some 0%Z;
    gv_mono : forall i lo hi, g_rows g !! i = Some lo -> g_rows g !! S i = Some hi -> (lo <= hi)%Z;
    gv_last : g_rows g !! g_size g = Some (Z.of_nat (length (g_values g)));
    gv_cols : length (g_cols g) = length (g_values g);
    gv_range : forall k c, g_cols g !! k = Some c -> (0 <= c < Z.of_nat (g_size g))%Z }.
  (** With configuration [c] Ginkgo accepts every system, and leaves a residual of
      at most [tol] in every row ([tol] = 0: solves exactly). *)
  Definition solves_within (tol : Qc) (x : gkoExecutor) (c : pnode) : Prop :=
    forall g b x0 r, gko_valid g -> length b = g_size g -> length x0 = g_size g -> gko x c g b x0 r ->
      exists y, r = Ok y /\ length y = g_size g /\
        forall i, i < g_size g -> (- tol <= gko_at g y i - default 0 (b !! i) /\ gko_at g y i - default 0 (b !! i) <= tol)%Qc.
End ginkgo.
