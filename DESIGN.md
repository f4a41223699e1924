# Formal model of exasim-project/NeoFOAM in Rocq (Coq 8.16.1)

## Approach
* The model is plain Gallina in `rocq/theories/*.v`; each definition cites the file and lines of `/repo` it models. Specifications are in `*Spec.v` files (and at the head of the `Properties_*.v` files) and do not mention kernels, executors or schedules; all property theorems are in `Properties_*.v`, each followed by `Print Assumptions` and, where it has hypotheses, by a concrete instance meeting them.
* Scalars are canonical rationals `Qc` (exact arithmetic, Leibniz equality, axiom free); geometry that needs `sqrt` uses the standard-library reals.
* Undefined behaviour (`UB`), exceptions (`Throw e`), and process termination (`Exit`: `NF_ERROR_EXIT`, failed `NF_ASSERT`, `std::abort`) are separate outcomes. An operation that may depend on the schedule is a relation between its inputs and its outcome; `always op r` / `surely op r` say that it ends, never in UB, with the one result `r`, on every schedule.
* Parallel executors are modelled by interleaving: a kernel iteration is a finite program of atomic actions on shared memory, a schedule is an arbitrary list of thread numbers. A non-atomic `x += v` is a read action followed by a write action; `Kokkos::atomic_*` is one action. The Serial executor runs the iterations in order. Theorems quantify over the executor and over all schedules.
* Where the code violates a property the theorem is named `..._refuted` (the negated universal claim, proved from a concrete witness that meets all hypotheses) and the strongest conditional statement that does hold is proved under another id.
* Theorems are tested by editing the model (see `seeded/LOG.jsonl`).

## Plan and outcome per property

Status `proved`: the theorems of that id in the named file are the statement. C57-C90 state exactly when a natural claim holds, because the unrestricted claim is **false of the code**: their `_refuted` theorems exhibit a reachable counterexample to the natural claim, and the theorems in the `Properties_Exact*.v` files prove the exact statement for all inputs.

* **C01** (proved) Field arithmetic is element-wise and all-or-nothing — Fields.v over the interleaving machine (Par.v, Exec.v): a field is an executor and a list; kernels are own-slot threads. Every schedule is shown to write exactly the pointwise result (ExecProofs.v); size mismatch is shown to change nothing. [Properties_Fields.v, Properties_Outcomes.v]
* **C02** (proved) A range-restricted fill/map/setField writes exactly the requested index range — Fields.v keeps the `end==0` sentinel of the code; pointwise statement for every index. [Properties_Fields.v, Properties_Outcomes.v]
* **C03** (proved) Fields own their storage: deep copies, no aliasing, no leak, no double free — FieldMem.v: heap of blocks, field objects holding pointers; every constructor, assignment, destructor and resize is a step that can be undefined behaviour. Simulation with a map from names to values for all histories (induction), plus unique ownership and no-leak invariants. [Properties_Fields.v]
* **C04** (proved) Resize keeps the common prefix — Fields.v, FieldMem.v: resize, assignment, copies; pointwise prefix theorem. [Properties_Fields.v, Properties_Outcomes.v]
* **C05** (proved) parallelFor visits each index of its range exactly once on every executor — Par.v: iteration = program of atomic actions, schedule = any list of thread numbers; theorem for all schedules by a commutation invariant. [Properties_Fields.v, Properties_Outcomes.v]
* **C06** (proved) parallelReduce gives the same reduction on every executor — Reduce.v: serial fold from the caller's value; Kokkos: any tree of joins over any partition. Associativity/commutativity argument. [Properties_Fields.v, Properties_Outcomes.v]
* **C07** (proved) Segment offsets are the prefix sums of the segment lengths — Reduce.v: inclusive scan by any chunking, SegmentedField on top; prefix-sum and partition theorems. [Properties_Fields.v]
* **C08** (proved) Debug bounds checking of View reports every out-of-range access — Misc.v: failureIndex state machine, induction over access sequences. [Properties_Fields.v]
* **C09** (proved) Dictionary behaves as a finite map from strings to typed values — Dict.v: std::unordered_map as association list with typed values; refinement to a finite map over all histories, nested dictionaries included. [Properties_Core.v]
* **C10** (proved) TokenList::next delivers the tokens in order, each exactly once — Dict.v: tokens plus mutable cursor; induction over histories. [Properties_Core.v]
* **C11** (proved) Building an operator from the scheme dictionary is repeatable — Registry.v: factories consuming tokens through the shared cursor, dictionary copied; repeatability for any number of builds. [Properties_Core.v]
* **C12** (proved) Runtime selection returns the class registered under the name — Registry.v: tables of any number of factories, registration histories. [Properties_Core.v]
* **C13** (proved) Mesh-attached stencils are built once and shared — Registry.v: StencilDataBase with object identities; invariants over request histories. [Properties_Core.v]
* **C14** (proved) Database keeps the first collection registered under a name — Database.v: finite-map refinement, type tags of collections. [Properties_Database.v]
* **C15** (proved) Every document gets a distinct id — Database.v: id counter with explicit 32-bit wrap. [Properties_Database.v]
* **C16** (proved) Registering a field makes it retrievable under the key it returns and disturbs nothing else — Database.v: registerField as a state transition of the whole database. [Properties_Database.v]
* **C17** (proved) oldTime(field) is stable and forms one chain per field — Database.v: getOrInsert/findNextTime/findPreviousTime; chain invariant over all histories. [Properties_Database.v]
* **C18** (proved) Obtaining a collection instance by name is idempotent — Database.v: instance functions. [Properties_Database.v]
* **C19** (proved) MPI message tags are valid and agree between ranks — Mpi.v: bufferHash on 64-bit words; pigeonhole for C67. [Properties_Mpi.v]
* **C20** (proved) Communication buffer windows are disjoint, in bounds and sized as requested — Mpi.v: offsets and byte windows of the half-duplex buffer over histories. [Properties_Mpi.v]
* **C21** (proved) A communication buffer is used by at most one communication and cannot be resized while in use — Mpi.v: buffer protocol state machine with requests. [Properties_Mpi.v]
* **C22** (proved) Halo exchange delivers each rank's send-map values to the matching receive-map cells — Mpi.v, MpiInv.v, MpiMain.v: all ranks and the MPI library (FIFO channels per rank pair and tag, arbitrary progress) as one transition system; global invariant, progress measure, termination. [Properties_Mpi.v]
* **C23** (proved) CSR entry lookup returns the stored coefficient — CSR.v: the scan loop of entry. [Properties_LinAlg.v]
* **C24** (proved) Copying a matrix or system to an executor keeps its contents — CSR.v: copies and conversion between executors. [Properties_LinAlg.v]
* **C25** (proved) spmv and residual compute A x - b row by row — CSR.v: spmv kernel on the interleaving machine. [Properties_LinAlg.v]
* **C26** (proved) The PETSc backend assembles symmetric matrices as given — CSR.v: the loops building PETSc's COO arrays; loop invariant. [Properties_LinAlg.v]
* **C27** (proved) Solver settings reach Ginkgo unchanged — Ginkgo.v: recursion over nested dictionaries; induction on the nesting. [Properties_LinAlg.v]
* **C28** (proved) The uniform 1D mesh is a valid mesh for every cell count — Mesh.v: the two generators over Qc coordinates, kernels on every schedule. [Properties_Mesh.v]
* **C29** (proved) The sparsity pattern has exactly the face-neighbour structure, for every schedule — Ticket.v (atomic_fetch_add slot allocation), Sparsity.v with 8-bit offsets; invariant over all schedules (TicketProofs.v, SparsityMain.v). [Properties_Sparsity.v]
* **C30** (proved) Rows are sorted when assembled serially from an ordered mesh — Sparsity.v: serial order. [Properties_Sparsity.v]
* **C31** (proved) The cell-to-face stencil lists each cell's faces exactly once — Sparsity.v: computeStencil with the same ticket machine. [Properties_Sparsity.v]
* **C32** (proved) Explicit divergence is the net face flux per volume on every executor — FV.v: serial loops and atomic kernels; sums over faces (Kernel.v: kernels that only add commute). [Properties_FV.v]
* **C33** (proved) Operators writing to a caller-provided field give the operator's value — FV.v: exact value for any previous contents. [Properties_FV.v]
* **C34** (proved) The implicit divergence discretises the same operator as the explicit one — Assembly.v: kernels on pattern offsets; residual identity by slot accounting. [Properties_Assembly.v]
* **C35** (proved) Implicit assembly is schedule independent when cells have at most one boundary face — Assembly.v: non-atomic += is read then write in Kernel.v; race-freedom when at most one boundary face per cell, concrete racing schedules for C77. [Properties_Assembly.v]
* **C36** (proved) The implicit Laplacian matrix is symmetric, conservative and consistent with the explicit Laplacian — Assembly.v: implicit Laplacian. [Properties_Assembly.v]
* **C37** (proved) Green-Gauss gradient and surface integration — FV.v: gradient (vector valued) and surfaceIntegrate. [Properties_FV.v]
* **C38** (proved) Source and time-derivative operators: explicit and implicit forms agree — Assembly.v: source and ddt operators. [Properties_Assembly.v]
* **C39** (proved) An operator placed in an equation acts — Dsl.v: the concepts as decidable predicates on the members a class declares. [Properties_Dsl.v, Properties_Outcomes.v]
* **C40** (proved) Face interpolation is bounded and constant preserving — FV.v: linear and upwind kernels. [Properties_FV.v]
* **C41** (proved) Geometry weights and delta coefficients are well defined — Geometry.v: weights over Qc, delta coefficients over R (sqrt). [Properties_Geometry.v]
* **C42** (proved) Face-normal gradient is the difference quotient across the face — FV.v: uncorrected scheme. [Properties_FV.v]
* **C43** (proved) A boundary condition only touches its own patch — Boundary.v: patch kernels as own-slot maps, dictionary selection. [Properties_Boundary.v]
* **C44** (proved) Coefficient algebra — Coeff.v. [Properties_FV.v]
* **C45** (proved) Equation expressions are linear combinations of their operators — Dsl.v: heap of operators, expression trees, cloning; induction on equations. [Properties_Dsl.v]
* **C46** (proved) Assembling an equation yields a system whose residual is the equation — Dsl.v: explicit/implicit evaluation, assemble, setReference, solve; sums of contributions. [Properties_DslAssembly.v]
* **C47** (proved) Forward Euler advances exactly by the explicit right-hand side — TimeInt.v: forwardEuler.hpp; induction on steps. [Properties_TimeInt.v]
* **C48** (proved) Backward Euler solves the implicit equation — TimeInt.v: backwardEuler.hpp with the linear solver as a relation. [Properties_TimeInt.v]
* **C49** (proved) Runge-Kutta integration accepts only supported schemes and matches forward Euler — TimeInt.v, TimeIntRK.v: rungeKutta with SUNDIALS' one-stage ERK step. [Properties_RK.v]
* **C50** (proved) Courant number is the largest cell Courant number — CoNum.v. [Properties_CoNum.v]
* **C51** (proved) Copying boundary data to an executor places it there — Boundary.v: BoundaryFields, DomainField, GeometricField constructors. [Properties_Boundary.v, Properties_Outcomes.v]
* **C52** (proved) Vector primitives form a vector space with inner product — Value.v. [Properties_FV.v, Properties_Outcomes.v]
* **C53** (proved) The time loop runs a fixed number of steps — Misc.v. [Properties_Fields.v, Properties_Outcomes.v]
* **C54** (proved) Executor equality is an equivalence and guards mixed-executor operations — Exec.v, Fields.v. [Properties_Fields.v]
* **C55** (proved) Each boundary patch sees exactly its slice of every boundary array — Mesh.v: extractSubView. [Properties_Mesh.v]
* **C56** (proved) The Ginkgo backend receives the matrix it is given — CSR.v: createGkoMtx with int narrowing. [Properties_LinAlg.v]
* **C57** (proved) A range that ends at 0 means the rest of the field — REFUTED (the unrestricted claim is false of the code): {0,0} is taken as 'no range' (end==0 sentinel) and the whole field is written; C02 holds for every other range. What holds for all inputs (the statement): C57_end_zero_means_end; the _refuted theorems show the natural unrestricted claim false. [Properties_ExactCore.v, Properties_Fields.v]
* **C58** (proved) Exactly which blocks fields leak — REFUTED (the unrestricted claim is false of the code): shrinking to 0 and growing again leaks a block when realloc(p,0) returns one; C03_no_leak is the claim for allocators returning null. What holds for all inputs (the statement): C58_leaks_exactly; the _refuted theorems show the natural unrestricted claim false. [Properties_ExactMem.v, Properties_Fields.v]
* **C59** (proved) When the executors agree about a reduction with an initial value — REFUTED (the unrestricted claim is false of the code): the Serial path adds the initial value, the Kokkos path overwrites it; C06_initial_value states exactly the difference. What holds for all inputs (the statement): C59_agree_exactly; the _refuted theorems show the natural unrestricted claim false. [Properties_ExactMem.v, Properties_Fields.v]
* **C60** (proved) Exactly which out-of-range accesses a view reports — REFUTED (the unrestricted claim is false of the code): failureIndex 0 doubles as 'no failure'; C08 covers non-empty views. What holds for all inputs (the statement): C60_reports_exactly; the _refuted theorems show the natural unrestricted claim false. [Properties_ExactCore.v, Properties_Fields.v]
* **C61** (proved) What TokenList::next delivers when tokens are removed — REFUTED (the unrestricted claim is false of the code): popFront/remove do not move the cursor, so tokens are skipped; C10 covers histories without removal. What holds for all inputs (the statement): C61_next_after_removal; the _refuted theorems show the natural unrestricted claim false. [Properties_Core.v, Properties_ExactCore.v]
* **C62** (proved) Constructing a scheme from a token list consumes one token — REFUTED (the unrestricted claim is false of the code): the const token list is advanced through its mutable cursor; C11 shows that building through the dictionary copies it. What holds for all inputs (the statement): C62_direct_construction_reads_on; the _refuted theorems show the natural unrestricted claim false. [Properties_Core.v, Properties_ExactCore.v]
* **C63** (proved) Documentation under a base class name is that of the last factory registered with it — REFUTED (the unrestricted claim is false of the code): factories with the same base name overwrite each other's entry; C12_base_documentation holds for unshared names. What holds for all inputs (the statement): C63_last_factory_wins, C63_unknown_base; the _refuted theorems show the natural unrestricted claim false. [Properties_Core.v, Properties_ExactCore.v]
* **C64** (proved) How long document ids stay distinct — REFUTED (the unrestricted claim is false of the code): the counter is 32 bits wide and wraps; C15_ids_distinct is the claim up to 2^32 documents. What holds for all inputs (the statement): C64_distinct_iff; the _refuted theorems show the natural unrestricted claim false. [Properties_Database.v, Properties_ExactCore.v]
* **C65** (proved) What registering a field with a duplicate id does — REFUTED (the unrestricted claim is false of the code): with a document under the empty id, the duplicate silently hands out that document's field; C16_failures otherwise. What holds for all inputs (the statement): C65_duplicate_exactly; the _refuted theorems show the natural unrestricted claim false. [Properties_Database.v, Properties_ExactCore.v]
* **C66** (proved) Which collection names work together — REFUTED (the unrestricted claim is false of the code): a field collection named like the old-time collection of another blocks it; in a collection with the empty name fields count as unregistered. What holds for all inputs (the statement): C66_names_exactly; the _refuted theorems show the natural unrestricted claim false. [Properties_Database.v, Properties_ExactCore.v]
* **C67** (proved) Which communications share a message tag — REFUTED (the unrestricted claim is false of the code): the tag range has 32757 values, so any 32758 names collide (C67_collision), whatever the hash. What holds for all inputs (the statement): C67_same_tag_iff, C67_capacity; the _refuted theorems show the natural unrestricted claim false. [Properties_ExactMpi.v, Properties_Mpi.v]
* **C68** (proved) What the buffer protocol refuses, in which builds — REFUTED (the unrestricted claim is false of the code): isComplete of an unsized buffer returns an uninitialised variable; NF_DEBUG_ASSERT vanishes in release builds. What holds for all inputs (the statement): C68_release_refuses_nothing; the _refuted theorems show the natural unrestricted claim false. [Properties_ExactLinAlg.v, Properties_Mpi.v]
* **C69** (proved) When several communications of one communicator may be in flight — REFUTED (the unrestricted claim is false of the code): a second startComm moves the buffers, leaving the first name's view dangling (C69_second_name_dangles). What holds for all inputs (the statement): C69_exactly; the _refuted theorems show the natural unrestricted claim false. [Properties_ExactMpi.v, Properties_Mpi.v]
* **C70** (proved) Exactly which entries CSR lookup finds — REFUTED (the unrestricted claim is false of the code): the search stops at the first larger column; C23_sorted is the claim for sorted rows. What holds for all inputs (the statement): C70_lookup_exactly; the _refuted theorems show the natural unrestricted claim false. [Properties_ExactLinAlg.v, Properties_LinAlg.v]
* **C71** (proved) Where a copied matrix lives — REFUTED (the unrestricted claim is false of the code): copyToExecutor always copies to the host (SerialExecutor) unless the executors agree; convert on the GPU reads device memory as host memory. What holds for all inputs (the statement): C71_destination_exactly; the _refuted theorems show the natural unrestricted claim false. [Properties_ExactLinAlg.v, Properties_LinAlg.v]
* **C72** (proved) Exactly which matrices PETSc receives as they are — REFUTED (the unrestricted claim is false of the code): rows and columns are exchanged and empty rows shift all later rows; C26_transpose states what arrives. What holds for all inputs (the statement): C72_faithful_exactly; the _refuted theorems show the natural unrestricted claim false. [Properties_ExactLinAlg.v, Properties_LinAlg.v]
* **C73** (proved) What the single-cell mesh stores as neighbour-cell centres — REFUTED (the unrestricted claim is false of the code): the array holds area vectors instead of cell centres. What holds for all inputs (the statement): C73_single_cell_holds_areas; the _refuted theorems show the natural unrestricted claim false. [Properties_ExactLinAlg.v, Properties_Mesh.v]
* **C74** (proved) Exactly when the sparsity pattern locates its entries — REFUTED (the unrestricted claim is false of the code): offsets are stored in 8 bits; C29_rows_any_size: the rows themselves are right. What holds for all inputs (the statement): C74_located_exactly; the _refuted theorems show the natural unrestricted claim false. [Properties_ExactLinAlg.v, Properties_Sparsity.v]
* **C75** (proved) When an operator into a caller-provided field gives its value — REFUTED (the unrestricted claim is false of the code): the division by V is applied to the previous contents too; the value-returning div starts from uninitialised memory. C33 gives the exact formula. What holds for all inputs (the statement): C75_div_exactly, C75_laplacian_exactly, C75_grad_exactly, C75_div_value_exactly; the _refuted theorems show the natural unrestricted claim false. [Properties_ExactFV.v, Properties_FV.v]
* **C76** (proved) By how much the implicit divergence differs from the explicit one — REFUTED (the unrestricted claim is false of the code): the implicit form always uses upwind and treats a gradient condition as zero gradient; C34 states what it is. What holds for all inputs (the statement): C76_gradient_difference; the _refuted theorems show the natural unrestricted claim false. [Properties_Assembly.v, Properties_ExactFV.v]
* **C77** (proved) Exactly when implicit assembly is free of data races — REFUTED (the unrestricted claim is false of the code): boundary kernels update the diagonal and right-hand side without atomics; C35 covers cells with at most one boundary face. What holds for all inputs (the statement): C77_div_exactly, C77_laplacian_exactly; the _refuted theorems show the natural unrestricted claim false. [Properties_Assembly.v, Properties_ExactFV.v]
* **C78** (proved) Exactly when the explicit and the implicit Laplacian agree — REFUTED (the unrestricted claim is false of the code): the explicit form never reads gamma; C36_matches_explicit_unit_gamma for gamma = 1. What holds for all inputs (the statement): C78_agree_exactly; the _refuted theorems show the natural unrestricted claim false. [Properties_Assembly.v, Properties_ExactFV.v]
* **C79** (proved) Exactly when the explicit time derivative is scaled — REFUTED (the unrestricted claim is false of the code): the explicit form multiplies by V and never reads the scaling; C38_ddt_explicit states what it adds. What holds for all inputs (the statement): C79_scaling_exactly; the _refuted theorems show the natural unrestricted claim false. [Properties_Assembly.v, Properties_ExactFV.v]
* **C80** (proved) Source terms, and divergences of vector fields, never act — REFUTED (the unrestricted claim is false of the code): SourceTerm declares no FieldValueType, and DivOperator<Vector>::explicitOperation takes a Field<scalar>, so the wrapper drops both; C39 covers the others. What holds for all inputs (the statement): C80_source_terms_ignored, C80_vector_divergence_ignored; the _refuted theorems show the natural unrestricted claim false. [Properties_Dsl.v, Properties_ExactDsl.v]
* **C81** (proved) At which length scales interpolation weights are right — REFUTED (the unrestricted claim is false of the code): the degenerate case is detected by an absolute threshold 1e-18 on area*distance; C41_weights above it. What holds for all inputs (the statement): C81_weight_exactly; the _refuted theorems show the natural unrestricted claim false. [Properties_ExactApp.v, Properties_Geometry.v]
* **C82** (proved) Exactly what the patch interface provides — REFUTED (the unrestricted claim is false of the code): patchEnd() returns the start; 'extrapolated' is not registered for surface fields. What holds for all inputs (the statement): C82_patch_end_exactly, C82_surface_extrapolated_exactly; the _refuted theorems show the natural unrestricted claim false. [Properties_Boundary.v, Properties_ExactApp.v]
* **C83** (proved) What explicit time derivatives in expressions contribute — REFUTED (the unrestricted claim is false of the code): DdtOperator::explicitOperation ignores its coefficient and multiplies by V, and assemble multiplies by V again. What holds for all inputs (the statement): C83_scaling_ignored, C83_explicit_ddt_assembly_exactly; the _refuted theorems show the natural unrestricted claim false. [Properties_Dsl.v, Properties_DslAssembly.v, Properties_ExactDsl.v]
* **C84** (proved) What a solve does when its pattern differs from the operators' — REFUTED (the unrestricted claim is false of the code): the step and solve() build a new pattern whose parallel slot order can differ from the cached one the operators use; C46_solve_system, C48 for the same pattern. What holds for all inputs (the statement): C84_solve_exactly, C84_backward_euler_exactly; the _refuted theorems show the natural unrestricted claim false. [Properties_DslAssembly.v, Properties_ExactPattern.v, Properties_TimeInt.v]
* **C85** (proved) What a forward-Euler step integrates — REFUTED (the unrestricted claim is false of the code): only the explicit spatial operators are evaluated; C47 states the step. What holds for all inputs (the statement): C85_only_explicit_operators; the _refuted theorems show the natural unrestricted claim false. [Properties_ExactDsl.v, Properties_TimeInt.v]
* **C86** (proved) What a backward-Euler step ignores — REFUTED (the unrestricted claim is false of the code): the explicit source is computed and not used, boundary conditions are not corrected, the solver is built from fvSchemes; C48 for implicit operators. What holds for all inputs (the statement): C86_explicit_operators_ignored, C86_boundary_unchanged, C86_solution_dictionary_ignored; the _refuted theorems show the natural unrestricted claim false. [Properties_ExactDsl.v, Properties_TimeInt.v]
* **C87** (proved) What a Runge-Kutta integrator continues from — REFUTED (the unrestricted claim is false of the code): boundary values are not corrected; a retained integrator continues from its own copy; C49 for cell values. What holds for all inputs (the statement): C87_continues_from_own_copy, C87_boundary_unchanged; the _refuted theorems show the natural unrestricted claim false. [Properties_ExactDsl.v, Properties_RK.v]
* **C88** (proved) Exactly when the Courant number is non-negative — REFUTED (the unrestricted claim is false of the code): on a mesh without cells the lowest representable number is returned; C50 otherwise. What holds for all inputs (the statement): C88_courant_exactly; the _refuted theorems show the natural unrestricted claim false. [Properties_CoNum.v, Properties_ExactApp.v]
* **C89** (proved) Which executor boundary data, geometric fields and patch ranges are on — REFUTED (the unrestricted claim is false of the code): exec_ is copied from the source; data of a domain field stay where they were; ranges dereference device memory. C51_data: the arrays themselves are placed right. What holds for all inputs (the statement): C89_exec_exactly, C89_geometric_field_exactly, C89_range_exactly; the _refuted theorems show the natural unrestricted claim false. [Properties_Boundary.v, Properties_ExactApp.v]
* **C90** (proved) Which systems Ginkgo receives unchanged — REFUTED (the unrestricted claim is false of the code): indices are narrowed to int; C56 for systems that fit. What holds for all inputs (the statement): C90_ginkgo_exactly; the _refuted theorems show the natural unrestricted claim false. [Properties_ExactLinAlg.v, Properties_LinAlg.v]
* **C91** (proved) The implicit transport program solves the transport equation — FrontEnd.v: imp::/exp:: functions as builders; program = builders + equation (Dsl.v) + time loop (TimeInt.v). The law of a step is stated in Transport.v from mesh and fluxes only; derived from C48, both directions. [Properties_Transport.v]
* **C92** (proved) Implicit transport conserves the transported quantity — Transport.v, TransportProofs.v: sum of cell balances telescopes over internal faces; induction on steps. [Properties_Transport.v]
* **C93** (proved) Implicit transport is monotone and bounded — TransportProofs.v: the discrete operator is an M-matrix; extremal-cell argument over Qc; induction on steps. [Properties_Transport.v]
* **C94** (proved) The transport result is unique — From C93's comparison, twice. [Properties_Transport.v]
* **C95** (proved) Explicit upwind transport: exact step, conservation and boundedness under the reported Courant number — From C47 and C50; convex-combination argument under the Courant bound. [Properties_Transport.v]
* **C96** (proved) Explicit operators: each face contribution enters exactly once, in any arithmetic — FV.v is parametric in the value type; no law is assumed. KernelAnyArith.v: every interleaving of atomic additions is a permutation of the statements (induction on the schedule), and every permutation happens; FVAnyArith.v: contributions per cell; Properties_AnyArith.v: theorems; Properties_Binary64.v: Flocq's executable binary64 shows that the order matters. [Properties_AnyArith.v, Properties_Binary64.v]
* **C97** (proved) Explicit operators: floating-point error and agreement of executors — C96 at R with rounded operations (Flocq's FLT format, precision 24 or 53); induction on the list of contributions with the relative error of an addition (Plus_error). [Properties_Float.v]
* **C98** (proved) The imp:: and exp:: functions make the operators their names promise — FrontEnd.v with C39; case analysis on the function called. [Properties_FrontEnd.v]
* **C99** (proved) Steady equations: the solved field satisfies the equation — SteadySolve.v: the system solve() assembles has the equation as its residual (linearity of equation values, C39/C45/C46); Properties_Steady.v: build/assemble/solve call by call, induction on the calls. [Properties_Steady.v]
* **C100** (proved) Pressure equation: the corrected flux is divergence free — C99 for the program with two operators; telescoping sum over faces for the compatibility condition. [Properties_Pressure.v]
* **C101** (proved) The uniform 1D mesh end to end: exact coefficients, gradient, Laplacian and Poisson solution — Rod.v: facts from C28, the two faces of each cell; RodCoeffs.v: the geometry scheme's arithmetic (reals for the inverse distances, rationals for the weights) face by face; Properties_Rod.v: gradient and Laplacian by field arithmetic, Poisson via C100, telescoping along the rod by induction on the position, uniqueness because the difference of two solutions is linear and vanishes at both ends. [Properties_Rod.v]
* **C102** (proved) Explicit diffusion: exact step, conservation, and a sharp step-size limit — Diffusion.v states the step, the diffusion number and the boundary influx; DiffusionProofs.v: one-step maximum principle face by face, spike field for sharpness; Properties_Diffusion.v: C47 for the program, induction on the steps; the boundary correction determines the field. [Properties_Diffusion.v]
* **C103** (proved) Perturbations of a transport problem do not grow — DiffusionProofs.v: max norm from the comparison principle (C93) applied to the shifted field; squared distance by an energy estimate (summation by parts, each face dissipates); induction on the steps with C91. [Properties_Diffusion.v]
* **C104** (proved) The uniform 1D mesh end to end: explicit advection and the diffusion limit — Properties_Advection.v: C95 gives the step on the generated mesh; binomial closed form by induction on the number of steps (Pascal's rule), the inlet as an infinite upstream of inlet values; the diffusion limit is C102 with the coefficients of the generated mesh computed for every N. [Properties_Advection.v]
* **C105** (proved) Floating-point reductions: error bound, agreement of executors, exact maximum — Properties_Reduce.v: Reduce.v's join trees evaluated with rounded addition (Flocq); induction on the tree gives the error of every join order; Rmax selects one of its arguments; binary64 counterexample computed. [Properties_Reduce.v]
* **C106** (proved) Collective reductions: every rank gets the same, correct value — Collective.v: getOp, getType and MPI_Allreduce as any tree over any permutation of the ranks' values, with machine integers, floats and bools; Properties_Collective.v: induction on the tree for each class of type. [Properties_Collective.v]
* **C107** (proved) A call of solve() that throws can be repeated — Failure.v adds to the model of solve() what survives a throw; Properties_Failure.v: it agrees with TimeInt.v on the possible exceptions, then case analysis of the throw points; building operators twice is building them once. [Properties_Failure.v]
* **C108** (proved) Debug and release builds compute the same — Properties_Debug.v: a relation `same except that the debug build ends the program where the release build throws' carried through solve and the time loop; a relation `request noticed earlier' between the two builds' buffers carried through every call by induction on the history. [Properties_Debug.v]
* **C109** (proved) Implicit assembly in floating point: what is added where, and what is reproducible — KernelMixed.v: race-free kernels that mix plain and atomic updates apply their statements in some order (invariant over all interleavings of loads and stores), and every order of the iterations is possible; AssemblyAnyArith.v: the terms each slot receives, from the face kernels and the injectivity of the pattern's slots; Properties_AssemblyAny.v: the operators, reproducibility, and Flocq's rounding for the error bound. [Properties_AssemblyAny.v]
* **C110** (proved) Domain and volume fields are values: copy, move, assignment, destruction — DomainMem.v: a domain field as seven Field objects on FieldMem's heap, member-wise constructors, assignment and destructor; DomainSpec.v: the same operations on plain values; DomainMemProofs.v: simulation over all histories, by the field-level refinement of C03 and a column argument for member-wise operations; VolumeObj.v, Properties_VolumeObj.v: registration data of copies, executors of registered copies. [Properties_Domain.v, Properties_VolumeObj.v]
* **C111** (proved) Up to which sizes the integer types suffice — Widths.v: the conversions and additions in label, localIdx, int and size_t, parameterised by the width; Properties_Widths.v: the wrapping scan is the exact scan of Reduce.v modulo 2^w (simulation over chunks and passes), the rest by arithmetic modulo powers of two. [Properties_Widths.v]
* **C112** (proved) Copies of a mesh and the geometry and sparsity objects attached to it — MeshObj.v: meshes with their stencil entries, reference-counted stencil objects carrying the address of the mesh they were built for, operators as holders; MeshObjSpec.v: the same history on plain values (contents, origin); MeshObjProofs.v: counts equal references, entries built from equal contents, one object per origin and kind, and simulation of the specification, by induction over histories. [Properties_MeshObj.v]
* **C113** (proved) Steady transport and pressure: bounds, and when the result is determined — SteadyMax.v: a cell where the difference of two balanced fields is largest passes it on to every cell it feels, so the cells where it is largest form a group that is cut off; comparison, bounds and uniqueness follow. Properties_SteadyMax.v: transfers to runs of solve() through C99. [Properties_SteadyMax.v]
* **C114** (proved) The solved equations have a solution — LinearSolve.v: n affine equations in n unknowns with at most one solution have one (n+1 vectors with n coordinates are dependent, by induction); WellPosed.v: the discrete equations are affine in the cell values, uniqueness is C93/C113; for pure gradient conditions the first equation is replaced by fixing a level and follows from the others by the total balance. [Properties_WellPosed.v]
* **C115** (proved) Face values, face gradients and whole explicit operators in floating point, against the exact formulas — FloatFaces.v: rationals as reals, rounding errors of w a + (1-w) b and k (b - a) by Flocq's error lemmas, monotonicity of rounding for signs, exactness of halving; FloatTotal.v: the exact formulas of FVSpec.v over the reals (instance real_value) and the combination of per-face errors with the summation error of C97; Properties_FloatFaces.v: both transferred to every outcome of the operators; binary64 counterexample computed. [Properties_FloatFaces.v]
* **C116** (proved) solve() selects integrator and linear solver by name — Properties_Select.v: the dispatch of TimeInt.v (dsl_solve, timeIntegration_solve, solver_create) against an independent reading of the dictionary entry (names) and of handing a result on (passes). [Properties_Select.v]
* **C117** (proved) Time integrators and linear solvers as objects: copies, moves, dictionaries — Integrators.v: dictionaries, integrators and solvers as a store of objects with construction, copy, move, destruction and use; Properties_Integrators.v: what an operation preserves of an object (frame lemma), by induction over the history, and the steps of TimeInt.v through it. [Properties_Integrators.v]
* **C118** (proved) What solve() returns with the PETSc backend — Petsc.v: the PETSc solver as a whole on the COO system of CSR.v, and the specification of transposed equations by responses to unit fields; Properties_Petsc.v: residual = assembled row sums (C26 for the transposition), then the steps of C99/C48; symmetry of the Laplacian by summation by parts. [Properties_Petsc.v]
* **C119** (proved) What solve() returns with the Ginkgo backend — GinkgoSolve.v: executor mapping, constructor and solve of GinkgoSolver on the matrix of CSR.v and the settings of Ginkgo.v, Ginkgo itself being any relation; Properties_GinkgoSolve.v: the matrix handed over (C56) has the residual of the assembled system, then the steps of C99/C48; every scheme an operator reads is an entry Ginkgo cannot take (C27). [Properties_GinkgoSolve.v]
* **C120** (proved) Discretised equations as objects are snapshots — EquationObj.v: programs over operator objects, expressions and equation objects on the heap of Dsl.v; EquationProofs.v: the operators inside equation objects are not reachable by the program (invariant by induction over the history), so their contents persist and assembly (C46) depends on contents only. [Properties_Equation.v]
* **C121** (proved) Whole explicit runs are reproducible to the last bit — TimeAny.v: the forward Euler step, solve() and the time loop of TimeInt.v for any ValueType (equal to TimeInt.v for exact scalars: C121_exact_*); TimeAnyProofs.v: each operator's outcome is unique where the order of a cell's terms cannot matter (C96), fields and boundary conditions are computed elementwise (C01, C43), induction over the steps. [Properties_Reproducible.v]
* **C122** (proved) SUNDIALS vector objects share, hand over and lose their vector — SkVector.v: programs over SKVector objects with N_Vectors as a store of live and deleted vectors; SkVectorProofs.v: invariant by induction over the history (one owner per vector, owners' vectors alive, handles refer to allocated vectors, deleted vectors stay deleted). [Properties_SkVector.v]
* **C123** (proved) The MPI session of a process — MpiSession.v: MPIInit and MPIEnvironment objects with the MPI standard's rules for Init, Finalize, Comm_rank and Abort; exact characterisation of the correct programs by induction over the program in each phase. [Properties_MpiSession.v]
* **C124** (proved) A run of explicit upwind transport in float or double stays close to the exact run — FloatRun.v: the program in float/double and in exact real arithmetic (the same time loop, TimeAny.v, at two arithmetics); one step's rounding defect from C115 and the two roundings of the update, stability of the exact step (an upwind step is a convex combination), induction over the steps. [Properties_FloatExact.v, Properties_FloatRun.v]
* **C125** (proved) Whole implicit runs are reproducible to the last bit — ImplicitAny.v: dsl::solve with backward and forward Euler steps and steady equations for every ValueType (TimeInt.v is the instance with exact scalars: C125_exact). Serial loops are deterministic and write every entry that is read (ImplicitAnyProofs.v: `single`, composed along the program); induction over the calls. [Properties_ImplicitRuns.v]
* **C126** (proved) The total distance between two transport runs never grows — TotalDistance.v: the difference of two fields is split into the parts where one and where the other is larger; each part is advanced as a field of its own, stays non-negative (C95/C102 bounds) and its content does not grow (flux balance over the boundary). Implicit: sign of the difference times the cell law, summed over the cells. Induction over the steps of C91, C95, C102. [Properties_TotalDistance.v]
* **C127** (proved) Transport along the uniform 1D mesh creates no oscillations — NoOscillation.v: the differences of neighbouring values of the profile are advanced by non-negative coefficients taking at most the whole from each difference (explicit), or satisfy such a relation with the new differences (implicit); hence positive and negative parts do not grow (Harten's argument). Induction over the steps of C91, C95, C102; the coefficients come from the generator, weights and deltas of the uniform 1D mesh (C28, C104). [Properties_NoOscillation.v]
* **C128** (proved) The Courant number reported in float or double — CoNumFloat.v models coNum.cpp with every operation rounded (Flocq), including sqrt(f*f) and the double literal 0.5; FaceSums.v: every execution adds the contributions of a cell's faces once each, in some order. Multiplicative error bounds ('each is at most (1+u)^k times the other') are composed over square, root, sum, quotient, maximum and scaling. [Properties_CoNumFloat.v]

## Trusted base
* **Coq's kernel** (8.16.1) with its conversion and `vm_compute`. No `native_compute`, no plugins, no switched-off checks, no axioms of our own, no module types or functors.
* **`Print Assumptions`**: every theorem named in MANIFEST.json is "Closed under the global context", except those that use the standard library's real numbers: `C41_delta_coeffs`, `C41_nonOrth_delta_coeffs`, `C52_mag`, `C101_*` and `C104_diffusion_limit` list `ClassicalDedekindReals.sig_not_dec`, `ClassicalDedekindReals.sig_forall_dec` and `FunctionalExtensionality.functional_extensionality_dep`; `C105_max_exact` lists the last two; `C53_exact_model`, `C53_counter`, `C96_order_matters`, `C97_*`, the other `C105_*`, `C106_*`, `C109_diagonal_error`, `C109_one_dimension_bitwise`, `C115_*` and `C121_one_dimension` list these three and `Classical_Prop.classic` (all of them axioms of the standard library; Flocq adds none). Loading std++ / the Reals library brings further standard-library axioms into the environment, which no theorem uses.
* Libraries: the Coq standard library and std++ (lists, finite maps; axiom free), and for C96/C97 Flocq (rounding, no axioms of its own).
* **The reading of the C++ code**: that the Gallina definitions say what the cited lines say. Sources of error we know of:
  * numbers are exact except in C96, C97, C105, C106 and C109 (any arithmetic; float and double without overflow); elsewhere rounding, overflow and NaN of `scalar` are not modelled. Integers are unbounded naturals except where the code narrows them (8-bit pattern offsets, 32-bit document ids, `int` indices for Ginkgo, 64-bit hashes) and in C111 (labels, segment offsets, MPI counts at any width), where the wrap-around is explicit;
  * shared memory is sequentially consistent; a data race is modelled by its interleavings, although in C++ it is undefined behaviour (so `*_race_refuted` under-approximates, the positive theorems prove the absence of conflicting accesses);
  * `Kokkos::parallel_for/reduce/scan`, `kokkos_malloc/realloc/free`, `MPI_Isend/Irecv/Test`, Ginkgo, PETSc and SUNDIALS are modelled by their documented interface only. The linear solver is a parameter (a relation); theorems that need exactness say so (`exact_solver`). MPI channels are FIFO per (source, destination, tag); SUNDIALS' ERK step with the Forward-Euler table is `y + h f(t,y)`;
  * compile-time decisions (concepts, `if constexpr`, overload resolution) are transcribed by hand as case distinctions on what each class declares;
  * exceptions thrown by allocation, I/O and logging are ignored.

## What is modelled, file by file
| model | code |
|---|---|
| Base, Par, Exec | executor/*.hpp, parallelAlgorithms.hpp parallelFor |
| Fields, FieldMem | fields/field.hpp, fieldFreeFunctions.hpp, executor alloc/realloc/free |
| Reduce | parallelReduce, parallelScan, fields/operations/sum.hpp, segmentedField.hpp |
| Misc | view.hpp (debug checks), time.hpp |
| Dict | dictionary.hpp/.cpp, tokenList.hpp/.cpp, input.hpp |
| Registry | runtimeSelectionFactory.hpp, operator/scheme factories of divOperator, laplacianOperator, surfaceInterpolation, faceNormalGradient, gaussGreen*; stencilDataBase.hpp/.cpp, readOrCreate functions |
| Database | core/database/*.hpp, src/core/database/*.cpp |
| Mpi | core/mpi/halfDuplexCommBuffer, fullDuplexCommBuffer, mesh/unstructured/communicator |
| CSR, Ginkgo | linearAlgebra/CSRMatrix, linearSystem, utilities, petscSolverContext, ginkgo.cpp (parse) |
| Value | primitives/scalar.hpp, vector.hpp |
| Mesh | mesh/unstructured/unstructuredMesh, boundaryMesh |
| Kernel, Ticket | kernel bodies with atomic add / fetch-add |
| Coeff | dsl/coeff.hpp, src/dsl/coeff.cpp |
| FV | interpolation/{linear,upwind}, faceNormalGradient/uncorrected, explicit parts of gaussGreenDiv, gaussGreenGrad, gaussGreenLaplacian, surfaceIntegrate |
| Assembly | implicit parts of gaussGreenDiv, gaussGreenLaplacian, sourceTerm, ddtOperator |
| Sparsity | linearAlgebra/sparsityPattern, stencil/cellToFaceStencil |
| Geometry | stencil/basicGeometryScheme |
| Boundary | boundary/*, fields/boundaryFields.hpp, domainField.hpp, geometricField.hpp, volumeField/surfaceField correctBoundaryConditions |
| DomainMem, DomainSpec, VolumeObj | domainField.hpp, boundaryFields.hpp (object lifetime: constructors, copy, move, assignment, destruction), volumeField.hpp constructors, CreateFromExistingField's placement; DomainField(exec) and two SurfaceField constructors call constructors that do not exist and are left out |
| Widths | the conversions between label, localIdx, int and size_t in segmentedField.hpp, unstructuredMesh.cpp, boundaryPatchMixin.hpp, halfDuplexCommBuffer.cpp, sparsityPattern.hpp, field.hpp |
| MeshObj | implicit copy/move/destruction of unstructuredMesh.hpp:UnstructuredMesh with its StencilDataBase; readOrCreate of geometryScheme.cpp and sparsityPattern.cpp; mesh() of sparsityPattern.hpp; the shared pointers held by operators |
| SteadyMax, LinearSolve, WellPosed | nothing new: specification and proofs about the programs of C91, C100 and imp::div - imp::laplacian |
| CoNum | auxiliary/coNum.cpp |
| Dsl | dsl/{operator,spatialOperator,temporalOperator,expression,solver}, finiteVolume/cellCentred/dsl/expression.hpp |
| TimeInt | timeIntegration/{timeIntegration,forwardEuler,backwardEuler,rungeKutta,sundials} |
| FrontEnd | dsl/implicit.hpp, dsl/explicit.hpp, src/dsl/explicit.cpp |
| KernelAnyArith, FVAnyArith | no new code: kernels of atomic additions and the explicit operators without any law of arithmetic |
| Properties_Float, Properties_Binary64 | primitives/scalar.hpp (float or double) |
| FloatFaces, FloatTotal, Properties_FloatFaces | no new code: rounding errors of face values and of whole explicit operators |
| Properties_Outcomes | existence of an outcome for the operations of C01–C06; `loop_scalar` models include/NeoFOAM/core/time.hpp:38-43 in floating point |
| Properties_Select | no new code: which solver/integrator the dictionaries select (C116) |
| Petsc | linearAlgebra/petsc.hpp:78-114 solve, KSPSolve being exact |
| GinkgoSolve | linearAlgebra/ginkgo.hpp, utilities.cpp getGkoExecutor, createGkoDense; Ginkgo is any relation |
| EquationObj | fvcc::Expression (finiteVolume/cellCentred/dsl/expression.hpp) as an object, programs using operator objects and expressions |
| TimeAny | forward Euler, dsl::solve and the time loop in any arithmetic |
| FloatRun, Properties_FloatRun, Properties_FloatExact | no new code: distance of a floating-point run from the exact run |
| ImplicitAny, ImplicitAnyProofs, Properties_ImplicitRuns | dsl::solve with backward/forward Euler and steady equations, in any arithmetic |
| TotalDistance, Properties_TotalDistance | total (L1) distance between two runs |
| NoOscillation, Properties_NoOscillation | rises and falls of the profile along the uniform 1D mesh |
| FaceSums, CoNumFloat, Properties_CoNumFloat | the Courant number in float and double |
| SkVector | SUNDIALS vector objects (SKVector): copies, moves, handles |
| MpiSession | MPIInit, MPIEnvironment: the MPI session of a process |
| Integrators | timeIntegration/timeIntegration.hpp and linearAlgebra/solver.hpp as objects, the clone functions, src/timeIntegration/rungeKutta.cpp:9-22 |
| Transport | specification only: the discrete transport equation |
| LeakProofs | no new code: which histories of FieldMem.v leak blocks (C58) |
| KernelRace, AssemblyRace | no new code: interleavings of the kernels of Kernel.v and Assembly.v (general lost-update theorems) |
| Properties_Exact* | no new code: the exact conditions under which the refuted claims hold |

## What is not modelled
* Logging, error-message text, demangling, `info.hpp`, schema/doc strings' contents, argc/argv at MPI start-up.
* The arithmetic of PETSc, Ginkgo and SUNDIALS, and their error reporting and resource handling.
* Host/device copies are modelled by their effect on contents and place, not by streams or fences.
* Code that does not compile when instantiated is modelled by its evident intent, with a comment: `operator&` of the finite-volume expression binds three names to a two-member view; `setReference` indexes a Field with a deleted `operator[]`; `Expression::assemble` calls members with other signatures. `Expression::solve` always terminates ("No linear solver available" / "Not implemented").
