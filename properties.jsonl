{"id": "C01", "title": "Field arithmetic is element-wise and all-or-nothing", "statement": "For fields a and b on the same executor, a+=b, a-=b, a*=s, a*=b and the value-returning +,-,* compute the operation on every element independently, keep a's size, never change b; if the sizes differ the field-field operations throw and leave a exactly as it was.", "quantifier": "all field lengths, all contents, all scalar factors, every schedule of the element kernel", "why_tests_cant": "Element counts and contents are unbounded, and the claim includes that nothing else changes and that a failed operation has no effect.", "anchors": ["include/NeoFOAM/fields/field.hpp: Field::operator+=, -=, *=", "include/NeoFOAM/fields/fieldFreeFunctions.hpp: fieldBinaryOp, add, sub, mul, scalarMul"]}
{"id": "C02", "title": "A range-restricted fill/map/setField writes exactly the requested index range", "statement": "fill(a,v,{s,e}), map(a,f,{s,e}) and setField(a,b,{s,e}) with e > 0 change exactly the elements with s <= i < e and leave every other element unchanged; without a range they cover the whole field (the explicit empty range ending at 0 is C57).", "quantifier": "all fields, all ranges s <= e <= size with e > 0, all values/functions", "why_tests_cant": "The set of ranges is unbounded; the sentinel end==0 makes one explicitly empty range special, which sampling misses.", "anchors": ["include/NeoFOAM/fields/fieldFreeFunctions.hpp: map, fill, setField"]}
{"id": "C03", "title": "Fields own their storage: deep copies, no aliasing, no leak, no double free", "statement": "After any history of constructing, copy-constructing, move-constructing, assigning, resizing, writing and destroying fields, every live non-empty field owns its own allocation, no operation touches freed storage or frees twice, writing one field never changes another, and - when the allocator returns no block for a request of size 0 - no allocation remains once all fields are destroyed (allocators that do return one: C58).", "quantifier": "all finite histories of field operations on any number of fields", "why_tests_cant": "Lifetime errors depend on the history of operations; the number of histories is unbounded.", "anchors": ["include/NeoFOAM/fields/field.hpp: Field constructors, destructor, operator=, resize"]}
{"id": "C04", "title": "Resize keeps the common prefix", "statement": "After field.resize(n) the field has size n and its first min(old size, n) elements are those it had before; assigning a field of another size makes the target equal in size and contents to the source; copying to another executor and back yields the same contents.", "quantifier": "all old sizes, new sizes and contents including 0", "why_tests_cant": "Unbounded sizes; the empty/non-empty branches choose different allocation calls.", "anchors": ["include/NeoFOAM/fields/field.hpp: Field::resize, operator=, copyToExecutor, copyToHost"]}
{"id": "C05", "title": "parallelFor visits each index of its range exactly once on every executor", "statement": "parallelFor over [s,e) runs the kernel exactly once for each index; when the kernel for index i reads and writes only slot i of the field, every interleaving of the iterations on a parallel executor gives the state the serial executor gives, and slots outside the range are unchanged.", "quantifier": "all ranges, kernels, initial contents and all interleavings of the iterations", "why_tests_cant": "The number of interleavings is exponential; a test observes one.", "anchors": ["include/NeoFOAM/core/parallelAlgorithms.hpp: parallelFor"]}
{"id": "C06", "title": "parallelReduce gives the same reduction on every executor", "statement": "A parallelReduce that starts from the identity of its operation, and sum(), return the same value on the Serial executor and on a Kokkos executor, whatever order partial results are joined in; for any other initial value the Serial executor includes it and Kokkos ignores it (so they differ: C59).", "quantifier": "all ranges, all per-index contributions, all initial values, all splittings and orderings of the joins", "why_tests_cant": "Reduction trees vary with hardware and thread count; the dependence on the initial value shows only for non-identity initial values.", "anchors": ["include/NeoFOAM/core/parallelAlgorithms.hpp: parallelReduce", "include/NeoFOAM/fields/operations/sum.hpp: sum"]}
{"id": "C07", "title": "Segment offsets are the prefix sums of the segment lengths", "statement": "segmentsFromIntervals(intervals, offsets) with offsets[0]=0 leaves offsets[k] equal to the sum of the first k intervals, returns the total, and the segments [offsets[k], offsets[k+1]) of a SegmentedField are pairwise disjoint, in order, and cover every value index exactly once; each has the requested length.", "quantifier": "all interval lists (any length, zero lengths included), every valid chunked execution of the scan", "why_tests_cant": "Lists of any length with arbitrary zero entries; the scan order on parallel back-ends is not fixed.", "anchors": ["include/NeoFOAM/fields/segmentedField.hpp: segmentsFromIntervals, SegmentedField, SegmentedFieldView", "include/NeoFOAM/core/parallelAlgorithms.hpp: parallelScan"]}
{"id": "C08", "title": "Debug bounds checking of View reports every out-of-range access", "statement": "With debug checks and abort disabled, after any sequence of element accesses a non-empty View reports success exactly when all accessed indices were inside the view, and otherwise reports the first offending index; with abort enabled the first offending access aborts (empty views: C60).", "quantifier": "all non-empty views, all access sequences (abort: all views)", "why_tests_cant": "Arbitrary access sequences including index 0 on an empty view.", "anchors": ["include/NeoFOAM/core/view.hpp: View::operator[], failureIndex"]}
{"id": "C09", "title": "Dictionary behaves as a finite map from strings to typed values", "statement": "After any sequence of insert, remove, and subDict updates, contains(k)/found(k)/get<T>(k)/keys() answer as a finite map whose last insert for k wins; get on a missing key throws; get with the wrong type throws; operations on one key never change another; list-initialisation keeps the first of duplicate keys.", "quantifier": "all operation histories, all keys, values and types", "why_tests_cant": "Unbounded histories.", "anchors": ["include/NeoFOAM/core/dictionary.hpp: Dictionary", "src/core/dictionary.cpp"]}
{"id": "C10", "title": "TokenList::next delivers the tokens in order, each exactly once", "statement": "Successive successful next<T>() calls return the tokens in list order, each once, also when tokens are inserted at the end or changed in between, as long as no token is removed; a call whose type does not match throws and does not consume the token; reading past the end throws and consumes nothing (removal: C61).", "quantifier": "all token lists and all histories of insert/next/get without removal", "why_tests_cant": "The cursor is hidden state that interacts with removals only in particular orders.", "anchors": ["include/NeoFOAM/core/tokenList.hpp: TokenList", "src/core/tokenList.cpp"]}
{"id": "C11", "title": "Building an operator from the scheme dictionary is repeatable", "statement": "Building a div/laplacian operator from the scheme dictionary selects the factory named by the first token of the entry, the interpolation scheme by the second (and the surface-normal-gradient scheme by the third), and leaves the dictionary unchanged so that building again selects the same schemes; an operator constructed directly from tokens selects by the token at the cursor (which it advances: C62).", "quantifier": "all dictionaries, all scheme token lists, any number of builds", "why_tests_cant": "The hidden cursor of the shared token list is advanced during construction; only repeated builds in arbitrary order reveal it.", "anchors": ["include/NeoFOAM/finiteVolume/cellCentred/operators/divOperator.hpp: DivOperator::build, DivOperatorFactory::create", "include/NeoFOAM/finiteVolume/cellCentred/operators/laplacianOperator.hpp: LaplacianOperator::build", "include/NeoFOAM/finiteVolume/cellCentred/interpolation/surfaceInterpolation.hpp: SurfaceInterpolationFactory::create", "include/NeoFOAM/finiteVolume/cellCentred/operators/gaussGreenLaplacian.hpp"]}
{"id": "C12", "title": "Runtime selection returns the class registered under the name", "statement": "After any sequence of class registrations, create(key,args) runs the creator most recently registered under exactly that key; a key never registered terminates with an error; entries() lists exactly the registered keys; registration in one factory never affects another and the order in which distinct keys are registered is irrelevant; the documentation found under a base class name is that of its factory whenever no other factory uses the same name (shared names: C63).", "quantifier": "all registration histories over any number of factories, all keys", "why_tests_cant": "Static initialisation order is arbitrary, so every order must give the same table.", "anchors": ["include/NeoFOAM/core/runtimeSelectionFactory.hpp: RuntimeSelectionFactory, BaseClassDocumentation"]}
{"id": "C13", "title": "Mesh-attached stencils are built once and shared", "statement": "Requesting the geometry scheme or sparsity pattern of a mesh builds it on the first request only; every later request returns the identical object; requests under other names are unaffected, and insert never replaces an existing entry.", "quantifier": "all histories of readOrCreate/insert/get/remove on a mesh's stencil database", "why_tests_cant": "Depends on the history of requests.", "anchors": ["include/NeoFOAM/finiteVolume/cellCentred/stencil/stencilDataBase.hpp", "src/finiteVolume/cellCentred/stencil/geometryScheme.cpp: GeometryScheme::readOrCreate", "src/finiteVolume/cellCentred/linearAlgebra/sparsityPattern.cpp: SparsityPattern::readOrCreate"]}
{"id": "C14", "title": "Database keeps the first collection registered under a name", "statement": "After any history of insert/remove on a Database, contains/at/size behave as a finite map; inserting a name already present leaves the stored collection untouched and returns that one; at() of an absent name throws; a collection accessed with a wrong type throws and never returns a wrongly typed reference.", "quantifier": "all histories and names", "why_tests_cant": "Unbounded histories.", "anchors": ["include/NeoFOAM/core/database/database.hpp", "src/core/database/database.cpp", "include/NeoFOAM/core/database/collection.hpp: Collection::as, CollectionMixin"]}
{"id": "C15", "title": "Every document gets a distinct id", "statement": "The first 2^32 documents created without an explicit id receive pairwise different ids; a validator that rejects the document makes construction throw; a document that carries an id keeps it (more documents: C64).", "quantifier": "all creation histories of up to 2^32 documents", "why_tests_cant": "Only breaks after 2^32 creations or when ids are supplied by hand.", "anchors": ["include/NeoFOAM/core/database/document.hpp: Document", "src/core/database/document.cpp: generateID"]}
{"id": "C16", "title": "Registering a field makes it retrievable under the key it returns and disturbs nothing else", "statement": "registerField(creator) adds exactly one document; the returned field's key retrieves a document whose field is the created one and carries the given name, time index, iteration index and sub-cycle index; all earlier documents are unchanged; a created field whose validity check fails, or - while no document has the empty id - whose document id is already present, throws and leaves the collection's existing documents unchanged; a field requested at the wrong type throws but stays registered (duplicates with an empty id present: C65).", "quantifier": "all collection states and creators", "why_tests_cant": "All prior states of the collection.", "anchors": ["include/NeoFOAM/core/database/fieldCollection.hpp: FieldCollection::registerField, CreateFromExistingField", "src/core/database/fieldCollection.cpp"]}
{"id": "C17", "title": "oldTime(field) is stable and forms one chain per field", "statement": "The first request for the old-time field of f creates one copy of f (named name_0, time index one less) and records one link; any later request returns that same field without creating anything; taking the old time of an old-time field extends the chain with level one higher and the same current-time field; fields of other chains are never affected, and each field has at most one predecessor and one successor.", "quantifier": "all histories of registration and old-time requests over any number of fields", "why_tests_cant": "Chains of any length and interleavings of requests over many fields.", "anchors": ["include/NeoFOAM/core/database/oldTimeCollection.hpp: OldTimeCollection::getOrInsert, findNextTime, findPreviousTime", "src/core/database/oldTimeCollection.cpp: oldTime"]}
{"id": "C18", "title": "Obtaining a collection instance by name is idempotent", "statement": "FieldCollection::instance(db,name) and OldTimeCollection::instance(db,fields) create the collection on first use and return the same collection afterwards, whenever the name is free or holds a collection of that kind (arbitrary names: C66).", "quantifier": "all databases and all names that are free or hold a collection of the requested kind", "why_tests_cant": "Name collisions are only found by adversarial names.", "anchors": ["include/NeoFOAM/core/database/fieldCollection.hpp: FieldCollection::instance", "include/NeoFOAM/core/database/oldTimeCollection.hpp: OldTimeCollection::instance"]}
{"id": "C19", "title": "MPI message tags are valid and agree between ranks", "statement": "Every communication name maps to a tag in the range every MPI implementation supports (10..32766), the same on every rank built with the same hash function, and every message a communication posts carries the tag of its name and addresses a rank of the communicator (distinctness: C67).", "quantifier": "all names (all 64-bit hash values)", "why_tests_cant": "All hash values; collisions are rare.", "anchors": ["include/NeoFOAM/core/mpi/halfDuplexCommBuffer.hpp: bufferHash"]}
{"id": "C20", "title": "Communication buffer windows are disjoint, in bounds and sized as requested", "statement": "For any sequence of setCommRankSize and initComm (which sets the element type) calls on an idle buffer, get<T>(rank) is a window of exactly the requested number of elements, the windows of different ranks are disjoint and inside the allocation, changing the element type keeps every rank's element count, and the allocation never shrinks.", "quantifier": "all rank counts, sizes and histories of re-sizing and re-typing", "why_tests_cant": "Histories of growing and shrinking with changing element sizes.", "anchors": ["include/NeoFOAM/core/mpi/halfDuplexCommBuffer.hpp", "src/core/mpi/halfDuplexCommBuffer.cpp"]}
{"id": "C21", "title": "A communication buffer is used by at most one communication and cannot be resized while in use", "statement": "Between initComm and finaliseComm a sized buffer reports busy and, in debug builds, refuses (asserts) re-initialisation and re-sizing, and refuses to be finalised while a request is pending; after finaliseComm it is idle again and may be reused under another name; send/receive post exactly one request per rank with data; isComplete answers whether no request is pending, at once if none was posted (unsized buffers and release builds: C68).", "quantifier": "all call histories", "why_tests_cant": "Protocol violations depend on call order.", "anchors": ["include/NeoFOAM/core/mpi/halfDuplexCommBuffer.hpp: initComm, isActive, send, receive, isComplete, finaliseComm", "include/NeoFOAM/core/mpi/fullDuplexCommBuffer.hpp"]}
{"id": "C22", "title": "Halo exchange delivers each rank's send-map values to the matching receive-map cells", "statement": "After every rank has run startComm and finaliseComm for the same name with matching maps, the field entry at the k-th receive index for rank r on rank q equals the entry at the k-th send index for rank q on rank r, and all other entries are unchanged; this holds for any message delivery order, the exchange never deadlocks and every execution ends (several communications of one communicator in flight: C69).", "quantifier": "all rank counts, maps, fields and delivery orders, one communication in flight per communicator", "why_tests_cant": "Delivery order and overlapping communications are schedule dependent; buffer growth moves storage.", "anchors": ["include/NeoFOAM/mesh/unstructured/communicator.hpp: Communicator", "src/mesh/unstructured/communicator.cpp"]}
{"id": "C23", "title": "CSR entry lookup returns the stored coefficient", "statement": "On a matrix whose rows have sorted columns view.entry(i,j) returns (a reference to) the coefficient stored for row i, column j whenever the matrix stores one and aborts exactly when none is stored; on any matrix what it returns is stored at (i,j), and writes through it change that coefficient only (unsorted rows: C70).", "quantifier": "all CSR matrices with sorted rows (soundness and writes: all CSR matrices), all (i,j)", "why_tests_cant": "The early-exit scan depends on column order within a row.", "anchors": ["include/NeoFOAM/linearAlgebra/CSRMatrix.hpp: CSRMatrixView::entry"]}
{"id": "C24", "title": "Copying a matrix or system to an executor keeps its contents", "statement": "copyToExecutor(dst) of a CSR matrix yields one with the same values, column indices and row pointers; copyToHost of a matrix or linear system gives the same one on the host; on host executors converting the element types keeps the pattern and casts each value (destination executor, conversion on the GPU: C71).", "quantifier": "all matrices, systems and executor pairs", "why_tests_cant": "Executor pairs not available on the test machine.", "anchors": ["include/NeoFOAM/linearAlgebra/CSRMatrix.hpp: CSRMatrix::copyToExecutor, convert", "include/NeoFOAM/linearAlgebra/linearSystem.hpp: LinearSystem::copyToHost, convertLinearSystem"]}
{"id": "C25", "title": "spmv and residual compute A x - b row by row", "statement": "For every CSR system and vector, spmv / operator& gives for each row the sum of the stored coefficients times the vector entries minus the right-hand side, identically for every schedule; rows without entries give -b; reset() makes every coefficient and right-hand side zero and keeps the pattern; building an empty system from a sparsity pattern yields zero coefficients on exactly that pattern.", "quantifier": "all systems, all vectors, all schedules", "why_tests_cant": "Unbounded matrices.", "anchors": ["src/linearAlgebra/utilities.cpp", "include/NeoFOAM/linearAlgebra/linearSystem.hpp", "include/NeoFOAM/finiteVolume/cellCentred/dsl/expression.hpp: operator&"]}
{"id": "C26", "title": "The PETSc backend assembles symmetric matrices as given", "statement": "For every CSR system without empty rows the COO triplets handed to PETSc denote the transpose of its matrix, and the right-hand side; for a symmetric matrix therefore the matrix itself (non-symmetric matrices, empty rows: C72).", "quantifier": "all CSR systems without empty rows", "why_tests_cant": "Typical test matrices are symmetric with full diagonals, which hides a transpose and empty rows.", "anchors": ["include/NeoFOAM/linearAlgebra/petscSolverContext.hpp: initialize"]}
{"id": "C27", "title": "Solver settings reach Ginkgo unchanged", "statement": "The property tree built from a solver dictionary has the same keys, nesting and values as the dictionary; a value of an unsupported type throws.", "quantifier": "all dictionaries of any nesting depth", "why_tests_cant": "Unbounded nesting.", "anchors": ["src/linearAlgebra/ginkgo.cpp: parse"]}
{"id": "C28", "title": "The uniform 1D mesh is a valid mesh for every cell count", "statement": "For every n >= 1 create1DUniformMesh(n) has n cells of volume 1/n, n-1 internal faces with owner < neighbour joining consecutive cells in order, two boundary faces owned by the first and last cell with outward area vectors, cell and face centres at the expected places, area vectors closing every cell, and consistent boundary arrays; so has the single-cell mesh, except for the neighbour-cell centres of its boundary (C73).", "quantifier": "all cell counts", "why_tests_cant": "All sizes.", "anchors": ["src/mesh/unstructured/unstructuredMesh.cpp: create1DUniformMesh, createSingleCellMesh", "src/mesh/unstructured/boundaryMesh.cpp"]}
{"id": "C29", "title": "The sparsity pattern has exactly the face-neighbour structure, for every schedule", "statement": "For every mesh whose rows have at most 256 entries and every interleaving of the parallel assembly, row c of the pattern contains c and each cell sharing an internal face with c once per such face and nothing else; the owner/neighbour/diagonal offsets of each face and cell locate exactly the entries (owner,neighbour), (neighbour,owner) and (c,c); no two locate the same slot; the number of entries is cells + 2*internal faces; the rows are right for cells with any number of faces (offsets of larger rows: C74).", "quantifier": "all meshes (offsets: rows of at most 256 entries), all interleavings of the atomic slot allocation", "why_tests_cant": "Interleavings and the 8-bit offset range.", "anchors": ["src/finiteVolume/cellCentred/linearAlgebra/sparsityPattern.cpp: SparsityPattern::update", "include/NeoFOAM/finiteVolume/cellCentred/linearAlgebra/sparsityPattern.hpp"]}
{"id": "C30", "title": "Rows are sorted when assembled serially from an ordered mesh", "statement": "On the serial executor and a mesh with owner < neighbour faces in upper-triangular order, each row's columns are strictly increasing, so coefficient lookup by (row, column) always finds stored entries; on parallel executors the order may differ.", "quantifier": "all upper-triangular ordered meshes", "why_tests_cant": "All meshes; schedules.", "anchors": ["src/finiteVolume/cellCentred/linearAlgebra/sparsityPattern.cpp: SparsityPattern::update", "include/NeoFOAM/linearAlgebra/CSRMatrix.hpp: CSRMatrixView::entry"]}
{"id": "C31", "title": "The cell-to-face stencil lists each cell's faces exactly once", "statement": "computeStencil() yields for every cell a segment containing every internal face owned by or neighbouring the cell and every boundary face of the cell, each exactly once, and nothing else, for every interleaving.", "quantifier": "all meshes, all interleavings", "why_tests_cant": "Interleavings of atomic slot allocation.", "anchors": ["src/finiteVolume/cellCentred/stencil/cellToFaceStencil.cpp: CellToFaceStencil::computeStencil"]}
{"id": "C32", "title": "Explicit divergence is the net face flux per volume on every executor", "statement": "The divergence of a field is, in each cell, scaling/V times the sum over its faces of outward flux times interpolated face value; the serial and atomic parallel code paths agree for every interleaving; summed with volumes over the domain only boundary fluxes remain (conservation).", "quantifier": "all meshes, fluxes, fields, scalings and interleavings", "why_tests_cant": "Interleavings; all meshes.", "anchors": ["src/finiteVolume/cellCentred/operators/gaussGreenDiv.cpp: computeDiv"]}
{"id": "C33", "title": "Operators writing to a caller-provided field give the operator's value", "statement": "div(result,...), grad(phi,gradPhi) and laplacian(result,...) called on a zero-filled result field set it to the operator's value; in general they leave scaling/V times what the field held (1/V for grad) plus the operator's value, on every executor and schedule (independence of the previous contents: C75).", "quantifier": "all meshes and all previous contents of the result field", "why_tests_cant": "Tests pass zeroed result fields.", "anchors": ["src/finiteVolume/cellCentred/operators/gaussGreenDiv.cpp: GaussGreenDiv::div", "src/finiteVolume/cellCentred/operators/gaussGreenGrad.cpp: computeGrad", "src/finiteVolume/cellCentred/operators/gaussGreenLaplacian.cpp: computeLaplacianExp"]}
{"id": "C34", "title": "The implicit divergence discretises the same operator as the explicit one", "statement": "For every mesh, flux, field and boundary data, the matrix and right-hand side assembled for an implicit divergence satisfy A phi - b = V * div(phi) with upwind face values (boundary face value from the boundary condition's reference value and value fraction), hence agree with the explicit divergence configured with upwind wherever the boundary values are those the value fractions describe; this holds on the serial executor and, on parallel ones, for meshes with at most one boundary face per cell (C35); entries outside the sparsity pattern are never touched, and contributions accumulate onto existing ones (other schemes and gradient boundaries: C76).", "quantifier": "all meshes, fluxes, fields, boundary value fractions and reference values", "why_tests_cant": "All meshes and data.", "anchors": ["src/finiteVolume/cellCentred/operators/gaussGreenDiv.cpp: computeDivImp"]}
{"id": "C35", "title": "Implicit assembly is schedule independent when cells have at most one boundary face", "statement": "On every interleaving of the parallel kernels the implicit divergence and Laplacian give the serial matrix and right-hand side, on meshes in which no cell has more than one boundary face (others: C77).", "quantifier": "all meshes with at most one boundary face per cell, and all interleavings", "why_tests_cant": "Races are schedule dependent.", "anchors": ["src/finiteVolume/cellCentred/operators/gaussGreenDiv.cpp: computeDivImp", "src/finiteVolume/cellCentred/operators/gaussGreenLaplacian.cpp: computeLaplacianImpl"]}
{"id": "C36", "title": "The implicit Laplacian matrix is symmetric, conservative and consistent with the explicit Laplacian", "statement": "The assembled Laplacian has equal (owner,neighbour) and (neighbour,owner) coefficients (for a scaling constant over the mesh), interior rows sum to zero, boundary contributions follow the mixed boundary condition, what is added sums to the boundary flux, and (serially, or with at most one boundary face per cell) A phi - b equals V times the Laplacian of phi with that diffusion coefficient, which for coefficient 1 is what the explicit operator computes (other coefficients: C78).", "quantifier": "all meshes, diffusion coefficients, fields and boundary data", "why_tests_cant": "All meshes and data; only non-unit coefficients reveal a mismatch.", "anchors": ["src/finiteVolume/cellCentred/operators/gaussGreenLaplacian.cpp: computeLaplacianExp, computeLaplacianImpl"]}
{"id": "C37", "title": "Green-Gauss gradient and surface integration", "statement": "The gradient in each cell is the sum over its faces of outward area vector times face value over the volume; a constant field on a mesh with closed cells has zero gradient; the volume-weighted sum is the boundary integral; surfaceIntegrate likewise sums face fluxes; both agree across executors for every interleaving.", "quantifier": "all meshes, fields, interleavings", "why_tests_cant": "All meshes; interleavings.", "anchors": ["src/finiteVolume/cellCentred/operators/gaussGreenGrad.cpp: computeGrad", "src/finiteVolume/cellCentred/operators/surfaceIntegrate.cpp: surfaceIntegrate"]}
{"id": "C38", "title": "Source and time-derivative operators: explicit and implicit forms agree", "statement": "explicit source adds scaling*coeff*phi to each cell; implicit source adds scaling*coeff*V to the diagonal only; the implicit time derivative adds scaling*V/dt to the diagonal and scaling*V/dt*phi_old to the right-hand side, so that A phi - b = scaling*V*(phi-phi_old)/dt; the explicit time derivative adds V*(phi-phi_old)/dt, whatever its scaling (C79).", "quantifier": "all meshes, fields, coefficients, time steps", "why_tests_cant": "All data; non-unit scaling.", "anchors": ["src/finiteVolume/cellCentred/operators/sourceTerm.cpp", "src/finiteVolume/cellCentred/operators/ddtOperator.cpp"]}
{"id": "C39", "title": "An operator placed in an equation acts", "statement": "Every spatial operator type of the library except the source term, and the divergence for scalar fields, and every user-defined type that provides the functions with the signatures the wrapper looks for, contributes to the assembled equation as placed (explicitly or implicitly) (the exceptions: C80).", "quantifier": "all operator types in the library", "why_tests_cant": "Whether the type-erased wrapper forwards is decided by a compile-time concept; a silently dropped term produces plausible results.", "anchors": ["include/NeoFOAM/dsl/spatialOperator.hpp: HasExplicitOperator, HasImplicitOperator, SpatialOperatorModel", "include/NeoFOAM/finiteVolume/cellCentred/operators/sourceTerm.hpp"]}
{"id": "C40", "title": "Face interpolation is bounded and constant preserving", "statement": "Linear interpolation gives each internal face w*owner+(1-w)*neighbour and each boundary face weight*boundary value; with weights in [0,1] the value lies between the two cell values, constant fields stay constant; upwind gives the owner value for flux >= 0 and the neighbour value otherwise; every face is written exactly once.", "quantifier": "all meshes, weights, fluxes and fields", "why_tests_cant": "All data.", "anchors": ["src/finiteVolume/cellCentred/interpolation/linear.cpp: computeLinearInterpolation", "src/finiteVolume/cellCentred/interpolation/upwind.cpp: computeUpwindInterpolation"]}
{"id": "C41", "title": "Geometry weights and delta coefficients are well defined", "statement": "Interpolation weights lie in [0,1] (1 on boundary faces, 1/2 in the degenerate case) and, wherever area times distance exceeds 1e-18, are the neighbour's fraction of the normal distance; exchanging owner and neighbour exchanges w and 1-w; they make linear interpolation bounded and exact for linear functions; delta coefficients are positive and equal 1/distance, and non-orthogonal delta coefficients are positive, at most 1/(0.05 distance) and equal the orthogonal value on orthogonal faces (tiny cells: C81).", "quantifier": "all face/cell geometry", "why_tests_cant": "All geometry.", "anchors": ["src/finiteVolume/cellCentred/stencil/basicGeometryScheme.cpp"]}
{"id": "C42", "title": "Face-normal gradient is the difference quotient across the face", "statement": "The uncorrected face-normal gradient is deltaCoeff*(neighbour-owner) on internal faces and deltaCoeff*(boundary value - owner) on boundary faces; it vanishes for constant fields and is exact for linear fields on the uniform 1D mesh.", "quantifier": "all meshes and fields", "why_tests_cant": "All data.", "anchors": ["src/finiteVolume/cellCentred/faceNormalGradient/uncorrected.cpp: computeFaceNormalGrad"]}
{"id": "C43", "title": "A boundary condition only touches its own patch", "statement": "correctBoundaryCondition on a patch modifies only boundary entries inside that patch's range, sets value/refValue/refGrad/valueFraction as its type prescribes (fixed value, fixed gradient, extrapolated, calculated, empty) and is idempotent; correcting all patches therefore gives a result independent of the order of patches; patchStart and patchSize describe that range; the type named in the patch dictionary is the one used, unknown names terminate (patchEnd, extrapolated surface fields: C82).", "quantifier": "all patch layouts, all field contents, all orders", "why_tests_cant": "All patch layouts and orders.", "anchors": ["include/NeoFOAM/finiteVolume/cellCentred/boundary/boundaryPatchMixin.hpp", "include/NeoFOAM/finiteVolume/cellCentred/boundary/volume/*.hpp", "include/NeoFOAM/finiteVolume/cellCentred/boundary/surface/*.hpp", "include/NeoFOAM/finiteVolume/cellCentred/fields/volumeField.hpp: correctBoundaryConditions"]}
{"id": "C44", "title": "Coefficient algebra", "statement": "A coefficient c built from a scalar, a field or both satisfies c[i] = scalar * field[i] (or scalar), multiplying coefficients multiplies the values pointwise, and multiplication is refused exactly when both carry a field.", "quantifier": "all coefficients and indices", "why_tests_cant": "All combinations and chains of multiplications.", "anchors": ["src/dsl/coeff.cpp: Coeff", "include/NeoFOAM/dsl/coeff.hpp"]}
{"id": "C45", "title": "Equation expressions are linear combinations of their operators", "statement": "Building an expression with +, - and scalar multiplication from operators and expressions yields one whose explicit spatial operators, and whose implicit spatial and temporal operators, contribute the corresponding signed, scaled sum; the source expressions and operators are not modified, and the order of terms does not matter; a product of two field coefficients terminates (explicit time derivatives: C83).", "quantifier": "all expression trees", "why_tests_cant": "Unbounded expression trees.", "anchors": ["include/NeoFOAM/dsl/expression.hpp: Expression", "include/NeoFOAM/dsl/spatialOperator.hpp", "include/NeoFOAM/dsl/temporalOperator.hpp"]}
{"id": "C46", "title": "Assembling an equation yields a system whose residual is the equation", "statement": "On the serial executor, and on parallel ones when no cell has several boundary faces: for an equation of implicit and explicit spatial operators and implicit time derivatives, the assembled system satisfies A psi - b = implicit operators + V * explicit operators, from whatever the system held before, and so does the system solve() builds on the pattern the operators use; setReference keeps every solution that already has the reference value (explicit time derivatives: C83; another pattern: C84).", "quantifier": "all equations, meshes, fields", "why_tests_cant": "All compositions.", "anchors": ["include/NeoFOAM/finiteVolume/cellCentred/dsl/expression.hpp: Expression::assemble, setReference, operator&", "include/NeoFOAM/dsl/solver.hpp: solve"]}
{"id": "C47", "title": "Forward Euler advances exactly by the explicit right-hand side", "statement": "One forward-Euler step sets the field to old - dt*(sum of explicit operators), re-applies boundary conditions and makes the new value the old-time value of the next step; n steps compose to the n-fold recurrence, also through solve() with the scheme dictionary (implicit operators and time-derivative coefficients: C85).", "quantifier": "all equations, fields, step sizes and numbers of steps", "why_tests_cant": "All equations and histories.", "anchors": ["include/NeoFOAM/timeIntegration/forwardEuler.hpp"]}
{"id": "C48", "title": "Backward Euler solves the implicit equation", "statement": "With an exact linear solver, every backward-Euler step of an equation whose operators are implicit ends in a field that satisfies the equation (ddt + implicit operators = 0, boundary values as before the step), which becomes the old-time value, for any number of steps, on the serial executor, and on any executor where no cell has several boundary faces and the sparsity pattern of the mesh is the only one its construction can give (explicit operators, boundary conditions, solver dictionary: C86; other patterns: C84).", "quantifier": "all equations of implicit operators, fields, step sizes and numbers of steps", "why_tests_cant": "All equations.", "anchors": ["include/NeoFOAM/timeIntegration/backwardEuler.hpp"]}
{"id": "C49", "title": "Runge-Kutta integration accepts only supported schemes and matches forward Euler", "statement": "Selecting a Butcher table: Forward-Euler is accepted, every other name terminates with an error rather than integrating with a wrong table; the cell values and old-time values after an integrated step with the Forward-Euler table equal those of the forward-Euler integrator, for any number of steps through one integrator or through solve() (boundary values, changes between steps: C87).", "quantifier": "all scheme names, equations and step sequences", "why_tests_cant": "All names; histories of solver state.", "anchors": ["src/timeIntegration/rungeKutta.cpp", "include/NeoFOAM/timeIntegration/sundials.hpp"]}
{"id": "C50", "title": "Courant number is the largest cell Courant number", "statement": "On every mesh with at least one cell computeCoNum returns max over cells of dt/2 * sum of |face flux| / V, the same for every executor and interleaving, non-negative, and scales linearly with dt (no cells: C88).", "quantifier": "all meshes with a cell, fluxes and time steps >= 0", "why_tests_cant": "All data.", "anchors": ["src/finiteVolume/cellCentred/auxiliary/coNum.cpp: computeCoNum"]}
{"id": "C51", "title": "Copying boundary data to an executor places it there", "statement": "Constructing boundary fields, domain fields or geometric fields on an executor from parts on another yields data equal to the source living on the requested executor; new boundary fields live on the executor given, with sizes and, on host executors, patch ranges from the offsets (reported executors, geometric fields from domain fields, ranges on the GPU: C89).", "quantifier": "all executors and contents", "why_tests_cant": "Executor pairs not available in tests.", "anchors": ["include/NeoFOAM/fields/boundaryFields.hpp: BoundaryFields(exec,rhs)", "include/NeoFOAM/fields/domainField.hpp"]}
{"id": "C52", "title": "Vector primitives form a vector space with inner product", "statement": "Vector +,-,scalar* are componentwise and satisfy the vector space laws, & is a symmetric bilinear positive inner product, mag is its norm.", "quantifier": "all vectors", "why_tests_cant": "All values.", "anchors": ["include/NeoFOAM/core/primitives/vector.hpp"]}
{"id": "C53", "title": "The time loop runs a fixed number of steps", "statement": "Time::loop() returns true for exactly the first ten calls, then false for ever; the counter counts the calls until it reaches 2^24 (scalar = float) or 2^53 (double), where it stays.", "quantifier": "any number of calls", "why_tests_cant": "Unbounded number of calls.", "anchors": ["include/NeoFOAM/core/time.hpp: Time::loop"]}
{"id": "C54", "title": "Executor equality is an equivalence and guards mixed-executor operations", "statement": "Executor == is reflexive, symmetric and transitive and true exactly for executors of the same kind; assigning fields of different executors terminates instead of mixing memory spaces; +=, -= and *= on fields of different executors terminate in debug builds and, in release builds, give the entrywise result if both fields are in host memory and are undefined if one is in device memory.", "quantifier": "all executor pairs", "why_tests_cant": "All combinations.", "anchors": ["include/NeoFOAM/core/executor/executor.hpp"]}
{"id": "C55", "title": "Each boundary patch sees exactly its slice of every boundary array", "statement": "BoundaryMesh accessors with a patch index return the slice [offset[i], offset[i+1]) of the corresponding array; slices of different patches are disjoint and together cover the array.", "quantifier": "all meshes and patch indices", "why_tests_cant": "All layouts.", "anchors": ["src/mesh/unstructured/boundaryMesh.cpp", "include/NeoFOAM/mesh/unstructured/boundaryMesh.hpp"]}
{"id": "C56", "title": "The Ginkgo backend receives the matrix it is given", "statement": "On host executors the Ginkgo CSR matrix built from a linear system has the system's size, values, columns and row offsets, for systems whose sizes fit an int (larger ones: C90).", "quantifier": "all linear systems, executors and schedules", "why_tests_cant": "Index narrowing only shows on very large systems.", "anchors": ["include/NeoFOAM/linearAlgebra/utilities.hpp: createGkoMtx", "include/NeoFOAM/linearAlgebra/CSRMatrix.hpp: convert"]}
{"id": "C57", "title": "A range that ends at 0 means the rest of the field", "statement": "fill, map and setField called with a range {s,0} overwrite every entry from s to the end of the field and nothing else; so the explicitly empty range {0,0} overwrites the whole field, and the natural reading (an empty range changes nothing) is false for every non-empty field.", "quantifier": "all fields, range starts, values and functions", "why_tests_cant": "The full claim is false of the code; only a counterexample in the quantified range shows it, and it lies outside what the tests sample.", "anchors": ["include/NeoFOAM/fields/fieldFreeFunctions.hpp: map, fill, setField"]}
{"id": "C58", "title": "Exactly which blocks fields leak", "statement": "For every allocator, a block remains allocated without an owning field if and only if at some point of the history its owner was empty (an allocator that returns a block for size 0) and was then resized, or assigned a non-empty field. So no history leaks if size-0 requests give no block, and the unrestricted no-leak claim is false otherwise.", "quantifier": "all histories of field operations, all allocators", "why_tests_cant": "The full claim is false of the code; only a counterexample in the quantified range shows it, and it lies outside what the tests sample.", "anchors": ["include/NeoFOAM/fields/field.hpp: Field constructors, destructor, operator=, resize"]}
{"id": "C59", "title": "When the executors agree about a reduction with an initial value", "statement": "A sum by parallelReduce over any range with any contributions comes out the same on the Serial executor and on a Kokkos executor if and only if the caller's initial value is zero: the Kokkos ones discard it. The unrestricted claim (same treatment everywhere) is false.", "quantifier": "all ranges, contributions and initial values", "why_tests_cant": "The full claim is false of the code; only a counterexample in the quantified range shows it, and it lies outside what the tests sample.", "anchors": ["include/NeoFOAM/core/parallelAlgorithms.hpp: parallelReduce", "include/NeoFOAM/fields/operations/sum.hpp: sum"]}
{"id": "C60", "title": "Exactly which out-of-range accesses a view reports", "statement": "With abort disabled, after any sequence of accesses no failure has been reported if and only if every index was in range, except index 0 of an empty view, which is never reported. The unrestricted claim (every access to an empty view is reported) is false.", "quantifier": "all view sizes and sequences of accesses", "why_tests_cant": "The full claim is false of the code; only a counterexample in the quantified range shows it, and it lies outside what the tests sample.", "anchors": ["include/NeoFOAM/core/view.hpp: View::operator[], failureIndex"]}
{"id": "C61", "title": "What TokenList::next delivers when tokens are removed", "statement": "After any history of next, insert and pop-front operations, next<T>() succeeds with v if and only if v, of type T, is the token at position (number popped + number delivered) of all tokens ever inserted: each removal makes next skip one more token. Delivery in order, each once, therefore holds exactly without removals.", "quantifier": "all token lists and histories of insertions, removals and reads", "why_tests_cant": "The full claim is false of the code; only a counterexample in the quantified range shows it, and it lies outside what the tests sample.", "anchors": ["include/NeoFOAM/core/tokenList.hpp: TokenList", "src/core/tokenList.cpp"]}
{"id": "C62", "title": "Constructing a scheme from a token list consumes one token", "statement": "Constructing an interpolation or gradient scheme directly from a token list reads the token at the cursor and leaves the cursor behind it, so k constructions from one list read k consecutive tokens; the claim that repeating the construction selects the same scheme is false.", "quantifier": "all token lists, positions and numbers of repetitions", "why_tests_cant": "The full claim is false of the code; only a counterexample in the quantified range shows it, and it lies outside what the tests sample.", "anchors": ["include/NeoFOAM/finiteVolume/cellCentred/operators/divOperator.hpp: DivOperator::build, DivOperatorFactory::create", "include/NeoFOAM/finiteVolume/cellCentred/operators/laplacianOperator.hpp: LaplacianOperator::build", "include/NeoFOAM/finiteVolume/cellCentred/interpolation/surfaceInterpolation.hpp: SurfaceInterpolationFactory::create", "include/NeoFOAM/finiteVolume/cellCentred/operators/gaussGreenLaplacian.hpp"]}
{"id": "C63", "title": "Documentation under a base class name is that of the last factory registered with it", "statement": "After any sequence of registrations, the documentation and the entries found under a base class name are those of the factory registered last under that name; a name no factory was registered under is reported as out of range. The claim that registrations in one factory never change what is found under another's base class name is false.", "quantifier": "all registration histories", "why_tests_cant": "The full claim is false of the code; only a counterexample in the quantified range shows it, and it lies outside what the tests sample.", "anchors": ["include/NeoFOAM/core/runtimeSelectionFactory.hpp: RuntimeSelectionFactory, BaseClassDocumentation"]}
{"id": "C64", "title": "How long document ids stay distinct", "statement": "The ids of any sequence of documents created without explicit id are pairwise different if and only if there are at most 2^32 of them; from then on each id repeats the one 2^32 earlier. The unbounded claim is false.", "quantifier": "all creation histories, of any length", "why_tests_cant": "The full claim is false of the code; only a counterexample in the quantified range shows it, and it lies outside what the tests sample.", "anchors": ["include/NeoFOAM/core/database/document.hpp: Document", "src/core/database/document.cpp: generateID"]}
{"id": "C65", "title": "What registering a field with a duplicate id does", "statement": "Registering a field whose document id is already present throws if no document has the empty id; if one has, its field (if of the requested type, else it throws) is handed out, stored back and marked as belonging to the document with empty id. The claim that it always throws is false.", "quantifier": "all collection states and creators", "why_tests_cant": "The full claim is false of the code; only a counterexample in the quantified range shows it, and it lies outside what the tests sample.", "anchors": ["include/NeoFOAM/core/database/fieldCollection.hpp: FieldCollection::registerField, CreateFromExistingField", "src/core/database/fieldCollection.cpp"]}
{"id": "C66", "title": "Which collection names work together", "statement": "After creating two field collections a and b, the old-time collection of a can be created under its usual name if and only if b is not itself called by that name. The claim that any names work is false.", "quantifier": "all pairs of collection names", "why_tests_cant": "The full claim is false of the code; only a counterexample in the quantified range shows it, and it lies outside what the tests sample.", "anchors": ["include/NeoFOAM/core/database/fieldCollection.hpp: FieldCollection::instance", "include/NeoFOAM/core/database/oldTimeCollection.hpp: OldTimeCollection::instance"]}
{"id": "C67", "title": "Which communications share a message tag", "statement": "Two names have the same tag if and only if the low 31 bits of their hashes agree modulo 32757; a set of names can get pairwise different tags from some hash function if and only if it has at most 32757 names. The claim that different names always have different tags is false for every hash function.", "quantifier": "all names, sets of names and hash functions", "why_tests_cant": "The full claim is false of the code; only a counterexample in the quantified range shows it, and it lies outside what the tests sample.", "anchors": ["include/NeoFOAM/core/mpi/halfDuplexCommBuffer.hpp: bufferHash"]}
{"id": "C68", "title": "What the buffer protocol refuses, in which builds", "statement": "In debug builds violations of the buffer protocol are refused (C21); in release builds nothing is: finalise always succeeds, leaves every request as it was and makes the buffer idle, and initComm does the same whether the buffer is busy or not. The claim that violations are refused in every build, and that a never-sized buffer reports complete, is false.", "quantifier": "all call histories, debug and release", "why_tests_cant": "The full claim is false of the code; only a counterexample in the quantified range shows it, and it lies outside what the tests sample.", "anchors": ["include/NeoFOAM/core/mpi/halfDuplexCommBuffer.hpp: initComm, isActive, send, receive, isComplete, finaliseComm", "include/NeoFOAM/core/mpi/fullDuplexCommBuffer.hpp"]}
{"id": "C69", "title": "When several communications of one communicator may be in flight", "statement": "After any history of one communicator: starting a further communication leaves another one in flight usable, with the same answer from isComplete, if some buffer is idle or the buffer vector has spare capacity; otherwise every later isComplete or finaliseComm of the other one is undefined behaviour. The claim that several may always be in flight is false (already for the second).", "quantifier": "all histories of calls on one communicator and all actions of the MPI library in between", "why_tests_cant": "The full claim is false of the code; only a counterexample in the quantified range shows it, and it lies outside what the tests sample.", "anchors": ["include/NeoFOAM/mesh/unstructured/communicator.hpp: Communicator", "src/mesh/unstructured/communicator.cpp"]}
{"id": "C70", "title": "Exactly which entries CSR lookup finds", "statement": "view.entry(i,j) returns position k if and only if the coefficient of row i, column j is stored at k and all columns stored before k in the row are smaller than j. So it works for rows with increasing columns; for any column order the claim is false.", "quantifier": "all CSR matrices", "why_tests_cant": "The full claim is false of the code; only a counterexample in the quantified range shows it, and it lies outside what the tests sample.", "anchors": ["include/NeoFOAM/linearAlgebra/CSRMatrix.hpp: CSRMatrixView::entry"]}
{"id": "C71", "title": "Where a copied matrix lives", "statement": "copyToExecutor(dst) of a CSR matrix returns one that reports the executor dst if and only if dst is the serial executor or the one the matrix is on already. The unrestricted claim is false.", "quantifier": "all matrices and executor pairs", "why_tests_cant": "The full claim is false of the code; only a counterexample in the quantified range shows it, and it lies outside what the tests sample.", "anchors": ["include/NeoFOAM/linearAlgebra/CSRMatrix.hpp: CSRMatrix::copyToExecutor, convert", "include/NeoFOAM/linearAlgebra/linearSystem.hpp: LinearSystem::copyToHost, convertLinearSystem"]}
{"id": "C72", "title": "Exactly which matrices PETSc receives as they are", "statement": "For systems without empty rows, the COO triplets handed to PETSc denote the CSR matrix if and only if the matrix is symmetric (rows and columns are exchanged). With empty rows, and for non-symmetric systems, the claim is false.", "quantifier": "all CSR systems", "why_tests_cant": "The full claim is false of the code; only a counterexample in the quantified range shows it, and it lies outside what the tests sample.", "anchors": ["include/NeoFOAM/linearAlgebra/petscSolverContext.hpp: initialize"]}
{"id": "C73", "title": "What the single-cell mesh stores as neighbour-cell centres", "statement": "createSingleCellMesh stores the face area vectors where the centres cn of the cells next to the boundary faces belong; the claim that cn is the cell's centre is false.", "quantifier": "the single-cell mesh", "why_tests_cant": "The full claim is false of the code; only a counterexample in the quantified range shows it, and it lies outside what the tests sample.", "anchors": ["src/mesh/unstructured/unstructuredMesh.cpp: create1DUniformMesh, createSingleCellMesh", "src/mesh/unstructured/boundaryMesh.cpp"]}
{"id": "C74", "title": "Exactly when the sparsity pattern locates its entries", "statement": "On every executor and schedule, the owner, neighbour and diagonal offsets of the sparsity pattern locate their entries if and only if no row of the matrix has more than 256 entries. For cells with more faces the claim is false.", "quantifier": "all meshes", "why_tests_cant": "The full claim is false of the code; only a counterexample in the quantified range shows it, and it lies outside what the tests sample.", "anchors": ["src/finiteVolume/cellCentred/linearAlgebra/sparsityPattern.cpp: SparsityPattern::update", "include/NeoFOAM/finiteVolume/cellCentred/linearAlgebra/sparsityPattern.hpp"]}
{"id": "C75", "title": "When an operator into a caller-provided field gives its value", "statement": "div, laplacian (where the scaling is not zero) and grad into a caller's field leave the operator's value in a cell if and only if the field held zero there before; div(...) returning a field returns the value if and only if the uninitialised memory happened to hold zero. Independence of the previous contents is false.", "quantifier": "all meshes and all previous contents of the result field", "why_tests_cant": "The full claim is false of the code; only a counterexample in the quantified range shows it, and it lies outside what the tests sample.", "anchors": ["src/finiteVolume/cellCentred/operators/gaussGreenDiv.cpp: GaussGreenDiv::div", "src/finiteVolume/cellCentred/operators/gaussGreenGrad.cpp: computeGrad", "src/finiteVolume/cellCentred/operators/gaussGreenLaplacian.cpp: computeLaplacianExp"]}
{"id": "C76", "title": "By how much the implicit divergence differs from the explicit one", "statement": "The implicit divergence is always the upwind one (C34), whatever scheme is configured; on boundary faces the explicit upwind divergence times V exceeds it by exactly the sum of flux*(1-valueFraction)*refGrad/deltaCoeff. So the claim that both agree for every scheme and boundary condition is false, and they agree for upwind with zero gradients.", "quantifier": "all meshes, fluxes, boundary data and scalings", "why_tests_cant": "The full claim is false of the code; only a counterexample in the quantified range shows it, and it lies outside what the tests sample.", "anchors": ["src/finiteVolume/cellCentred/operators/gaussGreenDiv.cpp: computeDivImp"]}
{"id": "C77", "title": "Exactly when implicit assembly is free of data races", "statement": "On a parallel executor the implicit divergence and Laplacian give the serial matrix and right-hand side under every schedule if and only if no cell has two boundary faces (for data whose boundary contributions are not zero). The unrestricted claim is false.", "quantifier": "all meshes, fields, scalings, systems and interleavings", "why_tests_cant": "The full claim is false of the code; only a counterexample in the quantified range shows it, and it lies outside what the tests sample.", "anchors": ["src/finiteVolume/cellCentred/operators/gaussGreenDiv.cpp: computeDivImp", "src/finiteVolume/cellCentred/operators/gaussGreenLaplacian.cpp: computeLaplacianImpl"]}
{"id": "C78", "title": "Exactly when the explicit and the implicit Laplacian agree", "statement": "They agree in a cell if and only if the diffusive fluxes with coefficient gamma-1 balance there: the explicit one ignores gamma. Agreement for every diffusion coefficient is false.", "quantifier": "all meshes, fields, coefficients and scalings", "why_tests_cant": "The full claim is false of the code; only a counterexample in the quantified range shows it, and it lies outside what the tests sample.", "anchors": ["src/finiteVolume/cellCentred/operators/gaussGreenLaplacian.cpp: computeLaplacianExp, computeLaplacianImpl"]}
{"id": "C79", "title": "Exactly when the explicit time derivative is scaled", "statement": "The explicit time derivative adds scaling*V*(phi-phi_old)/dt in a cell if and only if the scaling is 1 there or the field has not changed: it ignores the scaling. The unrestricted claim is false.", "quantifier": "all fields, scalings and time steps", "why_tests_cant": "The full claim is false of the code; only a counterexample in the quantified range shows it, and it lies outside what the tests sample.", "anchors": ["src/finiteVolume/cellCentred/operators/sourceTerm.cpp", "src/finiteVolume/cellCentred/operators/ddtOperator.cpp"]}
{"id": "C80", "title": "Source terms, and divergences of vector fields, never act", "statement": "Every expression evaluates explicitly, implicitly and in assembly exactly like the same expression with its source terms removed; and every expression over vector fields evaluates explicitly like the one with its divergences removed. The claim that every operator of the library acts is false.", "quantifier": "all expressions, coefficients, fields and systems", "why_tests_cant": "The full claim is false of the code; only a counterexample in the quantified range shows it, and it lies outside what the tests sample.", "anchors": ["include/NeoFOAM/dsl/spatialOperator.hpp: HasExplicitOperator, HasImplicitOperator, SpatialOperatorModel", "include/NeoFOAM/finiteVolume/cellCentred/operators/sourceTerm.hpp"]}
{"id": "C81", "title": "At which length scales interpolation weights are right", "statement": "The weight of an internal face is the neighbour's fraction of the normal distance if and only if area times distance exceeds 1e-18 or the face is half-way. For all non-degenerate meshes the claim is false.", "quantifier": "all non-degenerate geometry", "why_tests_cant": "The full claim is false of the code; only a counterexample in the quantified range shows it, and it lies outside what the tests sample.", "anchors": ["src/finiteVolume/cellCentred/stencil/basicGeometryScheme.cpp"]}
{"id": "C82", "title": "Exactly what the patch interface provides", "statement": "patchEnd() always equals patchStart(), so it is the end of the range exactly for empty patches; the helper creating extrapolated boundary conditions succeeds for surface fields exactly on meshes without boundaries. The unrestricted claim is false.", "quantifier": "all patches, volume and surface fields", "why_tests_cant": "The full claim is false of the code; only a counterexample in the quantified range shows it, and it lies outside what the tests sample.", "anchors": ["include/NeoFOAM/finiteVolume/cellCentred/boundary/boundaryPatchMixin.hpp", "include/NeoFOAM/finiteVolume/cellCentred/boundary/volume/*.hpp", "include/NeoFOAM/finiteVolume/cellCentred/boundary/surface/*.hpp", "include/NeoFOAM/finiteVolume/cellCentred/fields/volumeField.hpp: correctBoundaryConditions"]}
{"id": "C83", "title": "What explicit time derivatives in expressions contribute", "statement": "Scaling an expression does not change the contribution of its explicit time derivatives, whatever the factor; assembled, an explicit time derivative contributes V*V*(phi-phi_old)/dt whatever its coefficient. The claims that they are scaled and assembled correctly are false.", "quantifier": "all equations with explicit time derivatives", "why_tests_cant": "The full claim is false of the code; only a counterexample in the quantified range shows it, and it lies outside what the tests sample.", "anchors": ["include/NeoFOAM/finiteVolume/cellCentred/dsl/expression.hpp: Expression::assemble", "src/finiteVolume/cellCentred/operators/ddtOperator.cpp: DdtOperator::explicitOperation", "include/NeoFOAM/dsl/temporalOperator.hpp"]}
{"id": "C84", "title": "What a solve does when its pattern differs from the operators'", "statement": "solve() and the backward-Euler step always compute the values and right-hand side that are right for the pattern the operators use, and hand them to the solver with a pattern built afresh; read through that, the row of a cell is its equation if and only if every column has the same coefficient in both. So solving is right whenever the patterns agree (always on the serial executor), and false on others.", "quantifier": "all equations, executors and interleavings of the pattern's construction", "why_tests_cant": "The full claim is false of the code; only a counterexample in the quantified range shows it, and it lies outside what the tests sample.", "anchors": ["include/NeoFOAM/dsl/solver.hpp: solve", "include/NeoFOAM/timeIntegration/backwardEuler.hpp", "src/finiteVolume/cellCentred/linearAlgebra/sparsityPattern.cpp"]}
{"id": "C85", "title": "What a forward-Euler step integrates", "statement": "For every expression a forward-Euler step does exactly what it does for the expression with only its explicit spatial operators: implicit operators, and the coefficient, field and number of time derivatives, have no influence. The claim that the whole equation is integrated is false.", "quantifier": "all expressions, fields, step sizes and boundary conditions", "why_tests_cant": "The full claim is false of the code; only a counterexample in the quantified range shows it, and it lies outside what the tests sample.", "anchors": ["include/NeoFOAM/timeIntegration/forwardEuler.hpp"]}
{"id": "C86", "title": "What a backward-Euler step ignores", "statement": "A backward-Euler step (whose explicit operators evaluate without error) does exactly what it does without its explicit operators, never changes boundary data, and the solution dictionary has no influence on any equation with a time derivative. The claim that the whole equation is integrated with the configured solver is false.", "quantifier": "all equations, fields, step sizes and dictionaries", "why_tests_cant": "The full claim is false of the code; only a counterexample in the quantified range shows it, and it lies outside what the tests sample.", "anchors": ["include/NeoFOAM/timeIntegration/backwardEuler.hpp"]}
{"id": "C87", "title": "What a Runge-Kutta integrator continues from", "statement": "A kept integrator continues from its own copy: whatever state it is called with, the step starts from the field the previous step produced (with the operators evaluated on the state given); boundary data is never changed. The claims that a step starts from the current field and leaves boundary conditions satisfied are false.", "quantifier": "all equations and histories of steps", "why_tests_cant": "The full claim is false of the code; only a counterexample in the quantified range shows it, and it lies outside what the tests sample.", "anchors": ["src/timeIntegration/rungeKutta.cpp", "include/NeoFOAM/timeIntegration/sundials.hpp"]}
{"id": "C88", "title": "Exactly when the Courant number is non-negative", "statement": "computeCoNum always returns one value, and for a non-negative time step it is non-negative if and only if the mesh has cells, the executor is serial, or the step is zero; without cells it is dt/2 times the reduction's identity. The unrestricted claim is false.", "quantifier": "all meshes, also without cells", "why_tests_cant": "The full claim is false of the code; only a counterexample in the quantified range shows it, and it lies outside what the tests sample.", "anchors": ["src/finiteVolume/cellCentred/auxiliary/coNum.cpp: computeCoNum"]}
{"id": "C89", "title": "Which executor boundary data, geometric fields and patch ranges are on", "statement": "Boundary data copied to an executor lives there but reports the executor of its source; a geometric field made from a domain field reports the executor given while the data stays where it was; patch ranges can be asked for exactly off the GPU. The unrestricted claims are false.", "quantifier": "all executors and contents", "why_tests_cant": "The full claim is false of the code; only a counterexample in the quantified range shows it, and it lies outside what the tests sample.", "anchors": ["include/NeoFOAM/fields/boundaryFields.hpp: BoundaryFields(exec,rhs)", "include/NeoFOAM/fields/domainField.hpp"]}
{"id": "C90", "title": "Which systems Ginkgo receives unchanged", "statement": "The matrix handed to Ginkgo has the system's row offsets if and only if the number of entries is below 2^31, and its column indices if and only if they are; values and size are always right. For systems of any size the claim is false.", "quantifier": "all linear systems", "why_tests_cant": "The full claim is false of the code; only a counterexample in the quantified range shows it, and it lies outside what the tests sample.", "anchors": ["include/NeoFOAM/linearAlgebra/utilities.hpp: createGkoMtx", "include/NeoFOAM/linearAlgebra/CSRMatrix.hpp: convert"]}
{"id": "C91", "title": "The implicit transport program solves the transport equation", "statement": "A program that forms imp::ddt(T) + imp::div(flux,T) - imp::laplacian(gamma,T) and calls solve repeatedly with backward Euler never fails when the linear solver returns solutions; after every step, in every cell, V/dt (T_new - T_old) + sum of upwind face fluxes - sum of diffusive face fluxes = 0 with the boundary conditions' mixed data, and the boundary data are unchanged. Conversely every sequence of fields satisfying these equations is a possible run.", "quantifier": "all meshes, fluxes, diffusivities, boundary data, names, dictionaries that select schemes, step sequences and debug settings", "why_tests_cant": "The claim ranges over all meshes, fields, numbers of steps and schedules; a test runs one case and compares with tolerances.", "anchors": ["include/NeoFOAM/dsl/implicit.hpp", "include/NeoFOAM/dsl/explicit.hpp", "src/dsl/explicit.cpp:div", "include/NeoFOAM/dsl/solver.hpp:solve", "include/NeoFOAM/timeIntegration/backwardEuler.hpp:solve", "src/finiteVolume/cellCentred/operators/gaussGreenDiv.cpp", "src/finiteVolume/cellCentred/operators/gaussGreenLaplacian.cpp"]}
{"id": "C92", "title": "Implicit transport conserves the transported quantity", "statement": "Over any number of implicit steps, the volume integral of T changes exactly by what passed the boundary faces; in a closed domain (no boundary flux, zero gradient) it does not change.", "quantifier": "all cases of C91 with non-zero step sizes", "why_tests_cant": "The claim ranges over all meshes, fields, numbers of steps and schedules; a test runs one case and compares with tolerances.", "anchors": ["include/NeoFOAM/dsl/implicit.hpp", "include/NeoFOAM/dsl/explicit.hpp", "src/dsl/explicit.cpp:div", "include/NeoFOAM/dsl/solver.hpp:solve", "include/NeoFOAM/timeIntegration/backwardEuler.hpp:solve", "src/finiteVolume/cellCentred/operators/gaussGreenDiv.cpp", "src/finiteVolume/cellCentred/operators/gaussGreenLaplacian.cpp"]}
{"id": "C93", "title": "Implicit transport is monotone and bounded", "statement": "With non-negative diffusivity: larger initial and boundary data give a larger result (comparison principle); with a divergence-free flux the result stays, for every step size, between bounds of the initial values and of the prescribed boundary values; a constant stays constant.", "quantifier": "all cases of C91 with positive step sizes, value fractions in [0,1] and values prescribed only where no fluid leaves", "why_tests_cant": "The claim ranges over all meshes, fields, numbers of steps and schedules; a test runs one case and compares with tolerances.", "anchors": ["include/NeoFOAM/dsl/implicit.hpp", "include/NeoFOAM/dsl/explicit.hpp", "src/dsl/explicit.cpp:div", "include/NeoFOAM/dsl/solver.hpp:solve", "include/NeoFOAM/timeIntegration/backwardEuler.hpp:solve", "src/finiteVolume/cellCentred/operators/gaussGreenDiv.cpp", "src/finiteVolume/cellCentred/operators/gaussGreenLaplacian.cpp"]}
{"id": "C94", "title": "The transport result is unique", "statement": "Two runs on the same mesh with the same fluxes, data and steps give the same field, whatever the executor, sparsity pattern order, linear solver, field names, numbering and dictionaries.", "quantifier": "all pairs of runs of C91 with positive steps, non-negative divergence and diffusivity", "why_tests_cant": "The claim ranges over all meshes, fields, numbers of steps and schedules; a test runs one case and compares with tolerances.", "anchors": ["include/NeoFOAM/dsl/implicit.hpp", "include/NeoFOAM/dsl/explicit.hpp", "src/dsl/explicit.cpp:div", "include/NeoFOAM/dsl/solver.hpp:solve", "include/NeoFOAM/timeIntegration/backwardEuler.hpp:solve", "src/finiteVolume/cellCentred/operators/gaussGreenDiv.cpp", "src/finiteVolume/cellCentred/operators/gaussGreenLaplacian.cpp"]}
{"id": "C95", "title": "Explicit upwind transport: exact step, conservation and boundedness under the reported Courant number", "statement": "A program that forms imp::ddt(T) + exp::div(flux,T) with upwind and forward Euler always runs to the end; every step is V (T_new - T_old) = - dt sum(flux * upwind value) followed by the boundary correction; the volume integral changes exactly by the boundary transport; if computeCoNum reports at most 1 for every step and the flux is divergence-free, cell values stay between bounds of the initial and inflow values.", "quantifier": "all meshes, divergence-free fluxes, boundary conditions of kind fixedValue (inflow), zero gradient or extrapolated, step sequences, executors and schedules", "why_tests_cant": "The claim ranges over all meshes, fields, numbers of steps and schedules; a test runs one case and compares with tolerances.", "anchors": ["include/NeoFOAM/dsl/implicit.hpp", "include/NeoFOAM/dsl/explicit.hpp", "src/dsl/explicit.cpp:div", "include/NeoFOAM/dsl/solver.hpp:solve", "include/NeoFOAM/timeIntegration/backwardEuler.hpp:solve", "src/finiteVolume/cellCentred/operators/gaussGreenDiv.cpp", "src/finiteVolume/cellCentred/operators/gaussGreenLaplacian.cpp", "include/NeoFOAM/timeIntegration/forwardEuler.hpp:solve", "src/finiteVolume/cellCentred/auxiliary/coNum.cpp:computeCoNum"]}
{"id": "C96", "title": "Explicit operators: each face contribution enters exactly once, in any arithmetic", "statement": "Whatever the arithmetic of the field values (in particular floating point, where addition is not associative), the explicit divergence, Laplacian and surface integral never fail, and every cell of every possible result is source + (scaling/volume) * s, where s is obtained by adding the contributions of the cell's internal faces, then of its boundary faces, each exactly once, one at a time; in face order on the serial executor (which is therefore reproducible bit by bit), in some order on the others, where every order can happen. In binary64 the orders give different bits; if no cell has more than two faces and two contributions commute, all executors give the same bits.", "quantifier": "all meshes, fields, schemes, executors, schedules, and all interpretations of the value operations", "why_tests_cant": "Orders of additions are chosen by the scheduler; a test sees one order on one machine and cannot tell a lucky order from a guarantee.", "anchors": ["src/finiteVolume/cellCentred/operators/gaussGreenDiv.cpp:computeDiv", "src/finiteVolume/cellCentred/operators/gaussGreenLaplacian.cpp", "src/finiteVolume/cellCentred/operators/surfaceIntegrate.cpp:surfaceIntegrate", "include/NeoFOAM/core/parallelAlgorithms.hpp:parallelFor"]}
{"id": "C97", "title": "Explicit operators: floating-point error and agreement of executors", "statement": "With scalar as float or double (IEEE rounding to nearest even, no overflow), every cell of every possible result of the explicit divergence, Laplacian and surface integral differs from the exact value (of the rounded face contributions) by at most u|source| + ((1+u)^(n+2)-1) |factor| sum|contributions| plus an underflow term, n the number of faces of the cell; two runs on any executors agree within twice that. On a uniform one-dimensional mesh they agree bit by bit.", "quantifier": "both precisions, all meshes, fields, schemes, executors and schedules, without overflow", "why_tests_cant": "Orders of additions are chosen by the scheduler; a test sees one order on one machine and cannot tell a lucky order from a guarantee.", "anchors": ["src/finiteVolume/cellCentred/operators/gaussGreenDiv.cpp:computeDiv", "src/finiteVolume/cellCentred/operators/gaussGreenLaplacian.cpp", "src/finiteVolume/cellCentred/operators/surfaceIntegrate.cpp:surfaceIntegrate", "include/NeoFOAM/core/parallelAlgorithms.hpp:parallelFor", "include/NeoFOAM/core/primitives/scalar.hpp"]}
{"id": "C98", "title": "The imp:: and exp:: functions make the operators their names promise", "statement": "Each of imp::ddt, imp::source, imp::div, imp::laplacian, exp::div (two forms) and exp::source returns a new operator object with coefficient 1, implicit for imp:: and explicit for exp::, and changes no existing object; after build with a dictionary that selects a scheme, the operator contributes what the name and the order of the arguments promise (except sources, which contribute nothing: C80). Solving an equation without operators ends the program.", "quantifier": "all argument fields, meshes, dictionaries, previously made operators, executors and schedules", "why_tests_cant": "Argument order and kind must be right for every mesh and field; with a constant or symmetric test field swapped arguments are invisible.", "anchors": ["include/NeoFOAM/dsl/implicit.hpp", "include/NeoFOAM/dsl/explicit.hpp", "src/dsl/explicit.cpp", "include/NeoFOAM/dsl/solver.hpp:solve"]}
{"id": "C99", "title": "Steady equations: the solved field satisfies the equation", "statement": "For every equation without time derivative, with any mixture of implicit and explicit divergence, Laplacian and surface-integral operators and any coefficients, every call of solve() that ends, ends normally with a field for which, in every cell, the implicit operators applied to the new field plus the cell volume times the explicit operators applied to the old fields add up to zero; boundary data and the old-time field stay as they were; repeated calls continue from the result of the previous one. If the linear solver can return every solution, every field with that property is a possible result.", "quantifier": "all equations of the grammar, meshes, fields, dictionaries, executors, numbers of outer iterations", "why_tests_cant": "Needs all equations, meshes and fields at once; a residual test samples one system and cannot see terms that cancel in it.", "anchors": ["include/NeoFOAM/dsl/solver.hpp:solve", "include/NeoFOAM/dsl/expression.hpp", "include/NeoFOAM/linearAlgebra/ginkgo.hpp"]}
{"id": "C100", "title": "Pressure equation: the corrected flux is divergence free", "statement": "Solving imp::laplacian(rAU, p) - exp::div(phi): after every call that ends, the flux phi - rAU |Sf| snGrad(p) has zero net outflow in every cell. With zero-gradient conditions on the whole boundary a result exists only if the given boundary fluxes add up to zero, and adding a constant to a result gives another possible result.", "quantifier": "all meshes, fluxes, diffusivities, boundary data, executors", "why_tests_cant": "Conservation must hold in every cell of every mesh; a test checks a tolerance on one.", "anchors": ["include/NeoFOAM/dsl/solver.hpp:solve", "include/NeoFOAM/dsl/implicit.hpp", "src/dsl/explicit.cpp", "src/finiteVolume/cellCentred/operators/gaussGreenLaplacian.cpp", "src/finiteVolume/cellCentred/operators/surfaceIntegrate.cpp"]}
{"id": "C101", "title": "The uniform 1D mesh end to end: exact coefficients, gradient, Laplacian and Poisson solution", "statement": "On the mesh of create1DUniformMesh with any number N of cells: the geometry scheme gives interpolation weights 1/2 inside and 1 at the ends, inverse distances N inside and 2N at the ends; the Green-Gauss gradient of a linear field is exact in every cell; the Laplacian of a + b x + q x^2 is 2q inside and loses exactly q/2 in each end cell; solve() for Poisson's equation with fixed values at the ends returns the series-resistance solution, and for uniform conductivity k and source a the exact solution at the cell centres minus a/(8 k N^2) in every cell (exact for a = 0), for every N.", "quantifier": "all numbers of cells, end values, conductivities, sources, executors and initial memory contents", "why_tests_cant": "A convergence test samples a few N with tolerances; exact agreement for every N is a statement about all meshes of the family.", "anchors": ["include/NeoFOAM/mesh/unstructured/unstructuredMesh.hpp:create1DUniformMesh", "src/finiteVolume/cellCentred/stencil/basicGeometryScheme.cpp", "src/finiteVolume/cellCentred/operators/gaussGreenGrad.cpp", "src/finiteVolume/cellCentred/operators/gaussGreenLaplacian.cpp", "include/NeoFOAM/dsl/solver.hpp:solve"]}
{"id": "C102", "title": "Explicit diffusion: exact step, conservation, and a sharp step-size limit", "statement": "A program that forms imp::ddt(T) - LaplacianOperator(Explicit, gamma, T) and calls solve with forward Euler always runs to the end; every step is V (T_new - T_old) = dt sum(area * normal gradient) - with diffusivity 1, whatever gamma holds (C78) - followed by the boundary correction; the volume integral changes exactly by what diffuses in through the boundary; if dt sum(area/distance)/V is at most 1 in every cell, cell and boundary values stay between bounds of the initial and prescribed values, and this limit cannot be weakened: if it fails in some cell, some field's bounds are violated by one step. The result depends only on mesh, inverse distances, boundary conditions, initial field and step sizes.", "quantifier": "all meshes, gammas, initial fields, boundary conditions, step sequences, executors, schedules, names and dictionaries", "why_tests_cant": "The claim ranges over all meshes, fields, numbers of steps and schedules; a test runs one case and compares with tolerances.", "anchors": ["include/NeoFOAM/dsl/implicit.hpp", "include/NeoFOAM/dsl/explicit.hpp", "src/dsl/explicit.cpp:div", "include/NeoFOAM/dsl/solver.hpp:solve", "include/NeoFOAM/timeIntegration/backwardEuler.hpp:solve", "src/finiteVolume/cellCentred/operators/gaussGreenDiv.cpp", "src/finiteVolume/cellCentred/operators/gaussGreenLaplacian.cpp", "include/NeoFOAM/finiteVolume/cellCentred/operators/laplacianOperator.hpp", "include/NeoFOAM/timeIntegration/forwardEuler.hpp:solve"]}
{"id": "C103", "title": "Perturbations of a transport problem do not grow", "statement": "Two runs of the implicit transport program that differ in their initial values and prescribed boundary values by at most eps differ by at most eps in every cell after any number of steps of any size; with the same boundary data and values prescribed wherever fluid enters, the volume-weighted sum of squared differences never grows.", "quantifier": "all cases of C91 with divergence-free flux, non-negative diffusivity, positive steps, value fractions in [0,1] and values prescribed only where no fluid leaves", "why_tests_cant": "The claim ranges over all meshes, fields, numbers of steps and schedules; a test runs one case and compares with tolerances.", "anchors": ["include/NeoFOAM/dsl/implicit.hpp", "include/NeoFOAM/dsl/explicit.hpp", "src/dsl/explicit.cpp:div", "include/NeoFOAM/dsl/solver.hpp:solve", "include/NeoFOAM/timeIntegration/backwardEuler.hpp:solve", "src/finiteVolume/cellCentred/operators/gaussGreenDiv.cpp", "src/finiteVolume/cellCentred/operators/gaussGreenLaplacian.cpp"]}
{"id": "C104", "title": "The uniform 1D mesh end to end: explicit advection and the diffusion limit", "statement": "On the mesh of create1DUniformMesh with N cells and uniform flux from left to right, the explicit upwind program with Courant number c = u dt N gives after n steps, in cell i, the binomial mean sum_k C(n,k) c^k (1-c)^(n-k) of the initial values k cells upstream (the inlet value beyond the inlet), exactly; with c = 1 it shifts the field by one cell per step without any error. Explicit diffusion with fixed values at the ends keeps the bounds of every field if and only if 3 N^2 dt <= 1 (the end cells limit the step, not the inner cells).", "quantifier": "all numbers of cells, inlet values, initial fields, velocities, step sizes and numbers of steps, executors and schedules", "why_tests_cant": "A test compares a few steps on one N with a tolerance; the closed form holds for all N, n and initial fields.", "anchors": ["include/NeoFOAM/mesh/unstructured/unstructuredMesh.hpp:create1DUniformMesh", "src/dsl/explicit.cpp:div", "src/finiteVolume/cellCentred/operators/gaussGreenDiv.cpp", "src/finiteVolume/cellCentred/interpolation/upwind.cpp", "include/NeoFOAM/timeIntegration/forwardEuler.hpp:solve"]}
{"id": "C105", "title": "Floating-point reductions: error bound, agreement of executors, exact maximum", "statement": "With scalar as float or double (rounding to nearest, no overflow), parallelReduce with a sum over any index range is, on every executor and however partial results are joined, within ((1+u)^(n-1)-1) times the sum of absolute contributions of the exact sum; two runs on any executors agree within twice that; two terms give the correctly rounded sum everywhere; a maximum is exactly the largest contribution. In binary64 different ways of joining do give different bits.", "quantifier": "both precisions, all contributions, index ranges, executors, numbers of threads and join orders", "why_tests_cant": "Orders of additions are chosen by the scheduler; a test sees one order on one machine and cannot tell a lucky order from a guarantee.", "anchors": ["include/NeoFOAM/core/parallelAlgorithms.hpp:parallelReduce", "include/NeoFOAM/core/primitives/scalar.hpp"]}
{"id": "C106", "title": "Collective reductions: every rank gets the same, correct value", "statement": "mpi::allReduce returns the same value on all ranks, for every number of ranks and every order in which MPI combines their values: for integers the exact maximum, minimum, logical or bitwise result, and sums and products that fit; for bool the conjunction or disjunction; for float and double the exact maximum and minimum, a sum within the rounding bound and a product rounded at every multiplication (accurate where nothing underflows); a Vector component by component. The program ends exactly for combinations of type and operation that MPI does not define or getType does not know.", "quantifier": "all numbers of ranks, types, operations, values and combination orders", "why_tests_cant": "The combination order is MPI's choice, and overflow, rank count and value ranges cannot be enumerated; a test runs one or two ranks.", "anchors": ["include/NeoFOAM/core/mpi/operators.hpp:allReduce", "include/NeoFOAM/core/mpi/operators.hpp:getOp", "include/NeoFOAM/core/mpi/operators.hpp:getType"]}
{"id": "C107", "title": "A call of solve() that throws can be repeated", "statement": "If solve() throws (missing keys, unknown schemes or integrators, size mismatch) and the linear solver itself did not, the solution field, its boundary data and the values of its old-time field are as before, and calling solve() again with any (corrected) dictionaries does exactly what it would have done without the failed call. If the linear solver throws, only the cell values of the solution can be affected; with a time derivative the old-time field still holds the values to return to.", "quantifier": "all equations, dictionaries, meshes, fields, points of failure and schedules, with forward or backward Euler or no time derivative", "why_tests_cant": "The claim quantifies over every point at which an exception can leave solve(); tests inject none.", "anchors": ["include/NeoFOAM/dsl/solver.hpp:solve", "include/NeoFOAM/dsl/expression.hpp:build", "include/NeoFOAM/timeIntegration/forwardEuler.hpp:solve", "include/NeoFOAM/timeIntegration/backwardEuler.hpp:solve"]}
{"id": "C108", "title": "Debug and release builds compute the same", "statement": "NF_DEBUG changes no result: a field operation whose operands have the same size and executor does the same in both builds, otherwise the debug build ends the program; time loops of any length end in the same states in both builds, differing only in that the debug build may end the program where the release build throws DimensionMismatch; every history of communication-buffer calls a debug build accepts does the same in a release build (the checks' calls of MPI_Test have no effect but that completed requests are noticed earlier).", "quantifier": "all operands, equations, dictionaries, numbers of steps, call histories and moments at which MPI completes requests", "why_tests_cant": "CI builds one of the two; checks with side effects (isComplete inside an assertion) can only be shown harmless for all histories.", "anchors": ["include/NeoFOAM/core/error.hpp:NF_DEBUG_ASSERT", "include/NeoFOAM/fields/field.hpp:validateOtherField", "src/core/mpi/halfDuplexCommBuffer.cpp:isComplete", "include/NeoFOAM/core/mpi/halfDuplexCommBuffer.hpp:send", "include/NeoFOAM/timeIntegration/forwardEuler.hpp:solve"]}
{"id": "C109", "title": "Implicit assembly in floating point: what is added where, and what is reproducible", "statement": "Without any assumption on the arithmetic of the field values: assembling the implicit divergence or Laplacian adds exactly one term to each off-diagonal coefficient, to each diagonal one term per internal face of the cell and then one per boundary face, to each right-hand side entry one per boundary face; terms of one entry are added one at a time in some order - in face order on the serial executor, and on a parallel executor every order of the faces of a cell is possible. Off-diagonal coefficients are therefore the same bit by bit on every executor, and so are right-hand sides if no cell has two boundary faces; the source and time-derivative operators give one result on all executors. In IEEE single or double precision each diagonal is within the standard summation error of its exact value, and on one-dimensional meshes the whole system is the same bit by bit on all executors.", "quantifier": "all value types and arithmetics, meshes, fluxes, diffusivities, boundary data, scaling coefficients, starting systems, executors and interleavings", "why_tests_cant": "Interleavings and roundings cannot be enumerated by tests, and a test in exact or benign data does not see the order of additions.", "anchors": ["src/finiteVolume/cellCentred/operators/gaussGreenDiv.cpp:computeDivImp", "src/finiteVolume/cellCentred/operators/gaussGreenLaplacian.cpp:computeLaplacianImpl", "src/finiteVolume/cellCentred/operators/sourceTerm.cpp:implicitOperation", "src/finiteVolume/cellCentred/operators/ddtOperator.cpp:implicitOperation"]}
{"id": "C110", "title": "Domain and volume fields are values: copy, move, assignment, destruction", "statement": "Through any history of constructing, copying (also to another executor), moving, assigning, writing to and destroying domain fields, every array of every object - cell values and the six boundary arrays - holds what it would hold if the objects were plain independent values: copies are deep, no two objects share memory, nothing is undefined, and everything is released. Assignment takes over contents and lengths of all arrays (not the reported executor) and ends the program if some array is on another executor than its counterpart. Moving from a domain field empties its cell values but leaves its boundary arrays. A copy of a registered volume field stays registered under the same key, so its old-time field is the original's; a field never registered has none (throws). A field registered as a copy of an existing one has its arrays on the mesh's executor while reporting the existing field's executor.", "quantifier": "all histories of operations on any number of domain fields, all contents and sizes, allocators that do or do not return blocks for empty requests", "why_tests_cant": "Aliasing and double frees depend on the history of the objects; a test runs one history.", "anchors": ["include/NeoFOAM/fields/domainField.hpp:DomainField", "include/NeoFOAM/fields/boundaryFields.hpp:BoundaryFields", "include/NeoFOAM/finiteVolume/cellCentred/fields/volumeField.hpp:VolumeField", "include/NeoFOAM/core/database/fieldCollection.hpp:CreateFromExistingField", "include/NeoFOAM/core/database/oldTimeCollection.hpp:oldTime"]}
{"id": "C111", "title": "Up to which sizes the integer types suffice", "statement": "The code's fixed-width integers give exact indices below stated sizes and wrong ones above: segment offsets are the prefix sums modulo 2^w (w the bits of localIdx), all exact iff their total is below 2^w, for every chunking; the labels of create1DUniformMesh are right iff it has fewer than 2^31 cells, also with 64-bit labels (one boundary label goes through int); patch start, end, size and range are exact for offsets below 2^(w-1), and with 32-bit labels the range only then; a message is posted with its true number of bytes iff that is below 2^31; rows, nnz and ssize are exact below 2^w, 2^w and 2^(w-1).", "quantifier": "all sizes, offsets, segment lengths, chunkings and both label widths", "why_tests_cant": "The limits are far beyond what tests allocate.", "anchors": ["include/NeoFOAM/core/primitives/label.hpp", "include/NeoFOAM/fields/segmentedField.hpp:segmentsFromIntervals", "src/mesh/unstructured/unstructuredMesh.cpp:create1DUniformMesh", "include/NeoFOAM/finiteVolume/cellCentred/boundary/boundaryPatchMixin.hpp", "src/core/mpi/halfDuplexCommBuffer.cpp:send", "include/NeoFOAM/finiteVolume/cellCentred/linearAlgebra/sparsityPattern.hpp", "include/NeoFOAM/fields/field.hpp:ssize"]}
{"id": "C112", "title": "Copies of a mesh and the geometry and sparsity objects attached to it", "statement": "However meshes are constructed, copied, moved and destroyed and operators created on them and destroyed: on a mesh that exists and was not moved from, readOrCreate of the geometry scheme or sparsity pattern never fails and returns an object built from contents equal to that mesh's; an operator's object is neither changed nor freed before the operator is destroyed, whatever happens to the meshes; two meshes share the object iff it was first requested on the same mesh (a copy made before the first request gets its own); the object refers to the mesh of the first request, so asking the pattern for its mesh - as assembling a linear system does - is undefined exactly when that mesh is gone, which happens if a used mesh is copied and the original destroyed, and never if meshes are copied and moved only before use. An object exists exactly as long as a mesh or operator holds it.", "quantifier": "all histories of mesh and operator construction, copies, moves, destruction and requests", "why_tests_cant": "Sharing and lifetime depend on the whole history; tests use one mesh that outlives everything.", "anchors": ["include/NeoFOAM/mesh/unstructured/unstructuredMesh.hpp:UnstructuredMesh", "include/NeoFOAM/finiteVolume/cellCentred/stencil/stencilDataBase.hpp:StencilDataBase", "src/finiteVolume/cellCentred/stencil/geometryScheme.cpp:readOrCreate", "src/finiteVolume/cellCentred/linearAlgebra/sparsityPattern.cpp:readOrCreate", "include/NeoFOAM/linearAlgebra/linearSystem.hpp:createEmptyLinearSystem"]}
{"id": "C113", "title": "Steady transport and pressure: bounds, and when the result is determined", "statement": "Solving imp::div(flux,T) - imp::laplacian(gamma,T) with a solver that returns solutions ends with a field whose convective and diffusive fluxes balance in every cell. If no group of cells is cut off (feels, by conduction or inflow, neither other cells nor a prescribed value) then: with a divergence-free flux all values lie between the prescribed ones; larger prescribed values and gradients give a larger field; the result is the only one, whatever executor, pattern order, solver and initial values. Enough for that is a path of cells from every cell to a prescribed value. For the pressure equation of C100 the result is the only one exactly if no group of cells is cut off from prescribed pressures; raising the pressure in a group that is cut off gives another result; on a connected domain two results differ by a constant.", "quantifier": "all meshes, fluxes, non-negative diffusivities, boundary data with value fractions in [0,1] and values prescribed only where no fluid leaves", "why_tests_cant": "The claim ranges over all meshes, fields, numbers of steps and schedules; a test runs one case and compares with tolerances.", "anchors": ["include/NeoFOAM/dsl/implicit.hpp", "include/NeoFOAM/dsl/explicit.hpp", "src/dsl/explicit.cpp:div", "include/NeoFOAM/dsl/solver.hpp:solve", "include/NeoFOAM/timeIntegration/backwardEuler.hpp:solve", "src/finiteVolume/cellCentred/operators/gaussGreenDiv.cpp", "src/finiteVolume/cellCentred/operators/gaussGreenLaplacian.cpp"]}
{"id": "C114", "title": "The solved equations have a solution", "statement": "With non-negative diffusivity, non-negative flux divergence and values prescribed only where no fluid leaves, and a linear solver that can return any solution: the implicit transport program has a run to the end for every number of steps and every positive step size; steady transport and the pressure equation have a result if no group of cells is cut off from the prescribed values; with gradients prescribed on the whole boundary of a connected domain, the pressure equation has a result exactly if the fluxes minus the prescribed gradient fluxes add up to zero over the boundary.", "quantifier": "all cases of C91, C100 and C113", "why_tests_cant": "The claim ranges over all meshes, fields, numbers of steps and schedules; a test runs one case and compares with tolerances.", "anchors": ["include/NeoFOAM/dsl/implicit.hpp", "include/NeoFOAM/dsl/explicit.hpp", "src/dsl/explicit.cpp:div", "include/NeoFOAM/dsl/solver.hpp:solve", "include/NeoFOAM/timeIntegration/backwardEuler.hpp:solve", "src/finiteVolume/cellCentred/operators/gaussGreenDiv.cpp", "src/finiteVolume/cellCentred/operators/gaussGreenLaplacian.cpp"]}
{"id": "C115", "title": "Face values, face gradients and whole explicit operators in floating point, against the exact formulas", "statement": "Interpolation and the face-normal gradient give the same bits on every executor, in any arithmetic, whatever the face field held before. In IEEE single or double precision without overflow: a linearly interpolated value is within ((1+u)^3-1) times the interpolated magnitudes (plus underflow) of the exact one, so it stays that close to the range of the field; upwind values are values of the field, exactly; a constant is interpolated exactly with weights 1/2, not with others; a face-normal gradient has at most two roundings, is never of the wrong sign and, for distances up to 1, is zero exactly between equal values. The explicit divergence and Laplacian of representable data differ in every cell, on every executor and schedule, from source plus the exact finite-volume formula by at most an explicit bound: u|source| + ((1+u)^(n+k+3)-1)|scaling/volume| sum|exact face terms| plus underflow terms, n the number of faces of the cell, k = 4 or 3.", "quantifier": "both precisions, all meshes, representable fields, fluxes, weights, distances and areas, all executors and schedules, without overflow", "why_tests_cant": "Orders of additions are chosen by the scheduler; a test sees one order on one machine and cannot tell a lucky order from a guarantee.", "anchors": ["src/finiteVolume/cellCentred/interpolation/linear.cpp", "src/finiteVolume/cellCentred/interpolation/upwind.cpp", "src/finiteVolume/cellCentred/faceNormalGradient/uncorrected.cpp", "src/finiteVolume/cellCentred/operators/gaussGreenDiv.cpp:computeDiv", "src/finiteVolume/cellCentred/operators/gaussGreenLaplacian.cpp", "src/finiteVolume/cellCentred/operators/surfaceIntegrate.cpp:surfaceIntegrate", "include/NeoFOAM/core/parallelAlgorithms.hpp:parallelFor", "include/NeoFOAM/core/primitives/scalar.hpp"]}
{"id": "C116", "title": "solve() selects integrator and linear solver by name", "statement": "With a time derivative, solve() builds the operators and then does exactly what the integrator named under ddtSchemes/type does: forwardEuler, backwardEuler or Runge-Kutta; the linear solver is the one named under solver: Ginkgo or Petsc, called with its dictionary and the assembled system. Any other name ends the program, a missing entry throws out_of_range and an entry of another type bad_any_cast, before anything is solved. The operators see the current contents of the solution field and its old-time field, and every other field as it is.", "quantifier": "all equations, dictionaries, fields and step sizes", "why_tests_cant": "The names come from user dictionaries; tests use the valid ones.", "anchors": ["include/NeoFOAM/dsl/solver.hpp: solve", "include/NeoFOAM/timeIntegration/timeIntegration.hpp: TimeIntegration", "include/NeoFOAM/linearAlgebra/solver.hpp: Solver", "include/NeoFOAM/core/runtimeSelectionFactory.hpp: create"]}
{"id": "C117", "title": "Time integrators and linear solvers as objects: copies, moves, dictionaries", "statement": "A TimeIntegration stays the integrator named when it was created, through any history of other objects and dictionary changes. It refers to its dictionaries: backward Euler uses the linear solver they name at the time of the step and must not outlive them; Runge-Kutta reads them for its first step only. A copy of an Euler integrator does the same as the original at any later time; copying a Runge-Kutta integrator never succeeds (undefined behaviour; in a debug build the program ends). Moving hands over everything and the object moved from can neither step nor be copied. A linear solver keeps the settings it was created with; it can be copied, but no copy can ever solve or be copied (its pointer is null).", "quantifier": "all histories of creating, copying, moving, destroying and using integrators and solvers and of changing dictionaries", "why_tests_cant": "Whether a copy or a stored reference is still good depends on the whole history of the objects; tests use an object right after creating it.", "anchors": ["include/NeoFOAM/timeIntegration/timeIntegration.hpp: TimeIntegration", "src/timeIntegration/rungeKutta.cpp: RungeKutta", "include/NeoFOAM/linearAlgebra/solver.hpp: Solver", "include/NeoFOAM/linearAlgebra/ginkgo.hpp: clone", "include/NeoFOAM/linearAlgebra/petsc.hpp: clone"]}
{"id": "C118", "title": "What solve() returns with the PETSc backend", "statement": "With solver Petsc named and an exact KSP solve, every call of solve() that ends, ends normally with values that solve the equations with coefficients transposed (how much cell j counts in the equation of cell i and vice versa exchanged), both for equations without time derivative and for backward Euler steps, whatever operators they contain; every such field is a possible result. The result satisfies the equation itself whenever its coefficients are symmetric: the pressure equation on every mesh yields a divergence-free corrected flux, transport without flow is solved correctly. With convection it is not: on a three-cell mesh the returned field violates the equation although a solution exists.", "quantifier": "all meshes with at least one cell, fields, boundary data, equations and scheme selections, executors, all sequences of steps", "why_tests_cant": "a test compares one small symmetric system; the property covers every equation and mesh and characterises exactly which field comes out", "anchors": ["include/NeoFOAM/linearAlgebra/petsc.hpp: petscSolver::solve", "include/NeoFOAM/linearAlgebra/petscSolverContext.hpp: initialize", "include/NeoFOAM/dsl/solver.hpp: solve", "include/NeoFOAM/timeIntegration/backwardEuler.hpp: solve"]}
{"id": "C119", "title": "What solve() returns with the Ginkgo backend", "statement": "Solver Ginkgo, host executors, fewer than 2^31 matrix entries. For equations without time derivative a call of solve() hands Ginkgo the user's settings (same keys, nesting and values), a valid CSR matrix and right-hand side that are the equation, and the field's present values as initial guess, and the field gets what Ginkgo returns: if Ginkgo leaves a residual of at most tol in every row, every call satisfies the equation to within tol in every cell. Settings with an entry that is neither text, number nor dictionary make every call throw. Backward Euler passes fvSchemes as settings: it satisfies the equation to within tol if Ginkgo can take all entries of fvSchemes, but as convection and diffusion need their schemes there as token lists, every backward Euler step of an equation with such a term throws, whatever the dictionaries contain. The Ginkgo executor works in the memory of the NeoFOAM executor.", "quantifier": "all meshes, fields, boundary data, equations, scheme selections and settings, host executors and Kokkos builds, all behaviours of Ginkgo, all sequences of steps", "why_tests_cant": "the failure needs the combination of backward Euler, Ginkgo and a spatial operator that reads its scheme, which no test has; the rest quantifies over every equation and every behaviour of the library", "anchors": ["include/NeoFOAM/linearAlgebra/ginkgo.hpp: GinkgoSolver", "include/NeoFOAM/linearAlgebra/utilities.hpp: createGkoMtx, createGkoDense", "src/linearAlgebra/utilities.cpp: getGkoExecutor", "src/linearAlgebra/ginkgo.cpp: parse", "include/NeoFOAM/dsl/solver.hpp: solve", "include/NeoFOAM/timeIntegration/backwardEuler.hpp: solve"]}
{"id": "C120", "title": "Discretised equations as objects are snapshots", "statement": "An equation object made from the text of an equation assembles, at any later time, the system of that text as it was at construction - with the operators' coefficients and the schemes selected then, and the fields as they are at the call - whatever the program meanwhile does to the operators and expressions it used (scaling, building, appending), to other equation objects, or to the object's own system. Construction, also one that throws, leaves the program's operators, expressions and other objects as they were (the operators in the text are not built) and gives the zero system; only the object's own assemble(), a write through its own linearSystem() or its destruction change its system; a copy has the same system and assembles to the same as its original ever after, for any operators. Its solve() never returns: even after the linear solver has solved the system the program is terminated.", "quantifier": "all histories of constructing, scaling, building and combining operators and expressions and of constructing, copying, assembling, changing and destroying equation objects; all meshes, fields, schemes and value types", "why_tests_cant": "Independence of objects depends on the whole history of copies; a test runs one history.", "anchors": ["include/NeoFOAM/finiteVolume/cellCentred/dsl/expression.hpp: Expression, assemble, solve", "include/NeoFOAM/dsl/expression.hpp: Expression, build, addOperator, addExpression", "include/NeoFOAM/dsl/spatialOperator.hpp: SpatialOperator", "include/NeoFOAM/dsl/temporalOperator.hpp: TemporalOperator"]}
{"id": "C121", "title": "Whole explicit runs are reproducible to the last bit", "statement": "A run of any number of solve() calls with the forward Euler integrator, any step sizes, divergence, Laplacian and face-sum operators and any boundary conditions: on the serial executor it ends in exactly one state, in any arithmetic and on any mesh, whatever uninitialised memory contained, in debug and release builds. On meshes whose cells have at most two faces (one dimension) it ends, in float and double, in that same state on every executor and under every schedule. On any mesh, executor and schedule a step ends normally and sets each cell to old value minus step size times the operators' value, one multiplication and one subtraction, corrects the boundary, and stores the result as old-time field. (With more faces per cell the bits depend on the schedule: C96.)", "quantifier": "all meshes, fields, equations built from these operators, schemes, boundary conditions, numbers and sizes of steps, executors, schedules, arithmetics", "why_tests_cant": "Rounding differences show up only under particular schedules and build up over many steps; a test runs a few steps under the schedules that happen to occur.", "anchors": ["include/NeoFOAM/timeIntegration/forwardEuler.hpp: solve", "include/NeoFOAM/dsl/solver.hpp: solve", "include/NeoFOAM/dsl/expression.hpp: explicitOperation", "src/finiteVolume/cellCentred/operators/gaussGreenDiv.cpp: computeDiv", "src/finiteVolume/cellCentred/operators/gaussGreenLaplacian.cpp: computeLaplacianExp", "include/NeoFOAM/finiteVolume/cellCentred/fields/volumeField.hpp: correctBoundaryConditions"]}
{"id": "C122", "title": "SUNDIALS vector objects share, hand over and lose their vector", "statement": "The vector objects (SKVector) the Runge-Kutta integrator keeps its state in, through any history of creating, copying, moving, destroying, giving an executor to and initialising such objects and writing fields into them: an object given an executor, initialised and written returns the field, on every executor and schedule, and operations on other objects never change it. A copy's handle is the original's vector: what is written through one is read through both, and once the original is destroyed, re-initialised or given an executor every use of the copy is undefined behaviour until the copy itself is initialised. A copy of a copy is a different vector with unspecified values which dies with the first copy. Moving hands the vector over; the object moved from keeps a handle that dies with the new owner. New objects and objects just given an executor are unusable until initialised, and a field on another executor cannot be exchanged.", "quantifier": "all histories of operations on any number of objects, sizes, values, executors and schedules", "why_tests_cant": "Aliasing and dangling handles depend on the order of operations on all objects; undefined behaviour may go unnoticed in a test.", "anchors": ["include/NeoFOAM/timeIntegration/sundials.hpp: SKVector, SKVectorSerial, SKVectorHostDefault, SKVectorDefault, fieldToSunNVector, sunNVectorToField"]}
{"id": "C123", "title": "The MPI session of a process", "statement": "For every program over MPIInit and MPIEnvironment objects that uses its objects only while they live: it is correct exactly if it makes no MPI call, or initialises MPI once (with the thread support the build requires), opens environments only between that and the one destruction of an MPIInit object and only on communicators the process belongs to. MPI is never initialised or finalised twice in a correct program, so a program that destroys all its MPIInit objects has only one and never copies it. An environment, copied or not, reports the process's rank and the size of its communicator for as long as it lives, also after the session. Errors end the program inside the session; outside it error reports, too, are undefined behaviour (MPI_Abort), and so is opening an environment.", "quantifier": "all programs over any number of MPIInit and MPIEnvironment objects, communicators, thread support levels", "why_tests_cant": "Which calls are allowed depends on the whole history; a test driver has one fixed session.", "anchors": ["include/NeoFOAM/core/mpi/environment.hpp: MPIInit, MPIEnvironment", "include/NeoFOAM/core/error.hpp: NF_ERROR_EXIT"]}
{"id": "C124", "title": "A run of explicit upwind transport in float or double stays close to the exact run", "statement": "Scalars are float or double (round to nearest even, no overflow). For the program imp::ddt(T) + exp::div(flux,T) with upwind interpolation, forward Euler, divergence-free flux, Courant number at most 1 in every cell and fixed values where no fluid leaves or zero gradients on the boundary: if eps bounds what the roundings of one step can add in a cell (an explicit formula in the precision, the number of faces of the cell, the fluxes, the cell volume, the step and the largest value), then every run ends normally and after N steps no cell value is further than N*eps from that of the same program run in exact arithmetic - errors are not amplified. So no value leaves the range of the initial and prescribed ones by more than N*eps, runs on different executors, schedules, builds or precisions differ by at most the sum of their bounds, and the total amount differs from the exact one by at most N*eps times the volume. For rational data the exact run is the one the finite-volume formula describes: every step moves each cell value by the step times the balance of the upwind fluxes over its volume.", "quantifier": "every valid mesh, flux, number and length of steps, float and double, executor, schedule, debug and release build", "why_tests_cant": "How rounding errors accumulate over a run is a statement about all meshes, fields, numbers of steps and addition orders; a test compares a few values with a tolerance", "anchors": ["include/NeoFOAM/timeIntegration/forwardEuler.hpp: ForwardEuler::solve", "src/finiteVolume/cellCentred/operators/gaussGreenDiv.cpp: computeDivExp", "src/finiteVolume/cellCentred/interpolation/upwind.cpp: computeUpwindInterpolation", "include/NeoFOAM/dsl/solver.hpp: solve", "include/NeoFOAM/core/primitives/scalar.hpp: scalar"]}
{"id": "C125", "title": "Whole implicit runs are reproducible to the last bit", "statement": "A run of any number of solve() calls - backward or forward Euler steps, or equations without time derivative - with implicit or explicit divergence, Laplacian, source and face-sum operators, any step sizes and boundary conditions: on the serial executor it has exactly one outcome, in any arithmetic of the field values (so to the last bit in float and double) and on any mesh, whatever uninitialised memory contained, the same in debug and release builds, provided the linear solver gives one answer per system. That outcome is never undefined behaviour; it is a normal end if no linear solve fails and the dictionaries name the solver and integrator. On any executor and in any arithmetic a backward Euler step that ends leaves the boundary data as they were, and cell values and old-time field equal to what the linear solver returned for a system on the mesh's sparsity pattern, started from the previous values.", "quantifier": "all arithmetics of the field values, meshes, fields, dictionaries, expressions, step sequences, linear solvers, contents of uninitialised memory; executors and schedules for the single step", "why_tests_cant": "A test runs one configuration on one machine; that no allocation's previous contents, no build mode and no repetition changes a bit of an implicit run of any length is a statement about all of them.", "anchors": ["include/NeoFOAM/dsl/solver.hpp: solve", "include/NeoFOAM/timeIntegration/backwardEuler.hpp: BackwardEuler::solve", "include/NeoFOAM/linearAlgebra/solver.hpp: Solver", "src/finiteVolume/cellCentred/operators/gaussGreenDiv.cpp: computeDivImp", "include/NeoFOAM/finiteVolume/cellCentred/linearAlgebra/sparsityPattern.hpp: SparsityPattern"]}
{"id": "C126", "title": "The total distance between two transport runs never grows", "statement": "Two runs of the same program on the same mesh with the same flux or diffusivity and the same boundary conditions, started from any two fields: the volume-weighted sum of the absolute differences of their cell values after any number of steps is at most what it was at the start. This holds for explicit upwind convection with a divergence-free flux, values prescribed where fluid enters and gradients where it leaves, and a Courant number of at most 1 in every cell; for explicit diffusion with values or gradients prescribed everywhere and a diffusion number of at most 1; and for implicit convection-diffusion with steps of any size and any flux, divergence-free or not, with values prescribed exactly where fluid enters. So a local error in the initial data cannot add up to more than its original amount, and a steady solution is approached monotonically in this measure.", "quantifier": "all meshes, fluxes, diffusivities, pairs of initial fields, boundary conditions, step sequences, executors, schedules, names and dictionaries", "why_tests_cant": "A test compares particular pairs of runs; the claim is about every pair of initial fields, every mesh and any number of steps.", "anchors": ["include/NeoFOAM/dsl/solver.hpp:solve", "include/NeoFOAM/timeIntegration/forwardEuler.hpp:solve", "include/NeoFOAM/timeIntegration/backwardEuler.hpp:solve", "src/finiteVolume/cellCentred/operators/gaussGreenDiv.cpp", "src/finiteVolume/cellCentred/operators/gaussGreenLaplacian.cpp", "src/finiteVolume/cellCentred/interpolation/upwind.cpp", "include/NeoFOAM/finiteVolume/cellCentred/boundary/volume/fixedValue.hpp"]}
{"id": "C127", "title": "Transport along the uniform 1D mesh creates no oscillations", "statement": "On the uniform one-dimensional mesh of any number N of cells, walk from the value at the left end over the cell values to the value at the right end: the total of all upward steps and the total of all downward steps are, after any run, no larger than at its start. So the variation does not grow, an increasing profile stays increasing, a decreasing one decreasing - no overshoot or wiggle appears that was not there. This holds for explicit upwind convection with a uniform velocity to the right, a fixed inlet value, zero gradient at the outlet and Courant number at most 1 in every step; for explicit diffusion with fixed values or zero gradients at the ends (held by the initial field too) and 2 N^2 dt at most 1 (the generator's mesh has length 1), also when 3 N^2 dt exceeds 1 so that single steps need not respect bounds (C104); and for implicit convection-diffusion to the right with any non-negative diffusivity, fixed inlet value, zero gradient at the outlet and steps of any size.", "quantifier": "all numbers of cells, initial profiles, velocities, diffusivities, end values, step sequences, executors, schedules, names and dictionaries", "why_tests_cant": "A test looks at one profile on one mesh; the claim is about every profile, number of cells and number of steps.", "anchors": ["include/NeoFOAM/mesh/unstructured/unstructuredMesh.hpp: create1DUniformMesh", "include/NeoFOAM/dsl/solver.hpp:solve", "include/NeoFOAM/timeIntegration/forwardEuler.hpp:solve", "include/NeoFOAM/timeIntegration/backwardEuler.hpp:solve", "src/finiteVolume/cellCentred/operators/gaussGreenDiv.cpp", "src/finiteVolume/cellCentred/operators/gaussGreenLaplacian.cpp", "src/finiteVolume/cellCentred/interpolation/upwind.cpp"]}
{"id": "C128", "title": "The Courant number reported in float or double", "statement": "Scalars are float or double (round to nearest even, no overflow). On a mesh whose cells have at most k faces, with (1+u)^(k+6) at most 2, computeCoNum always returns, on every executor and under every schedule and whatever uninitialised memory held, a number that differs from the largest exact cell Courant number by a factor of at most (1+u)^(k+6) (u: half the spacing of numbers at 1), if no square of a flux and no cell Courant number (for the given time step and for time step 2) is so small that it underflows. The logged mean of n cells is off by a factor of at most (1+u)^(k+2n+6), if it does not underflow. For rational data the exact numbers are those of C50. So runs on different executors report the same number up to (1+u)^(2k+12), and if the reported number times (1+u)^(k+6) is at most 1, the stability limit of explicit convection holds exactly in every cell. Underflow does happen: the code takes the magnitude of a flux as the square root of its square, so fluxes whose squares are below half the smallest positive number do not count, and the reported number can be 0 whatever the Courant number is.", "quantifier": "all meshes, fluxes, time steps, executors, schedules, contents of uninitialised memory, both precisions", "why_tests_cant": "A test compares one mesh on the schedules that happen to occur; how far rounding and underflow can move the maximum and the mean is a claim about all fluxes and orders of addition.", "anchors": ["src/finiteVolume/cellCentred/auxiliary/coNum.cpp: computeCoNum", "include/NeoFOAM/core/parallelAlgorithms.hpp: parallelFor, parallelReduce", "include/NeoFOAM/core/primitives/scalar.hpp"]}
