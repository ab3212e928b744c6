{"id": "C01", "title": "Deferred scalar arithmetic equals direct arithmetic", "statement": "Every scalar expression built from +, -, *, /, unary minus, sqrt and rsqrt, whose operations are launched as separate asynchronous tasks, finally yields exactly the value obtained by evaluating the same expression directly in the entry type, with operands in the written order, whatever order the ready tasks run in.", "quantifier": "all expression DAGs, all operand values of any entry type, all dependence-respecting execution orders", "why_tests_cant": "the number of task schedules and expression shapes is unbounded; a unit test runs one schedule of one expression", "anchors": ["src/Scalar.cpp: operator+ operator- operator* operator/ sqrt rsqrt", "src/UtilityTasks.cpp: *ScalarTask::task_body"]}
{"id": "C02", "title": "Scalars have value semantics", "statement": "Re-assigning or copying a Scalar never changes the value of any other Scalar that was computed from, or copied from, its earlier value.", "quantifier": "all sequences of construct / copy / assign / arithmetic operations on any number of scalar variables", "why_tests_cant": "aliasing faults depend on the whole operation history", "anchors": ["src/Scalar.hpp: Scalar::operator=", "src/Scalar.cpp"]}
{"id": "C03", "title": "Multi-operand step factors", "statement": "The coefficient used by scal/axpy/xpay is 1 with no factor, a with one, a/b with two, (a*b)/c with three and (a*b)/(c*d) with four factors, evaluated in that order; five or more are rejected.", "quantifier": "all factor lists and all entry-type arithmetics", "why_tests_cant": "an associativity or order slip changes only rounding for most sampled values", "anchors": ["src/LegionUtilities.cpp: get_alpha"]}
{"id": "C04", "title": "Element-wise vector updates are exact on every partition and schedule", "statement": "scal, axpy, xpay, copy, fill and zero-fill on a partitioned vector change entry p to exactly alpha*x_p, fma(alpha,x_p,y_p), fma(alpha,y_p,x_p), x_p, c and 0 for every point p of the vector, leave every other location of every vector unchanged, and the result is bit-for-bit the same for every complete disjoint partition and every interleaving of the piece tasks.", "quantifier": "all index spaces (any dimension), partitions, contents, entry-type arithmetics and task interleavings", "why_tests_cant": "interleavings and partitions cannot be enumerated; races only appear on some schedules", "anchors": ["src/PartitionedVector.cpp: constant_fill operator= scal axpy xpay", "src/LinearAlgebraTasks.cpp: ScalTask AxpyTask XpayTask"]}
{"id": "C05", "title": "Dot product is the sum over the whole vector", "statement": "In exact arithmetic dot(v,w) equals the sum over all points of v_p*w_p, for every partition of the vector and every order in which partial results are reduced; it is symmetric, bilinear, and dot(v,v)>=0.", "quantifier": "all index spaces, partitions, reduction orders and real contents", "why_tests_cant": "independent of the partition and the reduction tree, both unbounded", "anchors": ["src/PartitionedVector.cpp: dot", "src/LinearAlgebraTasks.cpp: DotTask"]}
{"id": "C06", "title": "How far a dot product is bit-reproducible", "statement": "For a fixed order in which the run-time reduces the partial results, every interleaving of the piece tasks gives the same bits. With at most two pieces the result is moreover the same (up to the sign of a zero) for every reduction order. With three or more pieces it is not: there are binary64 vectors on which two legal reduction orders give different results.", "quantifier": "all floating-point contents, all task interleavings and all reduction orders; one witness for the negative part", "why_tests_cant": "depends on the run-time's schedule and reduction order, of which a test sees one", "anchors": ["src/PartitionedVector.cpp: dot (future reduction with LEGION_REDOP_SUM_*)"]}
{"id": "C07", "title": "Vector operations reject incompatible operands", "statement": "A binary vector operation is performed only when both operands have the same index space, colour space and partition; otherwise it is rejected before any entry is modified. A vector can only be built on a complete and disjoint partition.", "quantifier": "all pairs of vectors, all partitions", "why_tests_cant": "the set of wrong combinations is unbounded", "anchors": ["src/PartitionedVector.cpp: assertions in constructors and binary operations"]}
{"id": "C08", "title": "Vector handles never free storage in use and free it exactly once at the end", "statement": "In every history of a correct client (creating, copying and destroying vectors, matrices and planners, sharing and dropping references of its own) the library never issues an illegal runtime call (use after release, double release); the region, field space, index space, colour space and partition of a vector stay alive while any handle refers to them; the runtime's count of every object is exactly the number of references held; an object nobody refers to has been released.", "quantifier": "all finite histories of constructors, copy constructors, destructors and planner calls by correct clients", "why_tests_cant": "ownership faults appear only for particular histories", "anchors": ["src/PartitionedVector.cpp: PartitionedVector constructors and destructor", "src/SquarePlanner.hpp", "src/COOMatrix.cpp", "src/CSRMatrix.cpp"]}
{"id": "C09", "title": "COO matrix-vector product", "statement": "After matvec with a COO matrix, every destination entry equals its former value plus the sum, over all stored entries of that row, of entry*source[column]; nothing else changes, for every complete disjoint partition of the destination and every interleaving of the piece tasks; with any entry-type arithmetic the additions to one row occur in storage order, so the bits are schedule- and partition-independent.", "quantifier": "all COO matrices (duplicates included), sources, destinations, partitions and interleavings", "why_tests_cant": "sparsity patterns, partitions and schedules are unbounded", "anchors": ["src/COOMatrix.cpp: matvec", "src/COOMatrixTasks.cpp: COOMatvecTask::task_body"]}
{"id": "C10", "title": "CSR matrix-vector product", "statement": "The same as the COO statement, with the row of a stored entry being the row whose row-pointer interval contains it, provided the intervals are disjoint and cover the stored entries.", "quantifier": "all well-formed CSR matrices, sources, destinations, partitions and interleavings", "why_tests_cant": "same as C09", "anchors": ["src/CSRMatrix.cpp: matvec", "src/CSRMatrixTasks.cpp: CSRMatvecTask::task_body"]}
{"id": "C11", "title": "CSR products with malformed row pointers", "statement": "If the row-pointer intervals of a CSR matrix overlap, each piece of the destination credits a stored entry to the last of its rows whose interval contains it - so an entry may be counted once per piece and the product depends on the partition of the destination (there is a witness). An entry contained in no interval contributes nothing to the product with derived partitions, and no error is reported; with a user-supplied kernel partition that assigns such an entry to a piece the product aborts instead.", "quantifier": "all row pointers (also overlapping and with gaps), all partitions, all interleavings; one witness for the partition dependence", "why_tests_cant": "malformed row pointers form an unbounded set; the effect depends on partition and enumeration order", "anchors": ["src/CSRMatrixTasks.cpp: CSRMatvecTask::task_body", "src/CSRMatrix.cpp: create_kernel_partition_from_range_partition, matvec"]}
{"id": "C12", "title": "Derived kernel partitions assign every entry to the piece that owns its row", "statement": "For COO and CSR, the partition of the stored entries derived from a row partition puts each entry in exactly the pieces whose row set contains the entry's row: disjoint when the row partition is disjoint, complete when it is complete.", "quantifier": "all matrices and row partitions", "why_tests_cant": "universally quantified over data-dependent partitions", "anchors": ["src/COOMatrix.cpp: kernel_partition_from_range_partition", "src/CSRMatrix.cpp: kernel_partition_from_range_partition"]}
{"id": "C13", "title": "Ghost partitions contain every source entry a piece reads", "statement": "The source partition derived from a row partition contains, for each piece, exactly the columns of the entries in rows of that piece; therefore the column-in-input test of the matvec kernels never drops an entry.", "quantifier": "all matrices and row partitions", "why_tests_cant": "a missing halo point silently drops a term only for some patterns", "anchors": ["src/AbstractMatrix.cpp: domain_partition_from_range_partition", "src/COOMatrixTasks.cpp", "src/CSRMatrixTasks.cpp"]}
{"id": "C14", "title": "Row-from-column partitions", "statement": "The row partition derived from a column partition contains, per piece, exactly the rows having a stored entry in the piece's columns; it is monotone, and a matvec restricted by such partitions computes every row it owns completely when each row's columns lie in the piece.", "quantifier": "all matrices and column partitions", "why_tests_cant": "data-dependent partitions", "anchors": ["src/AbstractMatrix.cpp: range_partition_from_domain_partition", "src/COOMatrix.cpp, src/CSRMatrix.cpp: kernel_partition_from_domain_partition, range_partition_from_kernel_partition"]}
{"id": "C15", "title": "What the derived-partition helpers leave behind", "statement": "Computing a column partition from a row partition (or conversely) creates the partition returned (owned by the caller alone) and exactly one more object, a partition of the matrix's kernel space, which nobody holds: it stays allocated, whatever the program does later, exactly as long as the kernel index space does.  No other reference count changes.", "quantifier": "all histories, matrices and partitions", "why_tests_cant": "leaks are not observable by functional tests", "anchors": ["src/AbstractMatrix.cpp"]}
{"id": "C16", "title": "Block operators: planner matvec is the sum of all added matrices", "statement": "planner.matvec(dst,src) sets every component of dst to the sum over all added matrices with that range index of matrix*src[domain index], whatever dst contained before, and changes no other vector.", "quantifier": "all numbers of spaces, all lists of matrices and their index pairs", "why_tests_cant": "unbounded block structures", "anchors": ["src/SquarePlanner.hpp: add_row_partitioned_matrix matvec"]}
{"id": "C17", "title": "Planner vector operations act component-wise and touch only their destination", "statement": "zero_fill, copy, scal, axpy, xpay on planner vectors apply the vector operation to every component space and leave every other planner vector unchanged; dot is the sum of the component dots.", "quantifier": "all numbers of spaces and workspace vectors", "why_tests_cant": "indexing faults appear only with several spaces", "anchors": ["src/SquarePlanner.hpp"]}
{"id": "C18", "title": "Planner set-up protocol", "statement": "Solution and right-hand-side components may be added in any interleaving as long as components of equal index live on the same space and partition; adding a component after the workspace was allocated, allocating twice, mismatching components, or adding a matrix with an index out of range is rejected.", "quantifier": "all call sequences", "why_tests_cant": "call sequences are unbounded", "anchors": ["src/SquarePlanner.hpp: add_sol_vector add_rhs_vector allocate_workspace add_row_partitioned_matrix"]}
{"id": "C19", "title": "Planner and matrix handles are reference-count balanced", "statement": "Reference counts depend only on who currently holds what: if between two moments the references held are the same, so is every count; destroying a vector, matrix or planner succeeds and lowers each count by exactly the references that object held; once a client that avoids the leaky functions has destroyed its objects and dropped its references, nothing is left allocated; the Laplacian builders leave nothing behind.  A matrix must outlive the planners it was added to: if it is the only holder of its kernel space, destroying it first makes the planner's destructor illegal.", "quantifier": "all histories of correct clients", "why_tests_cant": "history dependent", "anchors": ["src/SquarePlanner.hpp: ~SquarePlanner", "src/COOMatrix.cpp", "src/CSRMatrix.cpp", "src/ExampleSystems.cpp"]}
{"id": "C20", "title": "Stencil-size computation is exact", "statement": "calculate_stencil_size(bounds, offsets) equals the number of (grid point, offset) pairs whose shifted point is inside the bounds, and none of its internal assertions can fail.", "quantifier": "all dimensions, bounds (empty ones too) and offset lists", "why_tests_cant": "the fast path that skips repeated slices depends on sizes and offsets jointly", "anchors": ["src/StencilGenerator.hpp: calculate_stencil_size"]}
{"id": "C21", "title": "Grid traversal visits every point once, in order", "statement": "Starting at the lower corner, repeated row-major (column-major) increments visit every point of a non-empty box exactly once in lexicographic (reverse-lexicographic) order, then stop with the point back at the lower corner.", "quantifier": "all dimensions and boxes", "why_tests_cant": "unbounded sizes", "anchors": ["src/StencilGenerator.hpp: increment_row_major increment_column_major compare_row_major compare_column_major"]}
{"id": "C22", "title": "Linearisation is an order-preserving bijection", "statement": "linearize_row_major / linearize_column_major map the points of a box bijectively onto 0..volume-1 and preserve the row-major / column-major order; the k-th point visited by the traversal has linear index k.", "quantifier": "all dimensions and boxes", "why_tests_cant": "unbounded sizes", "anchors": ["src/StencilGenerator.hpp: linearize_row_major linearize_column_major"]}
{"id": "C23", "title": "Offset comparison is a strict total order", "statement": "compare_row_major and compare_column_major are irreflexive, transitive and total on points of equal dimension (so std::sort's precondition holds), and the combined (offset, entry) comparator is a strict weak order whenever < on entries is.", "quantifier": "all points", "why_tests_cant": "algebraic law over all triples", "anchors": ["src/StencilGenerator.hpp: compare_*", "src/StencilGenerator.cpp: sort lambdas"]}
{"id": "C24", "title": "COO stencil contents", "statement": "The COO stencil matrix built for (bounds, offsets) stores exactly one entry (row=p, col=p+o, value=e) for every grid point p and offset (o,e) with p+o inside the bounds, at consecutive kernel positions 0..size-1, ordered by row then by offset.", "quantifier": "all dimensions, bounds, offset lists and both index orders", "why_tests_cant": "unbounded sizes", "anchors": ["src/StencilGenerator.cpp: FillCOOStencilTask FillLinearizedCOOStencilTask", "src/StencilGenerator.hpp: create_coo_stencil_matrix"]}
{"id": "C25", "title": "Stencil contents do not depend on the number of pieces", "statement": "The contents written by the stencil fill tasks are the same for every partition of the kernel (and row-pointer) space into pieces and every interleaving; no piece writes outside its own domain and every position is written.", "quantifier": "all partitions, piece counts and schedules", "why_tests_cant": "unbounded partitions and schedules", "anchors": ["src/StencilGenerator.cpp: all fill tasks"]}
{"id": "C26", "title": "CSR stencil contents and row pointers", "statement": "The CSR stencil matrix holds the same (row,col,value) triples as the COO one; its row-pointer intervals are contiguous, in order, disjoint, cover 0..size-1 and the interval of row p contains exactly the entries of row p.", "quantifier": "all dimensions, bounds, offset lists and both index orders", "why_tests_cant": "unbounded sizes", "anchors": ["src/StencilGenerator.cpp: FillCSRStencilTask FillLinearizedCSRStencilTask"]}
{"id": "C27", "title": "Bulk-slice skipping is only an optimisation", "statement": "The linearised row-major CSR fill task, which jumps over whole slices before its piece and stops early after it, writes exactly the same column, entry and row-pointer values as the task without jumping and early exit, for every piece.", "quantifier": "all dimensions, bounds, offsets, and all (kernel interval, row interval) pieces", "why_tests_cant": "the jump depends jointly on the box, the stencil and the piece position", "anchors": ["src/StencilGenerator.cpp: FillLinearizedCSRStencilTask ROW_MAJOR branch"]}
{"id": "C28", "title": "Stencil contents do not depend on the order of the offsets", "statement": "Permuting the offset list passed by the user does not change the matrix built, when < on the offset values is a strict total order on the values used.", "quantifier": "all permutations of all offset lists", "why_tests_cant": "factorially many permutations", "anchors": ["src/StencilGenerator.cpp: std::sort of offsets"]}
{"id": "C29", "title": "Stencil matrix times vector is zero-boundary convolution", "statement": "Applying the stencil matrix (COO or CSR) to x gives at each grid point p the sum over offsets (o,e) with p+o in bounds of e*x[p+o]; a stencil with e(o)=e(-o) gives a symmetric operator.", "quantifier": "all dimensions, bounds, offsets, vectors and partitions", "why_tests_cant": "end-to-end over unbounded data", "anchors": ["src/StencilGenerator.cpp", "src/COOMatrixTasks.cpp", "src/CSRMatrixTasks.cpp"]}
{"id": "C30", "title": "Task identifiers never collide", "statement": "Distinct (task kind, entry type, dimensions, index types) get distinct Legion task ids; ids of one kind never fall in the block of another kind nor on the library's meta task id.", "quantifier": "all kinds and all supported type/dimension combinations", "why_tests_cant": "all pairs of template instantiations; a collision silently runs the wrong task", "anchors": ["src/TaskBaseClasses.hpp: TaskT TaskDI TaskTDI TaskTDDDIII", "src/TaskIDs.hpp"]}
{"id": "C31", "title": "Run-time task-id computation agrees with the compile-time one", "statement": "The task id computed at run time from index-space type tags equals the id under which the corresponding template instance was registered.", "quantifier": "all supported dimensions, index types and entry types", "why_tests_cant": "all combinations; mismatch runs the wrong kernel", "anchors": ["src/TaskBaseClasses.hpp: task_id functions"]}
{"id": "C32", "title": "Which launches are registered", "statement": "Every scalar operation and every vector operation (also random fill and the stencil fills) on a space of dimension at most three with any enabled index type launches a task registered at initialisation. A matrix product launches a registered task exactly when its kernel, domain and range spaces are one-dimensional with 64-bit indices, and printing exactly when the kernel space is that and the domain space is 1-D, 2-D or 3-D with 64-bit indices: on every other space the library claims to support, the launched id belongs to no registered task.", "quantifier": "all API-constructible objects, all configurations with three or more dimensions", "why_tests_cant": "all type combinations; unit tests only ever run the combinations that work", "anchors": ["src/Initialize.cpp", "src/COOMatrix.cpp: matvec", "src/CSRMatrix.cpp: matvec"]}
{"id": "C33", "title": "Blocking shard assignment", "statement": "Point i of a launch over 0..n-1 with s shards goes to a shard in 0..s-1; the assignment is monotone (each shard owns a contiguous block) and no shard gets more than ceil(n/s) points.", "quantifier": "all launch sizes and shard counts", "why_tests_cant": "all n, s", "anchors": ["src/LegionSolversMapper.cpp: BlockingShardingFunctor::shard"]}
{"id": "C34", "title": "Which shards are used", "statement": "With n points and s shards, shard k receives a point exactly when k*ceil(n/s) < n: all shards are used when s divides n, idle shards are always the last ones, and some can stay idle although there are at least as many points as shards (five points on four shards leave the last one idle).", "quantifier": "all launch sizes and shard counts", "why_tests_cant": "all n, s", "anchors": ["src/LegionSolversMapper.cpp: BlockingShardingFunctor::shard"]}
{"id": "C35", "title": "Flatten/unflatten round trip", "statement": "Pitches maps 0..volume-1 bijectively onto the points of a box, inverse to the row-major (C order) resp. column-major (Fortran order) linear index, so a GPU kernel with one thread per index touches every point once.", "quantifier": "all dimensions, boxes and both orders", "why_tests_cant": "unbounded sizes", "anchors": ["src/Pitches.hpp", "src/LinearAlgebraTasks.cu: xpay_kernel"]}
{"id": "C36", "title": "CG maintains the true residual", "statement": "Starting CG with a zero initial guess, after any number of steps without breakdown the stored residual vector equals b - A x for the current solution x, in exact arithmetic, for any linear operator given by the added matrices; residual_norm_squared[k] is the squared norm of the k-th residual.", "quantifier": "all systems, all step counts", "why_tests_cant": "unbounded systems and step counts", "anchors": ["src/CGSolver.hpp"]}
{"id": "C37", "title": "What CG does with a non-zero initial guess", "statement": "Whatever the solution vector holds initially (x0), the vector the solver iterates on after k steps without breakdown is b - A (x - x0), not b - A x: it is the true residual of the current solution exactly when A x0 = 0. (The expectation that CG honours an initial guess is false: the constructor copies the right-hand side and never reads the solution vector; the solution converges to x0 + A^-1 b.)", "quantifier": "all systems, all initial guesses, all step counts", "why_tests_cant": "unbounded systems; a test with zero guess never shows it", "anchors": ["src/CGSolver.hpp: constructor"]}
{"id": "C38", "title": "CG optimality and finite termination", "statement": "For a symmetric positive definite operator the residuals are pairwise orthogonal and the search directions conjugate, the error in the energy norm never increases, no breakdown occurs while the residual is non-zero, and the exact solution is reached in at most n steps (n = number of unknowns).", "quantifier": "all SPD systems of all sizes", "why_tests_cant": "unbounded sizes and real-number data", "anchors": ["src/CGSolver.hpp: step"]}
{"id": "C39", "title": "Stepping CG after convergence destroys the solution", "statement": "Calling step() once the residual is exactly zero makes every entry of the solution NaN (undefined in exact arithmetic), for good: with binary64 arithmetic and a zero right-hand side every entry is NaN after any positive number of steps; in exact arithmetic every entry is undefined after any step beyond the one that made the residual vanish. (So the solver is not safe to step after convergence; the caller must test the residual.)", "quantifier": "all systems with finite entries, all converged states, all later step counts", "why_tests_cant": "needs 0/0 propagated through every element, step and schedule", "anchors": ["src/CGSolver.hpp: step"]}
{"id": "C40", "title": "BiCGStab is the textbook iteration and maintains the residual", "statement": "In exact arithmetic, after any number of steps in which no denominator vanishes, the solution, residual and direction vectors and the recorded rho, alpha, omega are those of the textbook BiCGStab iteration started with shadow residual b, for any (also non-symmetric) operator; the stored residual equals b - A (x - x0), so it is the true residual b - A x when the initial guess x0 is zero.", "quantifier": "all systems, initial guesses and step counts, all schedules", "why_tests_cant": "unbounded", "anchors": ["src/BiCGStabSolver.hpp"]}
{"id": "C41", "title": "GMRES builds an orthonormal Krylov basis", "statement": "In exact arithmetic every restart cycle, from any state reached by earlier cycles, either ends with the whole solution undefined or leaves in the workspace an orthonormal basis starting with the normalised residual b - A x and a last vector orthogonal to it, with recorded inner products that are upper Hessenberg with positive subdiagonal and satisfy the Arnoldi relation A q_j = sum_{i<=j+1} h_ij q_i; the solution moves by the plain sum of the basis vectors.", "quantifier": "all systems, initial guesses, restart lengths >= 1, numbers of earlier cycles, all schedules", "why_tests_cant": "unbounded", "anchors": ["src/GMRESSolver.hpp: step"]}
{"id": "C42", "title": "GMRES does not minimise the residual", "statement": "A restart cycle that stays defined moves the solution by exactly sqrt(restart) in the Euclidean norm, whatever the system (the least-squares coefficients are placeholders equal to one), so the iterates never converge: for every z, two consecutive iterates are not both closer than sqrt(restart)/2 to z; and the residual norm can grow, even for a symmetric positive definite system.", "quantifier": "all systems, initial guesses, restart lengths >= 1, step counts, all schedules", "why_tests_cant": "a statement about every system and every step; tests would need to look at infinitely many iterates", "anchors": ["src/GMRESSolver.hpp: step", "src/UtilityTasks.cpp: DummyTask"]}
{"id": "C43", "title": "1-D Laplacian example matrix", "statement": "The COO and CSR 1-D negative-Laplacian generators both produce exactly the tridiagonal matrix with 2 on the diagonal and -1 beside it, each stored position once; the CSR row pointers are contiguous, select exactly the entries of their row, and stay within the stored range except for n = 1, where the only row pointer reaches one position past the end.", "quantifier": "all sizes n >= 1, all partitions and schedules of the fill tasks", "why_tests_cant": "unbounded n and partitions", "anchors": ["src/ExampleSystems.cpp"]}
{"id": "C44", "title": "CG solves the 1-D Laplacian", "statement": "CG on the example system reaches the exact solution of the tridiagonal system in at most n steps in exact arithmetic, for every right-hand side, for COO and CSR storage and every partition.", "quantifier": "all n, right-hand sides, partitions, formats", "why_tests_cant": "end-to-end over unbounded data", "anchors": ["src/CGSolver.hpp", "src/ExampleSystems.cpp", "src/SquarePlanner.hpp"]}
{"id": "C45", "title": "GPU and CPU matrix products: where they agree and where not", "statement": "COO: when the stored entries a task receives are contiguous in storage and sorted by row (rows and columns non-negative), the GPU task makes a legal cuSPARSE call and leaves exactly the CPU result in the destination and nothing else changed; with a gap in the entries the call covers the wrong entries; storage sorted by row always gives contiguous pieces. CSR: the GPU task OVERWRITES the destination with the product (beta = 0) while the CPU task adds to it, so the two agree exactly for rows whose former value is zero, and a second GPU product into the same destination discards the first.", "quantifier": "all matrices, pieces, sources, previous destination contents, addresses", "why_tests_cant": "the defect shows only with several matrices per output or non-zero destinations on GPUs", "anchors": ["src/CSRMatrixTasks.cu", "src/COOMatrixTasks.cu", "src/CSRMatrixTasks.cpp", "src/CuSPARSEHelpers.hpp"]}
{"id": "C46", "title": "GPU CSR index-pointer conversion", "statement": "The local index-pointer array handed to the GPU library for a piece of rows describes exactly the entries of each of its rows, when row pointers are contiguous; and the shifted vector pointers address the same elements the CPU code addresses.", "quantifier": "all contiguous row-pointer arrays and pieces", "why_tests_cant": "unbounded sizes", "anchors": ["src/CuSPARSEHelpers.hpp", "src/CUDAUtilities.cpp"]}
{"id": "C47", "title": "GPU launches cover every index", "statement": "The number of blocks times the block size is at least the number of threads asked for, and less than one block too many, so with the in-kernel bound check each index is processed exactly once.", "quantifier": "all thread counts", "why_tests_cant": "all sizes", "anchors": ["src/CUDAUtilities.hpp / src/CudaLibs.hpp: get_num_blocks_1d", "src/LinearAlgebraTasks.cu"]}
{"id": "C48", "title": "GPU dense vector kernels and memory layout", "statement": "The GPU scal/axpy/dot tasks process exactly the points of the piece when the piece's elements fill a block of consecutive addresses (its own instance, a slab of a larger instance in the slowest dimension, any one-dimensional piece), both operands have the same strides and the piece has fewer than 2^31 elements. For every other layout some element of the piece is skipped and a foreign element is modified; with 2^31 or more elements some are skipped (none processed when the 32-bit count is negative); sparse pieces abort; operands in different orders pair different points.", "quantifier": "all affine layouts, dimensions and pieces", "why_tests_cant": "the layout is chosen by the mapper at run time; the defects need GPUs, sub-box instances or huge pieces", "anchors": ["src/LinearAlgebraTasks.cu: ScalTask AxpyTask DotTask cuda_task_body", "src/CUDAUtilities.hpp: cublas_scal cublas_axpy cublas_dot"]}
{"id": "C49", "title": "What stencil matrix creation leaves behind", "statement": "create_coo_stencil_matrix leaves exactly five Legion objects (create_csr_stencil_matrix nine) that nobody holds: after the returned matrix is destroyed they remain, each with one owner, and they remain alive in every later state of every correct program; all other counts are as before the call.", "quantifier": "all histories before and after the call", "why_tests_cant": "leaks are not observable functionally", "anchors": ["src/StencilGenerator.hpp: create_*_stencil_matrix"]}
{"id": "C50", "title": "Stencil arguments survive serialisation", "statement": "The fill task reads back exactly the arguments and the offset list that were packed into the argument buffer.", "quantifier": "all offset lists, including the empty one", "why_tests_cant": "byte-level round trip over unbounded lists", "anchors": ["src/StencilGenerator.hpp: arg_buffer", "src/StencilGenerator.cpp: num_offsets, offset_ptr"]}
{"id": "C51", "title": "Task flag algebra", "statement": "Combining task flags with | and testing with & behaves as set union and membership on the four independent flags.", "quantifier": "all flag combinations", "why_tests_cant": "finite but all combinations", "anchors": ["src/LegionUtilities.hpp: TaskFlags operators"]}
{"id": "C52", "title": "2-D Laplacian kernel size", "statement": "The closed formula for the number of stored entries of the 2-D Laplacian equals the number of 5-point stencil entries of an h-by-w grid for all h,w >= 1.", "quantifier": "all h,w", "why_tests_cant": "unbounded sizes", "anchors": ["src/ExampleSystems.hpp or .cpp: laplacian_2d_kernel_size"]}
{"id": "C53", "title": "Planner operations behave as if executed in program order", "statement": "Any sequence of planner calls (zero_fill, copy, scal, axpy, xpay, dot, matvec and scalar arithmetic), whose tasks run asynchronously as soon as their dependences allow, ends in exactly the state obtained by waiting for each call before issuing the next; all executions agree bit for bit for a given reduction order.", "quantifier": "all call sequences, all planners, all schedules of the run-time, any entry-type arithmetic", "why_tests_cant": "the set of schedules is unbounded; races show only in rare interleavings", "anchors": ["src/SquarePlanner.hpp: all operations", "src/PartitionedVector.cpp: region requirements and privileges of every launch", "src/COOMatrix.cpp: matvec", "src/CSRMatrix.cpp: matvec", "src/Scalar.cpp"]}
{"id": "C56", "title": "BiCGStab always breaks down in exact arithmetic", "statement": "For every system with at least one unknown there is a step count k smaller than the number of unknowns such that runs of at most k steps leave a defined solution vector, and every longer run completes with every entry of the solution undefined (zero divided by zero); when no earlier denominator vanishes, the point x + alpha p reached in the middle of step number |unknowns| solves the system, but the step goes on to divide by zero.", "quantifier": "all systems (any operator), initial guesses, schedules, step counts", "why_tests_cant": "unbounded step counts and sizes; finite termination is a theorem of linear algebra", "anchors": ["src/BiCGStabSolver.hpp: step"]}
{"id": "C57", "title": "BiCGStab: one step past convergence destroys the solution", "statement": "If the solution after k steps satisfies A (x - x0) = b, then after any larger number of steps every entry of the solution vector is undefined (NaN), although no assertion fails.", "quantifier": "all systems, initial guesses, schedules, step counts", "why_tests_cant": "ranges over all systems that converge exactly", "anchors": ["src/BiCGStabSolver.hpp: step"]}
{"id": "C58", "title": "GMRES with a restart length above the number of unknowns loses the solution", "statement": "If the restart length is larger than the number of unknowns, then after any positive number of steps every entry of the solution vector is undefined (division by a zero norm), for every system; no assertion fails.", "quantifier": "all systems, restart lengths, step counts, schedules", "why_tests_cant": "ranges over all systems; rests on a dimension argument", "anchors": ["src/GMRESSolver.hpp: step"]}
{"id": "C59", "title": "GMRES: a step from an exact solution loses it", "statement": "If the solution after k steps satisfies A x = b, then after any larger number of steps every entry of the solution vector is undefined, although no assertion fails.", "quantifier": "all systems, restart lengths >= 1, step counts, schedules", "why_tests_cant": "ranges over all systems", "anchors": ["src/GMRESSolver.hpp: step"]}
{"id": "C54", "title": "Solvers run to completion and all schedules agree", "statement": "For every legal problem setup and every number of steps, constructing and stepping the CG, BiCGStab or GMRES solver violates no assertion or Legion precondition, some execution completes, and all executions leave exactly the same vectors and scalars (for a given reduction order), whatever the entry type arithmetic (also when it produces NaN or infinity).", "quantifier": "all systems, all step counts, restart lengths, all schedules, any entry-type arithmetic", "why_tests_cant": "the set of schedules and step counts is unbounded", "anchors": ["src/CGSolver.hpp", "src/BiCGStabSolver.hpp", "src/GMRESSolver.hpp"]}
{"id": "C55", "title": "Printing a partition runs the task instance for its parent space", "statement": "print_index_partition launches the print task instantiated for the dimension and index type of the space being partitioned exactly when the colour space has that same dimension and index type (so a 2-D grid coloured by 0..k-1 gets the 1-D instance).", "quantifier": "all colour spaces and parent spaces of supported dimension and index type, all configurations", "why_tests_cant": "the mismatch depends on run-time type tags; a test with 1-D spaces never shows it", "anchors": ["src/LegionUtilities.cpp: print_index_partition", "src/UtilityTasks.cpp: PrintIndexTask", "src/TaskBaseClasses.hpp: TaskDI"]}
{"id": "C60", "title": "Copying a planner releases its resources twice", "statement": "The implicitly generated copy constructor of the planner makes a planner with the same members but acquires only the references of the vectors, so counts fall short of what the two destructors release by exactly the planner's own references (spaces, partitions, workspace, kernel partitions); if one of those objects (e.g. the workspace field space) has no holder besides the planner, destroying both copies issues an illegal runtime call.", "quantifier": "all reachable planners", "why_tests_cant": "the fault is in code that the compiler generates; no test copies a planner", "anchors": ["src/SquarePlanner.hpp: SquarePlanner, ~SquarePlanner"]}
{"id": "C61", "title": "CG solves the convolution equation of a stencil matrix", "statement": "Build a matrix with any of the stencil creators from a symmetric stencil whose zero-boundary convolution is positive definite, give it to the planner on the diagonal of any number k >= 1 of components with zero initial solutions, and run CG: some number of steps n <= k * (number of grid points) is accepted by every assertion, and whatever the partition and schedule every solution vector then holds the unique grid function x with sum_off e_off * x[p + off] = b[p] at every grid point.", "quantifier": "all boxes, dimensions, symmetric positive stencils, storage formats, index orders, partitions, schedules, reduction orders, right-hand sides, numbers of components", "why_tests_cant": "end-to-end statement over unbounded grids and schedules; needs a convergence proof", "anchors": ["src/StencilGenerator.hpp: create_*_stencil_matrix", "src/SquarePlanner.hpp", "src/CGSolver.hpp: step", "test/BenchmarkStencil.cpp"]}
{"id": "C62", "title": "The benchmark's model problems are solved", "statement": "Every stencil whose centre entry is positive and at least the sum of the absolute values of the other entries is positive definite on every nonempty finite box of every dimension. In particular for each of the four -dim choices of BenchmarkStencil and every grid size the two-component system it sets up is accepted and CG reaches the exact solution of both components within 2 * (number of grid points) steps.", "quantifier": "all grid sizes, the four model stencils and all diagonally dominant ones, partitions, schedules, right-hand sides", "why_tests_cant": "positive definiteness for every grid size is a mathematical fact no test establishes", "anchors": ["test/BenchmarkStencil.cpp: get_laplacian_matrix, top_level_task", "src/StencilGenerator.hpp: create_linearized_csr_stencil_matrix", "src/CGSolver.hpp"]}
{"id": "C63", "title": "Solver steps can be captured in a trace and replayed", "statement": "After any number of steps, the next n steps of CG, BiCGStab or GMRES issue the same sequence of operations as the n steps after any other number of steps: the same point tasks doing the same updates to the same elements, the same region requirements, the same number of future arguments, a result or none; no step creates a region. So bracketing n steps with begin_trace/end_trace under one trace id, as the benchmark does, records a sequence every later bracket repeats.", "quantifier": "all systems, partitions, step counts before and inside the bracket, arithmetic types, reduction orders, restart lengths", "why_tests_cant": "a trace mismatch is a run-time abort for one particular history; a test covers only the counts it runs", "anchors": ["test/BenchmarkStencil.cpp: begin_trace, end_trace", "src/CGSolver.hpp: step", "src/BiCGStabSolver.hpp: step", "src/GMRESSolver.hpp: step"]}
{"id": "C64", "title": "Stencil matrices with int or 64-bit coordinates: when overflow cannot and when it does happen", "statement": "If the grid's coordinates leave one value free above, every grid coordinate plus every offset coordinate is representable in COORD_T (inside the grid or not), no offset has the most negative coordinate, four times the number of (point, offset) pairs fits coord_t and, for linearised matrices, the number of grid points is at most the largest COORD_T, then creating COO, CSR and linearised matrices never overflows, always finishes, and stores exactly the in-grid triples in order. Conversely: linearising any point of a larger grid is undefined behaviour; a COO or CSR fill whose point + offset is not representable never completes normally, whatever its piece; and in two or more dimensions the entry count of a grid that reaches the largest coordinate is never computed.", "quantifier": "all integer types (int, long long), dimensions, nonempty grids, offset lists, partitions, schedules", "why_tests_cant": "overflow only appears for grids with billions of points or near the end of the coordinate type, which tests do not allocate", "anchors": ["src/StencilGenerator.hpp: calculate_stencil_size, increment, linearize, create_coo_stencil_matrix, create_csr_stencil_matrix, create_linearized_csr_stencil_matrix", "src/StencilGenerator.cpp: FillCOOStencilTask, FillLinearizedCOOStencilTask, FillCSRStencilTask, FillLinearizedCSRStencilTask"]}
{"id": "C65", "title": "Rounding error of a float or double dot product", "statement": "In float and double (and any IEEE binary format, round to nearest), for every partition of the vectors, every schedule and every order in which the runtime combines the partial results, a dot product whose result is finite differs from the exact dot product of the stored numbers by at most ((1+u)^n - 1) * sum |x_i y_i| plus n (1+u)^n times half the smallest positive number, where n is the number of entries and u the unit round-off; if all entries are finite and sum |x_i y_i| stays below half the overflow threshold by that margin, the result is finite. So two runs with other partitions or reduction orders differ by at most twice that.", "quantifier": "all vectors, entries, partitions, schedules, reduction trees, IEEE formats", "why_tests_cant": "a test compares with one expected value for one partition; it cannot bound the error over all inputs and reduction orders", "anchors": ["src/PartitionedVector.cpp: dot", "src/LinearAlgebraTasks.cpp: DotTask", "src/Scalar.hpp"]}
{"id": "C66", "title": "Rounding error of a float or double matrix-vector product", "statement": "In any IEEE format every entry of y after y += A x (COO or CSR), if finite, differs from the exact value of y_p + sum over the stored entries of row p of a*x by at most ((1+u)^m - 1) times the sum of the magnitudes of these m terms plus the underflow term; starting from zero, m is the number of stored entries of the row. Entries are finite when the inputs are and the sum of magnitudes is clear of the overflow threshold.", "quantifier": "all matrices, formats, vectors, partitions, schedules, IEEE formats", "why_tests_cant": "the bound ranges over all real inputs and partitions", "anchors": ["src/COOMatrixTasks.cpp: COOMatvecTask", "src/CSRMatrixTasks.cpp: CSRMatvecTask", "src/COOMatrix.cpp: matvec", "src/CSRMatrix.cpp: matvec"]}
{"id": "C67", "title": "Vector updates round once per entry", "statement": "In any IEEE format scal, axpy and xpay return for every entry the exact value of alpha*y, y + alpha*x, x + alpha*y (alpha the coefficient computed from the factors) rounded once: relative error at most u plus half the smallest positive number; fills and copies are exact.", "quantifier": "all vectors, coefficients, factor lists, partitions, schedules, IEEE formats", "why_tests_cant": "a second rounding (multiply, then add) is visible only for special inputs", "anchors": ["src/LinearAlgebraTasks.cpp: ScalTask, AxpyTask, XpayTask", "src/PartitionedVector.cpp: scal, axpy, xpay"]}
{"id": "C68", "title": "CG in float and double is CG with bounded local errors", "statement": "For any IEEE format, system, initial guess, right-hand side and number of steps: constructing a CGSolver and stepping k times is accepted, leaves the right-hand side unchanged and records k+1 residual norms. If the solution and the direction vector are free of infinities and NaNs at the end, then no earlier iterate had any either, no recorded norm was zero or overflowed before the last step, and every step computed the CG formulas up to these errors: A p and the two dot products within the classical bound for sums of that many products, alpha, beta and every entry of x, r, p within one rounding (alpha is 0 if p.Ap overflowed).", "quantifier": "all IEEE formats, matrices, partitions, schedules, reduction orders, initial guesses, right-hand sides, step counts", "why_tests_cant": "rounding errors depend on every input and on the reduction order; a test sees single runs", "anchors": ["src/CGSolver.hpp: CGSolver, step", "src/Planner.hpp: axpy, xpay, dot_product, matvec"]}
{"id": "C69", "title": "The recorded residual stays close to the true residual", "statement": "For any IEEE format and any run of k CG steps that ends with finite solution and direction vectors: each entry of the residual vector the solver maintains differs from the true residual b - A(x - x0) of the solution it returns by at most the sum over the steps of the local rounding errors, and the last recorded squared norm differs from the squared norm of the true residual by at most the corresponding bound. (The initial guess x0 is not subtracted: with x0 = 0 this is the residual b - A x.)", "quantifier": "all IEEE formats, systems, partitions, schedules, reduction orders, right-hand sides, step counts", "why_tests_cant": "no finite set of runs bounds the drift between recursive and true residual", "anchors": ["src/CGSolver.hpp: step, residual_norm_squared"]}
{"id": "C71", "title": "Printing a matrix shows exactly its stored entries", "statement": "print() on a COO or CSR matrix emits its stored entries in storage order: each line shows the position, the stored value, the stored column, and a row the entry belongs to. A COO print always completes; a CSR print aborts exactly when some stored entry lies in no row's interval, and then only after the lines of all earlier entries. For a stencil matrix the full printout is the sorted list of stencil triples, the same for COO, CSR and linearised storage, whatever the number of pieces and the schedule that built it.", "quantifier": "every COO or CSR matrix (any index order, any contents, including malformed row intervals), every stencil, launch domain, piece count and storage format", "why_tests_cant": "A test prints a few well-formed matrices; the abort condition and the equality of printouts across formats are statements about all storage contents.", "anchors": ["src/COOMatrix.cpp: COOMatrix::print, COOPrintTask", "src/CSRMatrix.cpp: CSRMatrix::print, CSRPrintTask"]}
{"id": "C70", "title": "The benchmark program runs at least the requested iterations, in identical traces", "statement": "For command-line values -it N and -pt P (P >= 1, N + P <= 2^64) the benchmark runs n traces of P steps each, n the least number with n*P >= N but at least the five warm-up traces, so at least N steps in total; all traces (which share one trace id) issue the same sequence of operations; the final state is that of the solver stepped P*max(5,n) times. The printed number of timed traces is n - 5 when n >= 5, and wraps around to 2^64 + n - 5 otherwise (then no step is timed and the printed time is divided by that). -pt 0 is undefined behaviour. In exact arithmetic, CG run with more iterations than grid points (the default: 20 iterations, 16 points) leaves every entry of both solution vectors undefined.", "quantifier": "all solvers, grids, stencil dimensions 1-4, iteration and trace sizes, piece counts, schedules; the last claim: all right-hand sides equal in both components, exact arithmetic", "why_tests_cant": "a test runs one configuration; the wrap-around and the over-iteration depend on all parameters", "anchors": ["test/BenchmarkStencil.cpp: top_level_task", "src/CGSolver.hpp: step", "src/BiCGStabSolver.hpp: step", "src/GMRESSolver.hpp: step"]}
{"id": "C73", "title": "Each GPU gets one handle per CUDA library, created once, on that GPU", "statement": "In any history of cuBLAS/cuSPARSE handle requests made by tasks running on GPU processors, every request succeeds; two requests receive the same handle exactly when they ask for the same library on processors whose ids agree modulo LEGION_MAX_NUM_PROCS; the handle was created on the processor that first asked for it. Hence a GPU never uses a handle created on another GPU when the ids of the GPUs of a process are distinct modulo that number, and does when they are not. A request from a non-GPU processor aborts.", "quantifier": "all histories of requests, processor ids and table sizes that are powers of two", "why_tests_cant": "the table is filled lazily: which handle a request gets depends on the whole history of requests", "anchors": ["src/CUDAUtilities.cpp: get_cuda_library_context, get_cublas_handle, get_cusparse_handle"]}
{"id": "C72", "title": "Solver tasks touch only what they declared, and nothing uninitialised", "statement": "In every run of a CG, BiCGStab or GMRES solver (and every program of planner calls on existing vectors) each point task reads and writes only elements of its own pieces of the regions its launch names, under a privilege that allows it, and only scalars its launch names; no two point tasks of one launch touch the same location with one of them writing; no launch names the same field twice with one of them writing. In the solver runs, moreover, every element, scalar or partial result a task reads was supplied by the user (solution, right-hand side) or was written by an earlier launch.", "quantifier": "all systems, partitions, entry types and arithmetics, numbers of steps, restart lengths", "why_tests_cant": "an undeclared access or a read of uninitialised workspace goes unnoticed in most runs: Legion checks privileges only in debug builds and fresh instances often happen to hold zeros", "anchors": ["src/PartitionedVector.cpp: get_requirement and all operations", "src/LinearAlgebraTasks.cpp", "src/COOMatrix.cpp: matvec", "src/CSRMatrix.cpp: matvec", "src/SquarePlanner.hpp", "src/CGSolver.hpp", "src/BiCGStabSolver.hpp", "src/GMRESSolver.hpp"]}
{"id": "C74", "title": "Solver results do not depend on what the memory held before", "statement": "Run the same solver program twice on memories that agree on the solution and right-hand-side vectors but may differ anywhere else (in particular in the freshly allocated workspace): both runs return the same solver object, leave the same solution and right-hand side and the same recorded scalars, and every location that either run changes ends up with the same contents, bit for bit, in any arithmetic and any schedule.", "quantifier": "all pairs of initial memories, systems, partitions, arithmetics (including NaN contents), schedules, numbers of steps", "why_tests_cant": "a test sees one initial memory; stale or NaN workspace contents that leak into a result show up only for some allocations", "anchors": ["src/SquarePlanner.hpp: allocate_workspace, matvec, zero_fill", "src/CGSolver.hpp", "src/BiCGStabSolver.hpp", "src/GMRESSolver.hpp"]}
{"id": "C78", "title": "Chained prints show final values in program order", "statement": "A program that prints scalars one after another, handing each print the future returned by the one before, shows exactly one line per print, in program order, each the value the scalar finally has - the value computed directly in the entry type when the scalar comes from a program of scalar operations - in every schedule. Prints that are not chained may appear in any order.", "quantifier": "all programs before the prints (arbitrary launches; all straight-line scalar programs), all numbers of prints, arithmetics and schedules", "why_tests_cant": "a run shows one schedule; that lines cannot be swapped, lost or early is a statement about all of them", "anchors": ["src/Scalar.cpp: print", "src/UtilityTasks.cpp: PrintScalarTask", "test/Test05COOSolveCG.cpp", "test/Test06CSRSolveCG.cpp"]}
{"id": "C79", "title": "Printing an index partition shows every point of every piece once", "statement": "print_index_partition announces the number of pieces and then, however the output of its point tasks is interleaved, shows for each colour exactly the points of that piece in iteration order, each (colour, point) pair once, and nothing else - provided the colour space has the dimension and coordinate type of the partitioned space; for any other partition the call is an error.", "quantifier": "all index partitions (also overlapping or incomplete ones), all interleavings of the output lines", "why_tests_cant": "the output of concurrent tasks is interleaved differently in every run", "anchors": ["src/LegionUtilities.cpp: print_index_partition", "src/UtilityTasks.cpp: PrintIndexTask"]}
{"id": "C77", "title": "The project's own tests pass for every size, partition and schedule", "statement": "The programs of Test05 and Test06 (1-D Laplacian of n points in COO or CSR form, right-hand side 1, initial guess 0, k steps of CG with 2k <= n+1, then chained prints) are accepted and print, in exact arithmetic and in every execution, the lines n, (n-2)n/2, (n-4)(n-2)/2, ... in this order (100, 4900, 4704, ..., 3280 for n = 100, k = 10), and leave the truncated parabola in the solution vector, which after half of n steps (rounded up) is the exact solution (i+1)(n-i)/2. The partitions Test03 and Test04 print are, for any partition of the rows, the entries whose row (k+1)/3 lies in the range piece and the points of the piece with their neighbours. Test01's expression equals 1 in float and double, and Test02 prints 0 in float and double (and in exact arithmetic whatever the vectors are filled with).", "quantifier": "all grid sizes, complete disjoint partitions, reduction orders, schedules, numbers of steps up to half the grid size", "why_tests_cant": "each test runs one size (100 or 20 points, 4 pieces) under one schedule and compares sorted lines, so even the order of the lines is not checked", "anchors": ["test/Test01ScalarOperations.cpp: top_level_task", "test/Test03COOPartitioning.cpp: top_level_task", "test/Test04CSRPartitioning.cpp: top_level_task", "test/Test05COOSolveCG.cpp: top_level_task", "test/Test06CSRSolveCG.cpp: top_level_task", "test_all.py: EXPECTED_CG_OUTPUT, EXPECTED_PARTITION_OUTPUT"]}
{"id": "C80", "title": "Straight-line programs over scalars, vectors and matrices mean what they say", "statement": "A C++ program that declares vectors and scalars and then executes any sequence of assignments of scalar expressions, scalar products, fills, copies, scal, axpy and xpay (with one or several coefficient expressions) and matrix-vector products (with derived partitions) on compatible vectors is accepted, and in every execution ends with exactly the values one gets by executing the statements one after the other on plain arrays, where only a scalar product may group and order its additions freely; nothing else that was stored changes. All executions of one run end with the same bits; in exact arithmetic the results do not depend on partitions or reduction orders, and without scalar products this holds bit for bit in any arithmetic. Scalars printed at the end show these values in order.", "quantifier": "all programs of that form, entry types, partitions, reduction orders, schedules, initial contents", "why_tests_cant": "tests run a handful of programs; the deferred launches of every program under every schedule cannot be enumerated", "anchors": ["src/Scalar.hpp: operators", "src/PartitionedVector.cpp: all operations", "src/COOMatrix.cpp, src/CSRMatrix.cpp: matvec", "test/Test02VectorOperations.cpp"]}
{"id": "C75", "title": "Solver runs give the same result wherever the mapper places the matrix tasks", "statement": "Every matrix-vector point task has a CPU and a GPU variant, and the mapper may choose either for each task separately. If the index spaces are one-dimensional with non-negative coordinates, the partitions consist of intervals, COO entries are stored in order of their rows and CSR rows are stored one after the other, every choice is accepted. The product a planner then computes is, in each element, the chain of the matrices of its block row, a CPU task adding its products one by one, a GPU COO task adding one sum taken in any order, a GPU CSR task starting afresh. In exact arithmetic, when a CSR matrix is the first matrix added to its block row, that is the block product whatever the mapping, and runs of CG, BiCGStab and GMRES of any length are accepted and end in exactly the results of the run on CPUs; in particular CG on the 1-D Laplacian example still solves its system in at most n steps. When a CSR matrix is not the first of its block row, what earlier matrices contributed to a piece handled on a GPU is lost.", "quantifier": "all systems, arithmetics (the product), mappings (a choice per product, matrix and colour), cuSPARSE summation orders, partitions into intervals, schedules, step counts", "why_tests_cant": "the number of placements is exponential in the number of point tasks of a run, and a test machine has one configuration", "anchors": ["src/COOMatrixTasks.cu: COOMatvecTask::cuda_task_body", "src/CSRMatrixTasks.cu: CSRMatvecTask::cuda_task_body", "src/LegionUtilities.hpp: preregister_task", "src/SquarePlanner.hpp: matvec", "src/CGSolver.hpp", "src/BiCGStabSolver.hpp", "src/GMRESSolver.hpp"]}
{"id": "C76", "title": "BiCGStab in float and double is BiCGStab with bounded local errors", "statement": "For any IEEE format, system, initial guess, right-hand side and number of steps: constructing a BiCGStabSolver and stepping k times is accepted, leaves the right-hand side unchanged and records k+1 values each of rho, alpha and omega. If the solution and the residual vector are free of infinities and NaNs at the end, then they were at every earlier step, no rho or omega that is divided by was zero, and every step computed the BiCGStab formulas (starting from residual b, p = v = 0, rho = omega = 1, alpha = 0) up to these errors: the two matrix products and the four scalar products within the classical bound for sums of that many products, every scalar quotient and product and every entry of each updated vector within one rounding (alpha or omega is 0 if the sum it is divided by overflowed). Each entry of the residual the solver maintains differs from the true residual b - A(x - x0) of the returned solution by at most the sum over the steps of the local rounding errors of the two solution updates, two products and two residual updates.", "quantifier": "all IEEE formats, matrices, partitions, schedules, reduction orders, initial guesses, right-hand sides, step counts", "why_tests_cant": "rounding errors depend on every input and on the reduction order; a test sees single runs", "anchors": ["src/BiCGStabSolver.hpp: BiCGStabSolver, step", "src/SquarePlanner.hpp: axpy, xpay, dot_product, matvec", "src/Scalar.hpp: operators"]}
{"id": "C81", "title": "Size limits of the hand-written GPU kernel", "statement": "The GPU variant of XPAY numbers the entries of its piece with C++ machine integers. For a non-empty piece that is a box with corners of the coordinate type, no side larger than the largest value of that type, and at most 128*(2^31-1) points, the kernel launch visits every point of the piece exactly once and no other point. For a signed coordinate type, any side beyond that is undefined behaviour. With more than 128*(2^31-1) (and up to 128*2^32) points, or with unsigned coordinates and a side taking all 2^32 values, XPAY touches no entry at all and returns normally.", "quantifier": "all coordinate types of up to 64 bits, dimensions, boxes, both index orders for flatten/unflatten", "why_tests_cant": "tests cannot allocate boxes near the limits, and cannot try all boxes below them", "anchors": ["src/Pitches.hpp: flatten, unflatten", "src/CudaLibs.hpp: get_num_blocks_1d, global_tid_1d", "src/LinearAlgebraTasks.cu: xpay_kernel, XpayTask::cuda_task_body"]}
{"id": "C82", "title": "The text the CG tests expect is printed in double precision for every partition, schedule and reduction order", "statement": "The programs of Test05 and Test06 (1-D Laplacian of 100 points in COO or CSR form with double entries, right-hand side 1, initial guess 0, up to ten steps of CG, then chained prints) are accepted, and in every execution, with all IEEE double rounding errors of every operation included, each printed number is finite, lies within 3/10000 of 100, 4900, 4704, 4512, 4324, 4140, 3960, 3784, 3612, 3444, 3280 respectively, in this order, and has exactly that integer as its nearest decimal with six significant digits, which is what std::cout shows.", "quantifier": "all complete disjoint partitions of the 100 points, groupings and orders of the additions of every scalar product, schedules, fill orders of the matrix, COO and CSR", "why_tests_cant": "floating-point results depend on how Legion groups the partial sums of every scalar product; a test sees one grouping per run, and a bound on the accumulated error over all of them needs a proof", "anchors": ["test/Test05COOSolveCG.cpp: top_level_task", "test/Test06CSRSolveCG.cpp: top_level_task", "test_all.py: EXPECTED_CG_OUTPUT", "src/CGSolver.hpp: CGSolver, step", "src/ExampleSystems.cpp: Fill*NegativeLaplacian1D*", "src/Scalar.hpp: operators, print"]}
{"id": "C83", "title": "GMRES in float and double is the Arnoldi process with bounded local errors", "statement": "For any IEEE format, system, initial guess, right-hand side, positive restart length m and number of steps: constructing a GMRESSolver and stepping k times is accepted and leaves the right-hand side unchanged. If the solution is free of infinities and NaNs at the end, then it was after every earlier cycle, and every cycle computed, up to one rounding per entry and the error bound of sums for scalar and matrix products: the residual b - A x; the first basis vector residual/|residual|; for each column the product with the last basis vector, from which the components along the earlier basis vectors are removed one after the other (modified Gram-Schmidt), then normalised; and the solution plus the sum of all m basis vectors. The basis vectors, the Hessenberg entries and the unnormalised last vector the solver keeps are those of the last cycle. Consequences with explicit bounds: the Arnoldi relation A q_j = sum h_kj q_k + w_j holds entrywise; the new solution is the old one plus the sum of the basis vectors; every basis vector has squared length 1 up to the relative error of its sum of squares plus 16 unit roundoffs, unless the norm is near underflow or overflow.", "quantifier": "all IEEE formats, matrices, partitions, schedules, reduction orders, initial guesses, right-hand sides, restart lengths, step counts", "why_tests_cant": "rounding errors depend on every input and on the reduction order; a test sees single runs", "anchors": ["src/GMRESSolver.hpp: GMRESSolver, step", "src/SquarePlanner.hpp: axpy, xpay, scal, dot_product, matvec", "src/Scalar.hpp: operators, sqrt, rsqrt"]}
{"id": "C84", "title": "Asynchronous GPU work is as if the tasks did it themselves", "statement": "GPU task bodies enqueue their work on a CUDA stream and may return before it is done; the stream of a library call is a property of a handle shared by all tasks on the same GPU. As long as no two GPUs of the program share a slot of the handle table, everything that can be observed of a program run this way, with any mix of CPU and GPU tasks, any assignment of streams (also the same stream for several tasks) and any interleaving of bodies and streams, can be observed when every task performs its updates itself; so all other properties carry over (deterministic launches give the result of program order, CG on GPUs still solves the 1-D Laplacian). When a task counts as complete all its updates have been made; the result of a dot product is there when its body returns. No run gets stuck, and all runs are finite. If two GPUs do share a slot, a task may count as complete before its work is done and a later task reads old data.", "quantifier": "all programs, machines, mappings of tasks to processors and streams, interleavings of host calls and device progress", "why_tests_cant": "a race between a stream and a task that depends on it shows only under rare timing; tests observe few interleavings", "anchors": ["src/CUDAUtilities.cpp: get_cuda_stream, get_cublas_handle, get_cusparse_handle, ~CUDAStreamView", "src/LinearAlgebraTasks.cu: cuda_task_body", "src/COOMatrixTasks.cu: cuda_task_body", "src/CSRMatrixTasks.cu: cuda_task_body", "src/CuSPARSEHelpers.hpp: makeCuSparseCSR"]}
{"id": "C85", "title": "How fast CG converges", "statement": "In exact arithmetic, for every symmetric system whose Rayleigh quotients lie between m > 0 and M > m, there is a number n of steps, at most the number of unknowns, after which CG has the solution increment exactly, and for every k up to n, stepping k times is accepted and: the squared energy norm of the error is at most 4 q^(2k) times its initial value, with q = (sqrt M - sqrt m)/(sqrt M + sqrt m), and every recorded squared residual norm number j is between 0 and 4 (M/m) q^(2j) times the squared norm of the right-hand side. For a symmetric, weakly diagonally dominant stencil on a box with sides of at most L points, in any number of components, m = centre - w + w/(2 L^2) and M = 2 centre work, w being the sum of the absolute values of the other entries. For the systems of BenchmarkStencil (dimension codes 1 to 4) the recorded squared norm after j steps is at most 16 L^2 ((2L-1)/(2L+1))^(2j) times the squared norm of the two right-hand sides.", "quantifier": "all symmetric positive definite systems, stencils, boxes, component counts, right-hand sides, partitions, schedules, reduction orders, step counts up to convergence", "why_tests_cant": "a test measures the decay for a few systems; the rate is a statement about all systems with the given bounds", "anchors": ["src/CGSolver.hpp: CGSolver, step", "src/SquarePlanner.hpp: matvec, axpy, xpay, dot_product", "src/CSRMatrix.hpp, src/COOMatrix.hpp: matvec", "test/BenchmarkStencil.cpp: top_level_task"]}
{"id": "C86", "title": "The comparison benchmarks set up the same systems", "statement": "For each of the four Laplacians, the PETSc and Trilinos programs that BenchmarkStencil is compared with insert exactly the matrix that create_linearized_csr_stencil_matrix stores for BenchmarkStencil's grid of the same size: the calls of all processes together, in any order and for any division of the rows (consecutive ranges for PETSc, any assignment for Trilinos), name each row and column position once, with the value and at the positions of the stored triples, and the rows are numbered as Legion's row-major linearization does. For PETSc this holds when sizes the matrix type does not use are left at 1 and the number of rows fits PetscInt; a larger product overflows (undefined behaviour), and an unused size given on the command line yields an unsymmetric matrix. For Trilinos it holds when the grid has fewer than 2^63 points and no process owns 2^31 rows; a process owning between 2^31 and 2^32 - 1 rows inserts nothing, and a missing size argument is undefined behaviour. No index arithmetic overflows in the covered cases, although signed and unsigned types are mixed.", "quantifier": "all four matrix types, grid sizes, widths of PetscInt, row distributions, orders of the insertion calls, entry types", "why_tests_cant": "a test runs one grid on one number of processes and cannot compare three programs for all sizes", "anchors": ["benchmarks/petsc/main.cpp: main", "benchmarks/trilinos/main.cpp: main", "test/BenchmarkStencil.cpp: top_level_task", "src/StencilGenerator.hpp: create_linearized_csr_stencil_matrix"]}
{"id": "C87", "title": "The Python reference iterations agree with each other and with the library", "statement": "In exact arithmetic, for every square matrix, right-hand side and initial x: double_cg(A, b, x) returns the same iterates as cg(A, b, x), entry by entry and undefined where the other is undefined, although it computes A p by recurrence in every second step; cg returns n iterates, double_cg returns n for even n and n + 1 for odd n. The k-th iterate of cg is that of the textbook iteration started from b - A x, and equals the solution vector of the library's CGSolver after k steps when the solver starts from the same x with right-hand side b - A x (so for x = 0 they agree on the same b; for other x they do not solve the same system, C37). For symmetric positive definite A there is a k <= n such that iterates 1..k are defined, the k-th solves A x = b and no earlier one (nor the initial x) does, and every later iterate has no defined entry: the last iterate returned, and x itself, is usable only if exactly as many steps as returned iterates were needed; the extra iterate of double_cg for odd n never is.", "quantifier": "all sizes, matrices, right-hand sides, initial vectors, numberings of the unknowns", "why_tests_cant": "a test compares a few small systems; the algebraic identity and the behaviour past convergence concern all of them", "anchors": ["scripts/krylov.py: cg", "scripts/krylov.py: double_cg", "src/CGSolver.hpp: CGSolver, step"]}
{"id": "C88", "title": "A solver run changes nothing but the solution vectors and its own storage", "statement": "However many CG, BiCGStab or GMRES steps are taken, and whatever values occur (NaN included), the operations issued have write permission only on the entries of the solution vectors, on regions created by the run itself, and on the scalars the run itself computes; so at every moment of every execution, finished or not, the right-hand sides, every other vector that existed before, other fields of the regions holding the solution vectors, and every earlier scalar hold the values they had when the solver was constructed.", "quantifier": "all arithmetics, planners set up by legal calls, numbers of steps and restart lengths, schedules, moments during an execution, storage locations", "why_tests_cant": "a test looks at the vectors it knows about after the run, in one schedule; the property is about all storage at all times", "anchors": ["src/CGSolver.hpp: CGSolver, step", "src/BiCGStabSolver.hpp: BiCGStabSolver, step", "src/GMRESSolver.hpp: GMRESSolver, step", "src/SquarePlanner.hpp: copy, scal, axpy, xpay, dot, matvec, allocate_workspace", "src/PartitionedVector.cpp: get_requirement"]}
{"id": "C89", "title": "The whole benchmark program: what it accepts, reports and leaves in its vectors", "statement": "BenchmarkStencil with command-line values -dim, -nx, -ny, -nz, -vp, -solver, -it, -pt (the last value given for an option counts, others keep their defaults): -dim outside 1..4 issues nothing and exits; an index partition that is not disjoint and complete fails an assertion; -pt 0 with a solver is undefined behaviour; -solver outside 1..3 leaves zero solutions and reports nothing; otherwise, in any arithmetic, the program runs to the end with the same result in every schedule, reports five warm-up traces and the number of timed traces that -it and -pt ask for, both right-hand sides still hold ones, and the solution vectors are those of CG (-solver 1), BiCGStab (2) or GMRES with restart length 10 (3), started on the two-component system with zero solutions and stepped that many times. In exact arithmetic with -solver 1 there is a K between 1 and the number of grid points such that the textbook conjugate gradient iteration on one copy of the grid solves the discrete equation with right-hand side one after K steps and not before; a run of at most K steps leaves the iterate of that number in both solution vectors, a longer run leaves every entry of both undefined. For -dim 1 with n points K is half of n rounded up, each iterate is given in closed form, and the program run without options (16 points, 20 steps) ends with undefined solution vectors.", "quantifier": "all option values, grids, partitions, matrices left by the stencil creator, schedules, reduction orders, arithmetics", "why_tests_cant": "a run shows one choice of options in rounded arithmetic and prints no solution", "anchors": ["test/BenchmarkStencil.cpp: get_laplacian_matrix, top_level_task", "src/StencilGenerator.hpp: create_linearized_csr_stencil_matrix", "src/CGSolver.hpp: CGSolver, step", "src/SquarePlanner.hpp: add_sol_vector, add_rhs_vector, add_row_partitioned_matrix"]}
{"id": "C90", "title": "What the test script reports, and that the shipped tests satisfy it", "statement": "test_all.py prints no error for tests 03 to 06 exactly when the lines on standard output, apart from registration and construction messages, form the expected set (in any order, each any number of times) and standard error has only the three known lines; for test 02 when they are exactly six lines 0; for test 01 when there are none. The verdict PASSED or FAILED is the return code alone: a test with wrong output is still reported as passed after the error text, and the configurations are tested in order until the first whose build test fails, which ends the script; at this commit the script as shipped raises ValueError before running any test, because the imported list of Legion branches holds triples and the loop unpacks pairs (with pairs it would test every branch, build type and CUDA/Kokkos choice in order); the build test accepts a build with the requested CUDA and Kokkos options and no other. Test03 and Test04 (20 points in four equal pieces, COO and CSR, in any arithmetic), with any interleaving of the print tasks' lines, any number of replicas of the top-level task and any additional ignored lines, pass without an error; so do Test05 and Test06 in double precision, for any partition, reduction order and schedule, with numbers written with six digits; and Test02, whatever the six spaces and partitions.", "quantifier": "all outputs and return codes of the processes; all schedules, interleavings of output lines, replica counts, matrices the generators can leave, partitions (tests 02, 05, 06), reduction orders", "why_tests_cant": "the script is itself the test; whether it accepts every legal output, and what it lets through, is a statement about all outputs", "anchors": ["test_all.py: test_00, test_01, test_02, test_03, test_04, test_05, test_06, assert_equal, assert_empty, main", "build_legion.py: LEGION_BRANCHES, BUILD_TYPES", "test/Test03COOPartitioning.cpp: top_level_task", "test/Test04CSRPartitioning.cpp: top_level_task", "test/Test05COOSolveCG.cpp: top_level_task", "test/Test02VectorOperations.cpp: test_task, top_level_task", "src/LegionUtilities.cpp: print_index_partition", "src/UtilityTasks.cpp: PrintIndexTask"]}
{"id": "C91", "title": "The benchmark scripts give the three programs the same problems, with one exception", "statement": "The k-th problem of every size generator of bench_all.py has exactly 2^(12+k) grid points, extents doubled in turn. The command lines that bench_all.py builds for PETSc and Trilinos and bench_all_ls.py builds for LegionSolvers make the three programs, for every matrix, method and k, build the same matrix on the same grid and run the same method, LegionSolvers with one piece per GPU; the resources requested from jsrun are 4 GPUs and 40 CPUs per node in each case. bench_all.py's own LegionSolvers command line passes the second extent as -nz: it describes the same grid exactly when the matrix is not three-dimensional or k mod 3 is not 2, and otherwise a grid with twice the points. PETSc is limited to 200 iterations; LegionSolvers does 200 CG or BiCGStab iterations, but 25 GMRES cycles of length 10; the modified Gram-Schmidt option for PETSc is written without its dash and has no effect.", "quantifier": "all sizes k without bound, the four matrices, three methods, all numbers of nodes, all distributions of the rows over PETSc and Trilinos processes, all schedules of the LegionSolvers tasks", "why_tests_cant": "the scripts are only ever run on a supercomputer; that the three programs get the same matrix for every size relates three code bases and an unbounded sequence of sizes", "anchors": ["bench_all.py: problem_size_iterator_1d, problem_size_iterator_2d, problem_size_iterator_3d, petsc_args, trilinos_args, legion_solvers_args, jsrun_command, count_nodes", "bench_all_ls.py: legion_solvers_args", "test/BenchmarkStencil.cpp: top_level_task", "benchmarks/petsc/main.cpp: get_matrix_type, main", "benchmarks/trilinos/main.cpp: get_matrix_type, get_solver_type, main"]}
{"id": "C92", "title": "Which problems the benchmark scripts run, and that they end", "statement": "benchmark_petsc runs the sizes of a generator in order, each until it succeeds, and returns the first size at which a process runs out of memory or five processes fail; benchmark_trilinos and benchmark_legion_solvers run the sizes strictly below the given limit in order, each until it succeeds, and stop early only after five failures at one size. So in bench_all.py Trilinos is never run on a size PETSc did not finish. All these loops end if memory is finite and the limit is one of the generator's sizes; a limit that is not would never be noticed. Every limit in the table of bench_all_ls.py is one of the generator's sizes, so that on 1, 2, 4, ..., 256 nodes the script always ends after running the sizes below the table's limits; on any other number of nodes it ends with an exception before running anything.", "quantifier": "all outcomes of all processes (return codes and error output), all numbers of nodes, all sizes", "why_tests_cant": "the claim ranges over all outcomes of unboundedly many processes", "anchors": ["bench_all.py: benchmark_petsc, benchmark_trilinos, benchmark_legion_solvers", "bench_all_ls.py: benchmark_legion_solvers, MAX_PROBLEM_SIZE_DICT"]}
{"id": "C93", "title": "What the build scripts do to the file system, and that they fit together", "statement": "Different configurations (branch tag, CUDA, Kokkos, build type) have different library and build directories, none inside another. refresh_cmake.py returns to the directory it was started in whatever happens; it changes nothing except the build directories of the configurations whose Legion library directory exists; for each of those, in order, it runs one cmake in the emptied build directory, on the source directory it was started in, with the Legion library of that configuration and, if it uses Kokkos, the Kokkos library with or without CUDA; it stops early only if a command fails or a build directory cannot be made, and it always stops, before changing anything, if SCRATCH_DIR/LegionSolversBuild is missing, which no script creates. make_all.py builds exactly the configurations whose build directory exists, in order, stopping only at a failing build; after refresh_cmake.py these are the refreshed ones and those with an old build directory whose library is gone. build_legion.py builds the configurations that --force-/--skip-cuda and --force-/--skip-kokkos leave (force and skip together: none), changes only its clones and the library directories of those configurations, and whatever command fails, no later command is run and the libraries of configurations not yet reached are untouched. build_dependencies.py does nothing with --skip-kokkos and otherwise ignores only a failing ctest. For every machine and configuration this project is configured with the Legion and Kokkos that the other two scripts install for it, with the same build type.", "quantifier": "all directory trees, settings and options, all effects and outcomes of the commands started (as long as they write where such commands write), hence all points of failure", "why_tests_cant": "the scripts delete directory trees and run commands for hours; no test runs them, and the claim is about every state of the file system and every point of failure", "anchors": ["build_utilities.py: underscore_join, create_directory, remove_directory, change_directory, run, clone, cmake", "build_dependencies.py: main", "build_legion.py: clone_legion, legion_library_path, cmake_legion, main", "refresh_cmake.py: legion_solvers_build_path, main", "make_all.py: main"]}
{"id": "C94", "title": "What initialize registers and prints", "statement": "LegionSolvers::initialize compiles exactly when both entry types and the 64-bit index type are enabled. It registers with Legion a CPU variant of every registered task and, when CUDA is used without Kokkos, a GPU variant of the vector operations and the matrix products (and of the task that loads the CUDA libraries), each under its task's id, name and flags, and nothing else; no two variants share id and processor kind if LEGION_SOLVERS_MAX_DIM is at least two, but with LEGION_SOLVERS_MAX_DIM = 1 the COO print task for two-dimensional spaces has the id of the transposed CSR product. Two tasks have the same name exactly when they have the same id, for up to ten dimensions; from eleven on, different tasks share names, because the dimensions are written without a separator. With print_info it prints a description stating the CUDA and Kokkos options and exactly the types and dimensions for which vector tasks are registered; with verbose one message per variant, from which name and id can be read back; with neither, as in the test programs, nothing. The test script ignores exactly the messages, not the description.", "quantifier": "all compile-time configurations, CUDA/Kokkos choices and arguments", "why_tests_cant": "tests build a single configuration and never look at names, at the set of registered variants or at identifiers that coincide", "anchors": ["src/Initialize.cpp: initialize", "src/TaskBaseClasses.hpp: task_name, preregister", "src/MetaprogrammingUtilities.hpp: ToString, HasCUDAVariantMixin", "src/LegionUtilities.hpp: preregister_task", "src/CudaLibs.cu: LoadCUDALibsTask::preregister", "src/LibraryOptions.hpp"]}
{"id": "C95", "title": "Control replication changes nothing", "statement": "Run with control replication on any number of shards (every shard issues the same operations; the points of a task launch are given to the shards by the library's sharding functor, the points of fills and copies in any way), a program accepted without it does the same: each point task is executed to its end by exactly one shard; a program can end on the shards with exactly the results and the memory with which it may end without control replication; no shard ever waits for ever for another, however far apart they are in issuing; the results of deterministic programs (all set-up and solver runs) do not depend on the number of shards or the assignment, bit by bit; conjugate gradients solves the system and the solver tests print the lines they print without it. A launch over anything but a dense one-dimensional interval starting at zero stops the program.", "quantifier": "all programs, shard counts, assignments of points to shards, relative speeds of the shards and schedules", "why_tests_cant": "tests run on a single node; the statement ranges over all numbers of shards and all ways in which shards may run ahead of each other", "anchors": ["README.md: requirements", "src/LegionSolversMapper.cpp: LegionSolversMapper::select_sharding_functor, BlockingShardingFunctor::shard", "src/LegionUtilities.hpp: TaskFlags::REPLICABLE, preregister_task", "test/BenchmarkStencil.cpp, test/Test01ScalarOperations.cpp: main"]}
{"id": "C96", "title": "The shipped programs release what they create", "statement": "A correct program whose last lines give back every reference it holds and end the life of every object (planners before the matrices they were given, a partition while somebody still holds its index space) runs to its end without an illegal runtime call or a failed assertion, and leaves alive exactly the references that library functions lost. The programs in test/ are of this kind: Test02 to Test06 leave nothing alive, although Test05 and Test06 destroy their partition and spaces while vectors, matrix and planner still use them and Test04 and Test06 use a space that only the matrix owns; BenchmarkStencil, for every -solver and whether or not the matrix is copied when it is returned, leaves exactly the nine objects of the stencil builder, with one owner each.", "quantifier": "all correct programs and orders of the last lines; for the shipped programs all ways in which std::vector grows, all values of -solver, copy elided or not", "why_tests_cant": "a leak or a use after release shows only with Legion's own leak checks, at the end of a run, for the orders and capacities that happened to occur", "anchors": ["test/Test02VectorOperations.cpp: test_task", "test/Test03COOPartitioning.cpp: top_level_task", "test/Test04CSRPartitioning.cpp: top_level_task", "test/Test05COOSolveCG.cpp: top_level_task", "test/Test06CSRSolveCG.cpp: top_level_task", "test/BenchmarkStencil.cpp: get_laplacian_matrix, top_level_task", "src/SquarePlanner.hpp: SquarePlanner", "src/PartitionedVector.cpp: PartitionedVector"]}
{"id": "C97", "title": "The build without cleanup", "statement": "Compiled with LEGION_SOLVERS_DISABLE_CLEANUP, a client that is correct in the normal build gets the same outcome: the same handles, objects and failed assertions, and never an illegal runtime call. Nothing that was created is ever released and no object ever loses an owner, over any continuation of the program. The programs in test/ run to their ends in this build and leave everything they created alive.", "quantifier": "all correct clients and their histories of calls, all ways in which std::vector grows; for the second part all clients, correct or not", "why_tests_cant": "tests build one configuration; a use of an object that only the normal build has released is visible only for the orders that occurred, and the difference of two builds on all clients is not a test", "anchors": ["src/PartitionedVector.cpp: ~PartitionedVector", "src/COOMatrix.cpp: ~COOMatrix", "src/CSRMatrix.cpp: ~CSRMatrix", "src/SquarePlanner.hpp: ~SquarePlanner", "src/ExampleSystems.cpp: coo_negative_laplacian_1d, csr_negative_laplacian_1d", "src/LegionUtilities.cpp: print_index_partition", "src/CudaLibs.cu: loadCUDALibs", "test/Test05COOSolveCG.cpp: top_level_task"]}
{"id": "C98", "title": "Random fill", "statement": "A random fill of a partitioned vector (RandomFillTask launched over its pieces) writes every entry and nothing else. Each entry is a number of the entry type in [0,1), never one, although in single precision the quotient that is computed can round to one; it is within one unit in the last place below one (2^-24, 2^-53) of the number the engine's words make up. The i-th point of a piece gets the words that follow those of the i-th of its predecessors (one word per float, two per double), so that the result is a function of the engines' words and of the order of the points in each piece: it does not depend on the schedule. The array the engine is seeded from is as large as the engine's state, and no larger than needed.", "quantifier": "all vectors, partitions (disjoint and complete), both entry types, all sequences of words the engines can produce, all schedules", "why_tests_cant": "the engine is seeded from std::random_device, so no run can be repeated; the words for which the quotient rounds to one are 128 of 2^32", "anchors": ["src/UtilityTasks.cpp: RandomFillTask::task_body, seeded_mersenne_twister", "src/UtilityTasks.hpp: RandomFillTask"]}
{"id": "C99", "title": "What CG does on any system, and for which it works", "statement": "In exact arithmetic, for any system, initial guess, right-hand side and number of steps: as long as no search direction p has <p, A p> = 0 the solver computes the textbook iterates, and from the first step that meets one every entry of the solution is undefined; no run fails an assertion. A symmetric system whose quadratic form is definite, positive or negative, is solved for every right-hand side in at most as many steps as there are unknowns. For every other system, symmetric or not, there is a non-zero right-hand side for which the first and every further step leaves every entry of the solution undefined. So with a zero guess a symmetric system is solved for all right-hand sides if and only if it is definite.", "quantifier": "all systems (any number of components, matrices, partitions), guesses, right-hand sides, numbers of steps, schedules and reduction orders", "why_tests_cant": "the right-hand sides that break the iteration form a set of measure zero; a test that uses random ones never meets them, and no test can show that a class of systems is solved for every right-hand side", "anchors": ["src/CGSolver.hpp: CGSolver, step", "src/SquarePlanner.hpp: SquarePlanner", "src/Scalar.cpp: operator/"]}
{"id": "C100", "title": "What the solvers leave in float and double after a breakdown", "statement": "In the IEEE arithmetic the code runs in, a breakdown can be seen in the scalars a solver records, and it is final. Conjugate gradients: if a recorded squared residual norm is an infinity or NaN, every later step leaves no finite entry anywhere in the solution; if one is plus or minus zero (the residual vanished, or its square underflowed), the solution is lost after two more steps. BiCGStab: if any recorded rho, alpha or omega is an infinity or NaN, no entry of the solution is finite; if a rho or omega is zero, none is after any further step; with a zero right-hand side none is after the first step. GMRES: if, in the last restart cycle, an inner product in a column whose basis vector enters the solution is an infinity or NaN, or the norm of such a basis vector is zero or NaN, no entry of the solution is finite. In all three solvers an entry of the solution that is an infinity or NaN after some steps is one after any further steps: no further step and no restart repairs it. The steps themselves are always accepted: nothing else reports the breakdown.", "quantifier": "every set-up, matrix format and entry values, partition, schedule, reduction order, number of steps, restart length, initial values, and IEEE format (p, e); signed zeros, infinities and NaNs allowed everywhere on input", "why_tests_cant": "a test sees one system on which a solver breaks down or does not; that every zero or non-finite recorded scalar spoils every entry, on any system and with whatever intermediate values, is a statement about propagation through all operations in IEEE arithmetic", "anchors": ["src/CGSolver.hpp: step", "src/BiCGStabSolver.hpp: step", "src/GMRESSolver.hpp: step", "src/LegionUtilities.cpp: get_alpha", "src/LinearAlgebraTasks.cpp: axpy, xpay, scal, dot", "src/UtilityTasks.cpp: Division, Reciprocal square root"]}
{"id": "C101", "title": "What a solver computes depends only on the system, and how it scales with it", "statement": "Set up two linear systems with the same unknowns in any two ways: other partitions, storage formats, splittings of the operator into added matrices, order of the components' points, machines and reduction trees. If the second operator is mu times the first, the right-hand side c times and the initial guess c/mu times (mu, c not zero), then as long as the textbook iteration of the first divides by no zero, every run of the second CG or BiCGStab solver gives exactly c/mu times the solution of every run of the first after every number of steps; CG's recorded squared norms are c*c times those of the first, BiCGStab's rho c*c times, alpha and omega 1/mu times. With mu = c = 1: the same results however the system is put together. GMRES of this library gives the same solution after every number of cycles (or loses it in both runs) when both sides of the equations are multiplied by the same positive number, but it does not scale with the right-hand side: from a zero guess its first cycle gives the same vector for every positive multiple of the right-hand side and of the operator.", "quantifier": "all pairs of systems (any components, matrices, partitions, machines), all non-zero factors (positive for GMRES), all numbers of steps, all executions of both runs", "why_tests_cant": "a test compares two particular representations of one system at one scale", "anchors": ["src/CGSolver.hpp: step", "src/BiCGStabSolver.hpp: step", "src/GMRESSolver.hpp: step", "src/SquarePlanner.hpp: matvec, add_row_partitioned_matrix, dot_product"]}
