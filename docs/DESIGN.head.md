# LegionSolvers in Rocq: design

Subject: dzhang314/LegionSolvers at the pinned commit in /repo (`/repo/src`, plus the driver code of `/repo/test` where a
property needs it). Nothing is built or run. The model is a hand translation; every model definition carries a comment with the
file and lines it models and, where it simplifies, the word SIMPLIFICATION and what was dropped.

`properties.jsonl` lists the properties, `MANIFEST.json` maps them to theorems. Every theorem named in the manifest is about the
model definitions below and is closed by `Qed`.

## 1. How the code is modelled

**Outcomes.** A C++ call returns an `outcome` (`Outcome.v`): `Ok v`, `AssertFail` (an `assert` of the library fires), `UB` (signed
overflow, out-of-range `operator[]`, interfering region requirements: anything after which C++ or Legion promises nothing), or
`OutOfFuel` (only for loops written with fuel; the theorems show that enough fuel exists, so no claim rests on it). "Accepted" in a
property means `Ok`; "rejected" means `AssertFail`.

**Entry arithmetic** (`Arith.v`). ENTRY_T is a record of operations (0, 1, -, +, -, \*, /, fma, sqrt). Three uses:
* theorems quantified over *every* record hold bit for bit for float, double or anything else (most of C01-C19, C24-C28, C53, C54, C63);
* `exact`: real numbers plus an absorbing "undefined" value (division by zero, root of a negative number), for the algebraic
  statements (CG converges, GMRES basis orthonormal, ...). Nothing is true because of a totalised division;
* `ieee p e`: IEEE 754 round-to-nearest with p bits and maximal exponent e on Coq's executable `SpecFloat`; float is (24, 128), double
  is (53, 1024). `Float.v` relates it to real numbers through Flocq. Rounding-error theorems: C65-C69 and later.

**Tasks and schedules** (`Sched.v`, `Async.v`, `Launch.v`, `Exec.v`). A point task is a list of atomic element updates; an operation
(launch) is a list of point tasks with *declared* region requirements and futures. An execution of a sequence of launches is any
interleaving of the updates of all tasks of all launches in which an operation makes a step only when every earlier operation whose
declaration conflicts with its own has finished. That is the whole ordering guarantee the model takes from Legion; if the library forgot a
requirement, the model would allow the race. `Builder.v` models the application thread (calls return at once, futures are handles).
Reductions of futures and of the CPU product combine partial results in *any* order and association (`legal_reduction`).

**Legion objects.** Index spaces, partitions and regions are handles; `legion` gives their points, parents, colours and pieces; these never
change. Dependent partitioning (`create_partition_by_image`, `_preimage`, and the range versions) is modelled by its documented
set semantics (`Matrix.v`). `Ownership.v` has its own machine: a runtime heap of handles with ownership counts and `create_shared_ownership` /
`destroy_*` with Legion's semantics, over which C++ object histories (constructors, copies, assignments, destructors in any order) run.

**Machine integers.** Task ids and shard numbers are 32/64-bit unsigned with wrap-around from the start. The stencil generator is modelled
twice: over unbounded integers (`StencilSize.v`, `StencilFill.v`, ...) and once more with int / long long coordinates, 64-bit
kernel positions and `size_t` (`StencilMachine.v`), where signed overflow is UB and size_t wraps; C64 proves that the two agree when the numbers fit
and that otherwise overflow does happen. So C20-C29 hold for the machine code exactly under the conditions of C64.

## 2. What is modelled, file by file

| source | model | properties |
|---|---|---|
| Scalar.hpp/.cpp, UtilityTasks.cpp (scalar tasks) | Builder.v, ScalarProg.v, PrintScalar.v | C01, C02, C78, C80 |
| LegionUtilities.cpp `get_alpha` | Vector.v | C03 |
| LegionUtilities.cpp `print_index_partition` | TaskIds.v, PrintScalar.v | C55, C79 |
| PartitionedVector.*, LinearAlgebraTasks.cpp | Vector.v, VectorProg.v, Ownership.v | C04-C08, C65, C67, C80 |
| COOMatrix.*, CSRMatrix.*, COOMatrixTasks.cpp, CSRMatrixTasks.cpp, AbstractMatrix.* | Matrix.v, Ownership.v, Print.v | C09-C15, C66, C71 |
| SquarePlanner.hpp | Planner.v, Ownership.v | C16-C19, C53, C60 |
| CGSolver.hpp, BiCGStabSolver.hpp, GMRESSolver.hpp | Solvers.v | C36-C42, C54, C56-C59, C63, C68, C69, C72, C74, C76, C83, C85, C99, C100 |
| StencilGenerator.hpp/.cpp | Index.v, StencilSize.v, StencilFill.v, StencilSkip.v, StencilLaunch.v, StencilTasks.v, StencilCreate.v, ArgBuffer.v, StencilMachine.v, Ownership.v | C20-C29, C49, C50, C61, C64 |
| ExampleSystems.hpp/.cpp | ExampleSystems.v, Ownership.v | C43, C44, C52, C19 |
| TaskIDs.hpp, TaskBaseClasses.hpp, LibraryOptions.hpp, Initialize.cpp (table of registered tasks), MetaprogrammingUtilities.hpp (ListIndex, ListLength) | TaskIds.v, TaskFlags.v | C30-C32, C51, C55 |
| LegionSolversMapper.cpp (`is_task`, sharding functor) | TaskIds.v, Sharding.v | C30, C33, C34 |
| Pitches.hpp, CudaLibs.hpp, LinearAlgebraTasks.cu | Pitches.v, GpuDense.v, PitchesMachine.v (machine integers) | C35, C47, C48, C81 |
| COOMatrixTasks.cu, CSRMatrixTasks.cu, CuSPARSEHelpers.hpp | Gpu.v, GpuPlanner.v (GpuPlannerFacts, PropsGpuPlanner, PropsGpuTasks, PropsGpuLayout, PropsGpuLaplacian) | C45, C46, C75 |
| CUDAUtilities.cpp (library handles per GPU) | CudaHandles.v | C73 |
| CUDAUtilities.cpp (task streams), host side of all `cuda_task_body` functions | GpuStreams.v (GpuStreamsFacts) | C84 |
| test/BenchmarkStencil.cpp (model problems, planner set-up, tracing, iteration counts) | PropsStencilCG.v, Benchmark.v, StencilRayleigh.v | C62, C63, C70, C85 |
| benchmarks/petsc/main.cpp, benchmarks/trilinos/main.cpp (sizes and matrix insertion calls; not the libraries, solver runs or timing) | Peers.v | C86 |
| scripts/krylov.py | Krylov.v | C87 |
| test/BenchmarkStencil.cpp: options, choice of stencil, vectors, planner, choice of solver | BenchmarkProgram.v | C89 |
| test/Test01-Test06 (bodies of the test tasks) | TestPrograms.v, ExampleSystems.v; rounding analysis of Test05/06: LaplacianRounding.v, LaplacianStep.v, LaplacianRow.v, FloatCGBits.v, FloatLaplacian.v, FloatLaplacianRun.v | C77, C82 |
| test_all.py (all tests; not jsrun_command) | TestAll.v | C90 |
| bench_all.py, bench_all_ls.py (all functions and the calls; not the text printed, not the code commented out at the end); reading of the command lines in test/BenchmarkStencil.cpp, benchmarks/petsc/main.cpp, benchmarks/trilinos/main.cpp | BenchAll.v | C91, C92 |
| build_utilities.py, build_dependencies.py, build_legion.py, refresh_cmake.py, make_all.py (not the messages, not `remove_file`, not the cases of `clone` that are not used) | BuildScripts.v | C93 |
| Initialize.cpp (the whole function), `task_name`, `preregister`, `ToString` of the types used, `HasCUDAVariantMixin`, LoadCUDALibsTask::preregister | Initialize.v | C94 |
| README.md:107 (control replication), LegionSolversMapper::select_sharding_functor, replicable top-level tasks | Replication.v | C95 |
| test/*.cpp (handles created and destroyed), destructors at the end of a scope | OwnershipPrograms.v, Ownership.v | C96 |
| LEGION_SOLVERS_DISABLE_CLEANUP (all handle classes, example systems, printing of partitions, test/*.cpp) | NoCleanup.v | C97 |
| UtilityTasks.cpp: RandomFillTask::task_body, seeded_mersenne_twister (sizes); libstdc++'s generate_canonical and uniform_real_distribution | RandomFill.v | C98 |

Not modelled, one line each:
* console formatting (*which* lines a print of a matrix, scalar or partition produces, and in which order, is modelled; how a number is written is not, except in C82 and C90), `ToString` of lists (unused);
* the default mapper and Realm; `memoize_operation`, `slice_task`, layout constraints;
* how a `RandomFillTask` is launched (no API does) and the Mersenne twister behind it (C98 takes its words as given); `COORmatvecTask`, `CSRRmatvecTask`: bodies are `assert(false)`, no API launches them;
* `loadCUDALibs`: pre-loading, no observable effect besides creating the handles of C73 earlier;
* `tile_partitioned_matrices`, `triangular_matrix`, `coefficients`: members the code never reads;
* error paths of CUDA calls;
* performance, time measurement; `CMakeLists.txt` (its Kokkos branch calls `target_link_libraries(Kokkos::kokkoscore)` without a target);
* COORD_T = unsigned for stencil creation: does not compile (`std::abs(unsigned)` is ambiguous).

## 3. Trusted base

* Coq 8.16.1's kernel (including `vm_compute`, used in concrete examples and finite case checks), the standard library, and Flocq's *proved* library
  (it adds no axioms; used in `Float.v`, `FloatSum.v`).
* The reading of the C++ recorded in the definitions' comments.
* The contracts of external software, as stated where used: libstdc++ (`generate_canonical`, C98), Legion (ordering of conflicting operations, reductions in
  any order, dependent partitioning, ownership counting with `destroy_index_space(recurse = true)`, type tags, `create_equal_partition`
  returning some disjoint complete partition, identical traces replayable), Realm (an empty index space reports a lower bound not beyond the end of
  its parent), `std::sort`/`std::map` (C++ standard), cuBLAS and cuSPARSE (documented semantics), CUDA streams (FIFO), Realm (one task body at a time per processor; a GPU task is complete
  when its stream has passed the point at which the body returned).
* For the floating-point theorems: the compiler does not contract `x * y + z` into an fma in the dot and matvec loops (GCC's default for
  ISO mode; with contraction the bounds get smaller, not larger, but the theorem is about the uncontracted code), and rounding mode is to nearest.
* No axioms of our own, no `Admitted`, no functors or module types. Section variables are all discharged at the section's end.

### Print Assumptions, per theorem

`ClassicalDedekindReals.sig_forall_dec`, `sig_not_dec`, `functional_extensionality_dep` are the axioms of the standard library's
real numbers; `Classical_Prop.classic` comes with Flocq's and the library's real-analysis lemmas. (Regenerate with `scripts/gen_design.py --assumptions`.)

@@ASSUMPTIONS@@

## 4. Properties and theorems

How each is proved, in groups:
* C01-C07, C53, C54: invariant over `partial_run` (every schedule reduces to program order because steps that may be reordered commute), then
  a Hoare-style calculus over the application thread (`BuilderFacts.v`, `PlannerFacts.v`).
* C08, C15, C19, C49, C60: invariant of the ownership machine over all histories (`OwnershipInv.v`, `OwnershipFacts.v`); the leak results are exact counts.
* C09-C14, C16-C18: refinement of the task bodies to sums over stored triples, for every partition.
* C20-C29, C61, C62: induction on the dimension; loop invariants; the composed statements go from the creator's arguments to convolution.
* C30-C35, C46-C48, C50-C52, C55: arithmetic (mixed radix, bit fields) and finite case analysis over the registration table.
* C36-C44, C56-C59: loop invariants over the reals; conjugacy and Krylov-space arguments (`CGMath.v`, `BiCGMath.v`, `PropsGMRES.v`).
* C45: the GPU task bodies against the CPU ones through the cuSPARSE contract.
* C63: syntactic comparison of launch sequences up to future names.
* C64: simulation between the two stencil models.
* C65-C69, C76, C82, C83: Flocq error bounds composed along arbitrary reduction trees and solver steps.
* C85: Chebyshev polynomials of the operator by a three-term recurrence (`Chebyshev.v`, no eigenvalues), CG's optimality, a discrete Poincare inequality along each offset (`StencilRayleigh.v`).
* C86: every index expression of the two programs is evaluated in checked signed/unsigned arithmetic (`PeersFacts.v`); the calls are a permutation of the numbered stencil contents of C20-C28.
* C89: a weakest-precondition proof of the set-up; the driver issues the launches of a plain run of k steps (C70), so C88, C36 and C39 apply; two equal copies reduce to one (CopiesCG.v); closed form in 1-D (LaplacianCG.v).
* C90: sorted duplicate-free lists with the same elements are equal; the expected text is computed from the pieces proved in C77; interleavings are permutations.
* C91: induction over the generator's steps with closed forms; command lines are computed symbolically with the decimal texts kept as variables that are numbers and not option names; then C86. C92: induction over the loops with the processes numbered through the whole script; the table is checked entry by entry.
* C93: a judgement J (same working directory afterwards, writes confined to a set, commands an initial segment of a plan) with one rule per construct (BuildScriptsFacts.v); directory names are compared from their last character.
* C94: the variants are a flat map over the calls (induction); ids by C30 for three or more dimensions and by computation of the offsets for two; names by stripping the class name and then the parameters from the front.
* C95: simulation in both directions between the machine with one list of tasks per operation and shard and the machine of Async.v (invariant: the shards' remaining tasks together are a permutation of the operation's remaining tasks); the corollaries transport theorems stated with `ends`/`execution`.
* C96: induction over the order in which references and objects are let go, with the ownership invariant of C08 (no illegal call) and `drops` (destructors do not abort); the programs up to the solver's construction by computation for every combination of vector growth, `allocate_workspace` symbolically, the end by the general theorem.
* C97: a simulation between the two builds, operation by operation, through states with the same objects and no fewer owners (every destroy call may be left out on one side); a second invariant (alive = created) over every operation of the build without cleanup; the programs through C96.
* C98: the two roundings that can occur (the words' sum, and the quotient, which is exact) are followed through SpecFloat's operations with Flocq; the vector part turns the tasks into a pointwise update by looking up a point's position in its piece.
* C99: the iteration for -A has the same residuals and directions, which reduces the negative definite case to C38's mathematics; for a form that is not definite a vector with <x, A x> = 0 is found on the line through two vectors of opposite signs; a store holding any right-hand side is built from the distinct storages of a planner's vectors.
* C100: every operation of SpecFloat keeps an infinity or NaN operand non-finite except a division by an infinity (FloatBad.v); per solver an invariant over the recorded scalars (PropsBreakdown.v), no assumption on the reduction order, the entries or the other scalars; one invariant per solution entry gives the persistence.
* C101: the textbook iterations of two proportional systems are compared step by step (`PropsSystem.v`: a permutation of the unknowns, `a' = mu a`, `b' = c b`, `x0' = (c/mu) x0`) and lifted to every run of both solvers by C36, C40 and the lemmas of C41; `SystemExample.v` is a pair with different partitions and numbers of matrices.
* C88: a program logic tracking the declared write permissions of every launch (WriteFacts.v); steps of a partial execution come from the launched tasks.
* C87: one double step equals two single steps as long as the direction is either real or undefined throughout (an invariant); the textbook iteration is invariant under renumbering of the unknowns.

"Two-sided" in a note means that the natural reading of the property is false of the code, and the theorem states exactly what holds instead.

@@TABLE@@
