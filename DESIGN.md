# LegionSolvers in Rocq: design

Subject: dzhang314/LegionSolvers at the pinned commit in /repo (`/repo/src`, plus the driver code of `/repo/test` where a
property needs it). Nothing is built or run. The model is a hand translation; every model definition carries a comment with the
file and lines it models and, where it simplifies, the word SIMPLIFICATION and what was dropped.

`properties.jsonl` lists the properties, `MANIFEST.json` maps them to theorems. Every theorem named in the manifest is about the
model definitions below and is closed by `Qed`.

## 1. How the code is modelled

**Outcomes.** A C++ call returns an `outcome` (`Outcome.v`): `Ok v`, `AssertFail` (an `assert` of the library fires), `UB` (signed
overflow, out-of-range `operator[]`, interfering region requirements: anything after which C++ or Legion promises nothing), or
`OutOfFuel` (only for loops written with fuel; the theorems show that enough fuel exists, so no claim rests on it). "Accepted" in a
property means `Ok`; "rejected" means `AssertFail`.

**Entry arithmetic** (`Arith.v`). ENTRY_T is a record of operations (0, 1, -, +, -, \*, /, fma, sqrt). Three uses:
* theorems quantified over *every* record hold bit for bit for float, double or anything else (most of C01-C19, C24-C28, C53, C54, C63);
* `exact`: real numbers plus an absorbing "undefined" value (division by zero, root of a negative number), for the algebraic
  statements (CG converges, GMRES basis orthonormal, ...). Nothing is true because of a totalised division;
* `ieee p e`: IEEE 754 round-to-nearest with p bits and maximal exponent e on Coq's executable `SpecFloat`; float is (24, 128), double
  is (53, 1024). `Float.v` relates it to real numbers through Flocq. Rounding-error theorems: C65-C69 and later.

**Tasks and schedules** (`Sched.v`, `Async.v`, `Launch.v`, `Exec.v`). A point task is a list of atomic element updates; an operation
(launch) is a list of point tasks with *declared* region requirements and futures. An execution of a sequence of launches is any
interleaving of the updates of all tasks of all launches in which an operation makes a step only when every earlier operation whose
declaration conflicts with its own has finished. That is the whole ordering guarantee the model takes from Legion; if the library forgot a
requirement, the model would allow the race. `Builder.v` models the application thread (calls return at once, futures are handles).
Reductions of futures and of the CPU product combine partial results in *any* order and association (`legal_reduction`).

**Legion objects.** Index spaces, partitions and regions are handles; `legion` gives their points, parents, colours and pieces; these never
change. Dependent partitioning (`create_partition_by_image`, `_preimage`, and the range versions) is modelled by its documented
set semantics (`Matrix.v`). `Ownership.v` has its own machine: a runtime heap of handles with ownership counts and `create_shared_ownership` /
`destroy_*` with Legion's semantics, over which C++ object histories (constructors, copies, assignments, destructors in any order) run.

**Machine integers.** Task ids and shard numbers are 32/64-bit unsigned with wrap-around from the start. The stencil generator is modelled
twice: over unbounded integers (`StencilSize.v`, `StencilFill.v`, ...) and once more with int / long long coordinates, 64-bit
kernel positions and `size_t` (`StencilMachine.v`), where signed overflow is UB and size_t wraps; C64 proves that the two agree when the numbers fit
and that otherwise overflow does happen. So C20-C29 hold for the machine code exactly under the conditions of C64.

## 2. What is modelled, file by file

| source | model | properties |
|---|---|---|
| Scalar.hpp/.cpp, UtilityTasks.cpp (scalar tasks) | Builder.v, ScalarProg.v, PrintScalar.v | C01, C02, C78, C80 |
| LegionUtilities.cpp `get_alpha` | Vector.v | C03 |
| LegionUtilities.cpp `print_index_partition` | TaskIds.v, PrintScalar.v | C55, C79 |
| PartitionedVector.*, LinearAlgebraTasks.cpp | Vector.v, VectorProg.v, Ownership.v | C04-C08, C65, C67, C80 |
| COOMatrix.*, CSRMatrix.*, COOMatrixTasks.cpp, CSRMatrixTasks.cpp, AbstractMatrix.* | Matrix.v, Ownership.v, Print.v | C09-C15, C66, C71 |
| SquarePlanner.hpp | Planner.v, Ownership.v | C16-C19, C53, C60 |
| CGSolver.hpp, BiCGStabSolver.hpp, GMRESSolver.hpp | Solvers.v | C36-C42, C54, C56-C59, C63, C68, C69, C72, C74, C76, C83, C85, C99, C100 |
| StencilGenerator.hpp/.cpp | Index.v, StencilSize.v, StencilFill.v, StencilSkip.v, StencilLaunch.v, StencilTasks.v, StencilCreate.v, ArgBuffer.v, StencilMachine.v, Ownership.v | C20-C29, C49, C50, C61, C64 |
| ExampleSystems.hpp/.cpp | ExampleSystems.v, Ownership.v | C43, C44, C52, C19 |
| TaskIDs.hpp, TaskBaseClasses.hpp, LibraryOptions.hpp, Initialize.cpp (table of registered tasks), MetaprogrammingUtilities.hpp (ListIndex, ListLength) | TaskIds.v, TaskFlags.v | C30-C32, C51, C55 |
| LegionSolversMapper.cpp (`is_task`, sharding functor) | TaskIds.v, Sharding.v | C30, C33, C34 |
| Pitches.hpp, CudaLibs.hpp, LinearAlgebraTasks.cu | Pitches.v, GpuDense.v, PitchesMachine.v (machine integers) | C35, C47, C48, C81 |
| COOMatrixTasks.cu, CSRMatrixTasks.cu, CuSPARSEHelpers.hpp | Gpu.v, GpuPlanner.v (GpuPlannerFacts, PropsGpuPlanner, PropsGpuTasks, PropsGpuLayout, PropsGpuLaplacian) | C45, C46, C75 |
| CUDAUtilities.cpp (library handles per GPU) | CudaHandles.v | C73 |
| CUDAUtilities.cpp (task streams), host side of all `cuda_task_body` functions | GpuStreams.v (GpuStreamsFacts) | C84 |
| test/BenchmarkStencil.cpp (model problems, planner set-up, tracing, iteration counts) | PropsStencilCG.v, Benchmark.v, StencilRayleigh.v | C62, C63, C70, C85 |
| benchmarks/petsc/main.cpp, benchmarks/trilinos/main.cpp (sizes and matrix insertion calls; not the libraries, solver runs or timing) | Peers.v | C86 |
| scripts/krylov.py | Krylov.v | C87 |
| test/BenchmarkStencil.cpp: options, choice of stencil, vectors, planner, choice of solver | BenchmarkProgram.v | C89 |
| test/Test01-Test06 (bodies of the test tasks) | TestPrograms.v, ExampleSystems.v; rounding analysis of Test05/06: LaplacianRounding.v, LaplacianStep.v, LaplacianRow.v, FloatCGBits.v, FloatLaplacian.v, FloatLaplacianRun.v | C77, C82 |
| test_all.py (all tests; not jsrun_command) | TestAll.v | C90 |
| bench_all.py, bench_all_ls.py (all functions and the calls; not the text printed, not the code commented out at the end); reading of the command lines in test/BenchmarkStencil.cpp, benchmarks/petsc/main.cpp, benchmarks/trilinos/main.cpp | BenchAll.v | C91, C92 |
| build_utilities.py, build_dependencies.py, build_legion.py, refresh_cmake.py, make_all.py (not the messages, not `remove_file`, not the cases of `clone` that are not used) | BuildScripts.v | C93 |
| Initialize.cpp (the whole function), `task_name`, `preregister`, `ToString` of the types used, `HasCUDAVariantMixin`, LoadCUDALibsTask::preregister | Initialize.v | C94 |
| README.md:107 (control replication), LegionSolversMapper::select_sharding_functor, replicable top-level tasks | Replication.v | C95 |
| test/*.cpp (handles created and destroyed), destructors at the end of a scope | OwnershipPrograms.v, Ownership.v | C96 |
| LEGION_SOLVERS_DISABLE_CLEANUP (all handle classes, example systems, printing of partitions, test/*.cpp) | NoCleanup.v | C97 |
| UtilityTasks.cpp: RandomFillTask::task_body, seeded_mersenne_twister (sizes); libstdc++'s generate_canonical and uniform_real_distribution | RandomFill.v | C98 |

Not modelled, one line each:
* console formatting (*which* lines a print of a matrix, scalar or partition produces, and in which order, is modelled; how a number is written is not, except in C82 and C90), `ToString` of lists (unused);
* the default mapper and Realm; `memoize_operation`, `slice_task`, layout constraints;
* how a `RandomFillTask` is launched (no API does) and the Mersenne twister behind it (C98 takes its words as given); `COORmatvecTask`, `CSRRmatvecTask`: bodies are `assert(false)`, no API launches them;
* `loadCUDALibs`: pre-loading, no observable effect besides creating the handles of C73 earlier;
* `tile_partitioned_matrices`, `triangular_matrix`, `coefficients`: members the code never reads;
* error paths of CUDA calls;
* performance, time measurement; `CMakeLists.txt` (its Kokkos branch calls `target_link_libraries(Kokkos::kokkoscore)` without a target);
* COORD_T = unsigned for stencil creation: does not compile (`std::abs(unsigned)` is ambiguous).

## 3. Trusted base

* Coq 8.16.1's kernel (including `vm_compute`, used in concrete examples and finite case checks), the standard library, and Flocq's *proved* library
  (it adds no axioms; used in `Float.v`, `FloatSum.v`).
* The reading of the C++ recorded in the definitions' comments.
* The contracts of external software, as stated where used: libstdc++ (`generate_canonical`, C98), Legion (ordering of conflicting operations, reductions in
  any order, dependent partitioning, ownership counting with `destroy_index_space(recurse = true)`, type tags, `create_equal_partition`
  returning some disjoint complete partition, identical traces replayable), Realm (an empty index space reports a lower bound not beyond the end of
  its parent), `std::sort`/`std::map` (C++ standard), cuBLAS and cuSPARSE (documented semantics), CUDA streams (FIFO), Realm (one task body at a time per processor; a GPU task is complete
  when its stream has passed the point at which the body returned).
* For the floating-point theorems: the compiler does not contract `x * y + z` into an fma in the dot and matvec loops (GCC's default for
  ISO mode; with contraction the bounds get smaller, not larger, but the theorem is about the uncontracted code), and rounding mode is to nearest.
* No axioms of our own, no `Admitted`, no functors or module types. Section variables are all discharged at the section's end.

### Print Assumptions, per theorem

`ClassicalDedekindReals.sig_forall_dec`, `sig_not_dec`, `functional_extensionality_dep` are the axioms of the standard library's
real numbers; `Classical_Prop.classic` comes with Flocq's and the library's real-analysis lemmas. (Regenerate with `scripts/gen_design.py --assumptions`.)

* **no axioms: `Closed under the global context`** (232 theorems): `C01_deferred_equals_direct`, `C01_ready_value_final`, `C02_value_semantics`, `C02_copy_keeps_old_value`, `C03_step_factors`, `C04_elementwise_exact`, `C04_partition_and_schedule_independent`, `C06_schedule_independent`, `C06_two_pieces_reproducible`, `C06_reduction_order_visible`, `C07_vector_needs_complete_disjoint_partition`, `C07_incompatible_operands_rejected`, `C07_compatible_operands_accepted`, `C08_never_illegal`, `C08_refcount_exact`, `C08_members_alive`, `C08_released`, `C09_coo_matvec`, `C09_C10_partition_and_schedule_independent`, `C10_csr_matvec`, `C100_cg_breakdown`, `C100_gmres_breakdown`, `C11_last_matching_row_of_each_piece`, `C11_uncovered_entries_ignored`, `C11_uncovered_entry_in_supplied_partition_aborts`, `C12_kernel_partition`, `C13_ghost_partition`, `C14_row_partition_from_columns`, `C14_monotone`, `C14_column_partitioned_product`, `C15_leaves_one_partition`, `C15_lost_forever`, `C16_planner_matvec`, `C17_componentwise`, `C17_dot`, `C18_legal_calls_accepted`, `C18_illegal_call_rejected`, `C18_after_workspace`, `C18_allocate_workspace`, `C19_counts_restored`, `C19_destroy_exact`, `C19_all_released`, `C19_matrix_must_outlive_planner`, `C19_laplacian_balanced`, `C20_stencil_size_exact`, `C21_traversal_visits_each_point_once`, `C22_linearisation_order_preserving_bijection`, `C23_offset_comparison_strict_total_order`, `C23_sort_comparator_strict_weak_order`, `C24_coo_stencil_contents`, `C24_coo_fill_completes`, `C25_coo_contents_piece_independent`, `C25_coo_task_writes_own_piece_only`, `C25_csr_contents_piece_independent`, `C25_csr_task_writes_own_piece_only`, `C25_C28_linearized_csr_independent`, `C26_csr_stencil_contents`, `C26_linearized_csr_stencil_contents`, `C27_slice_skipping_only_an_optimisation`, `C28_contents_independent_of_offset_order`, `C28_csr_contents_independent_of_offset_order`, `C29_stencil_matvec_is_convolution`, `C30_task_ids_injective`, `C30_task_ids_in_their_block`, `C31_runtime_id_is_compile_time_id`, `C32_which_launches_are_registered`, `C32_unregistered_products`, `C33_blocking_shards`, `C34_which_shards_are_used`, `C34_shard_left_idle`, `C35_flatten_unflatten`, `C39_zero_rhs_gives_nan`, `C43_coo_laplacian`, `C43_csr_laplacian`, `C45_coo_gpu_needs_contiguous_entries`, `C45_row_sorted_storage_is_contiguous`, `C46_indptr`, `C47_launch_covers_every_index`, `C47_xpay_kernel_touches_each_point_once`, `C48_slabs_fill`, `C48_own_instance_fills`, `C48_1d_fills`, `C48_scal`, `C48_scal_other_layouts`, `C48_count_overflow`, `C48_axpy`, `C48_dot`, `C48_degenerate_pieces`, `C48_sub_box_of_larger_instance`, `C48_mixed_orders`, `C49_coo_leaks_five`, `C49_csr_leaks_nine`, `C49_lost_forever`, `C50_round_trip`, `C50_malformed_buffers`, `C51_flags_are_sets`, `C51_test_is_intersection`, `C51_library_tasks`, `C52_laplacian_2d_kernel_size`, `C53_program_order`, `C54_cg_runs`, `C54_bicgstab_runs`, `C54_gmres_runs`, `C55_print_partition_instance`, `C60_copy_acquires_too_little`, `C60_double_release`, `C63_cg_steps_replay`, `C63_bicgstab_steps_replay`, `C63_gmres_steps_replay`, `C64_machine_coo_stencil`, `C64_machine_csr_stencil`, `C64_machine_linearized_csr_stencil`, `C64_linearize_exactly_when_volume_fits`, `C64_fill_tasks_need_sums_to_fit`, `C64_size_needs_room_above`, `C70_cg_benchmark`, `C70_bicgstab_benchmark`, `C70_gmres_benchmark`, `C70_per_trace_zero`, `C71_print`, `C71_print_triples`, `C71_stencil_print`, `C71_formats_print_alike`, `C72_cg`, `C72_bicgstab`, `C72_gmres`, `C72_planner_calls`, `C73_handles`, `C73_own_handles`, `C73_shared_slot`, `C73_only_gpus`, `C74_cg`, `C74_bicgstab`, `C74_gmres`, `C75_mapped_product`, `C75_gpu_csr_discards_earlier_matrices`, `C75_sorted_storage_is_gpu_usable`, `C77_laplacian_partitions`, `C77_block_partitions`, `C77_scalar_test`, `C78_chained_prints`, `C78_prints_of_specified`, `C78_program_prints`, `C78_unchained_any_order`, `C79_partition_shown`, `C79_needs_same_type`, `C80_programs_mean_what_they_say`, `C80_schedule_independent`, `C81_machine_flatten`, `C81_signed_overflow`, `C81_kernel_visits_each_point_once`, `C81_kernel_too_large`, `C81_unsigned_full_side`, `C84_streams_add_no_behaviour`, `C84_programs`, `C84_deterministic`, `C84_complete_means_done`, `C84_dot_result_ready`, `C84_terminates`, `C84_shared_slot`, `C86_petsc_same_matrix`, `C86_petsc_too_large`, `C86_petsc_unused_sizes`, `C86_trilinos_same_matrix`, `C86_trilinos_local_overflow`, `C86_trilinos_missing_size`, `C88_cg`, `C88_bicgstab`, `C88_gmres`, `C88_rhs_kept`, `C89_options`, `C90_set_tests`, `C90_vector_test_exact`, `C90_scalar_test`, `C90_verdict_is_return_code`, `C90_script_ends`, `C90_main`, `C90_build_test`, `C90_partition_tests_pass`, `C91_sizes`, `C91_iterations`, `C91_resources`, `C91_count_nodes`, `C92_petsc_limit`, `C92_petsc_ends`, `C92_trilinos_runs`, `C92_legion_runs`, `C92_limit_must_be_a_size`, `C92_bench_all`, `C92_bench_all_ends`, `C92_limit_table`, `C92_bench_all_ls`, `C93_directories`, `C93_refresh`, `C93_build_directory_is_needed`, `C93_make_all`, `C93_refresh_then_make`, `C93_options`, `C93_build_legion`, `C93_build_legion_order`, `C93_build_dependencies`, `C93_matching`, `C93_change_directory`, `C94_compiles`, `C94_variants`, `C94_once`, `C94_one_dimension`, `C94_names`, `C94_ambiguous_names`, `C94_messages`, `C94_output`, `C94_description`, `C95_each_task_on_one_shard`, `C95_same_executions`, `C95_no_deadlock`, `C95_same_results`, `C95_shard_count_is_invisible`, `C95_functor_assigns`, `C95_other_domains_stop`, `C95_accepted_programs_finish`, `C96_scope_exit`, `C96_test02`, `C96_test03`, `C96_test04`, `C96_test05`, `C96_test06`, `C96_benchmark`, `C97_same_outcome`, `C97_nothing_released`, `C97_programs`, `C97_benchmark`, `C98_seed_covers_state`

* **`FunctionalExtensionality.functional_extensionality_dep`** (5 theorems): `C75_same_solver_text`, `C77_vector_test`, `C80_reproducible_without_dots`, `C80_whole_programs`, `C80_prints`

* **`ClassicalDedekindReals.sig_forall_dec`, `FunctionalExtensionality.functional_extensionality_dep`** (14 theorems): `C56_answer_in_the_half_step`, `C62_dominant_stencil_positive`, `C65_gamma_classical`, `C82_six_digits`, `C89_invalid_dim`, `C89_bad_partition`, `C89_per_trace_zero`, `C89_no_solver`, `C89_benchmark_runs`, `C89_which_solver`, `C90_vector_test_passes`, `C91_same_problem`, `C91_same_matrix`, `C91_bench_all_third_extent`

* **`ClassicalDedekindReals.sig_forall_dec`, `ClassicalDedekindReals.sig_not_dec`, `FunctionalExtensionality.functional_extensionality_dep`** (55 theorems): `C05_dot_is_sum`, `C05_dot_symmetric`, `C05_dot_linear`, `C05_dot_positive`, `C09_C10_matvec_exact`, `C101_cg`, `C101_bicgstab`, `C11_overlap_makes_result_partition_dependent`, `C16_planner_matvec_exact`, `C17_dot_exact`, `C29_stencil_matvec_real`, `C29_symmetric_stencil_symmetric_operator`, `C36_true_residual`, `C36_cg_is_textbook_cg`, `C37_initial_guess`, `C38_cg_converges`, `C38_cg_solves`, `C39_step_after_convergence`, `C40_bicgstab_is_textbook`, `C40_residual`, `C40_true_residual`, `C42_residual_can_grow`, `C44_cg_solves_laplacian`, `C45_coo_gpu_equals_cpu`, `C45_csr_gpu_overwrites`, `C45_csr_agrees_iff_zero`, `C45_csr_second_product_discards_first`, `C56_bicgstab_breaks_down`, `C57_bicgstab_past_convergence`, `C58_restart_too_large`, `C75_mapped_product_exact`, `C75_coo_task_usable`, `C75_coo_task_is_the_cusparse_call`, `C75_csr_task_usable`, `C75_csr_task_is_the_cusparse_call`, `C77_cg_tests_print`, `C77_cg_tests_solution`, `C77_vector_test_exact`, `C80_exact_partition_independent`, `C83_arnoldi_relation`, `C83_solution_is_sum`, `C83_normalised_scale`, `C83_unit_length`, `C85_cg_rate`, `C85_stencil_rate`, `C85_benchmark_rate`, `C87_double_cg_agrees`, `C87_cg_is_textbook`, `C87_cg_matches_CGSolver`, `C95_cg_solves`, `C95_cg_tests_print`, `C99_every_run`, `C99_definite_solves`, `C99_indefinite_fails`, `C99_works_iff_definite`

* **`ClassicalDedekindReals.sig_forall_dec`, `ClassicalDedekindReals.sig_not_dec`, `Classical_Prop.classic`, `FunctionalExtensionality.functional_extensionality_dep`** (40 theorems): `C01_ieee_operations`, `C01_ieee_rsqrt`, `C01_ieee_closed`, `C100_bicgstab_breakdown`, `C100_bicgstab_zero_rhs`, `C100_lost_entries_stay_lost`, `C101_gmres`, `C101_gmres_ignores_scale`, `C41_gmres_cycle`, `C42_gmres_fixed_length`, `C59_gmres_past_convergence`, `C61_cg_solves_stencil`, `C62_benchmark_cg`, `C65_dot_rounding_error`, `C65_dot_no_overflow`, `C65_dot_runs_differ_little`, `C66_matvec_rounding_error`, `C66_product_rounding_error`, `C67_update_rounds_once`, `C68_float_cg_run`, `C69_residual_gap`, `C70_copies_overrun`, `C70_benchmark_overrun`, `C75_cg_run`, `C75_bicgstab_run`, `C75_gmres_run`, `C75_cg_solves_laplacian_on_gpus`, `C76_float_bicgstab_run`, `C76_residual_gap`, `C82_cg_tests_print_in_double`, `C82_example`, `C83_float_gmres_run`, `C84_cg_solves_laplacian_on_streams`, `C87_converges_then_undefined`, `C89_benchmark_cg`, `C89_benchmark_1d`, `C89_default_run`, `C90_cg_tests_pass`, `C98_unit`, `C98_random_fill`



## 4. Properties and theorems

How each is proved, in groups:
* C01-C07, C53, C54: invariant over `partial_run` (every schedule reduces to program order because steps that may be reordered commute), then
  a Hoare-style calculus over the application thread (`BuilderFacts.v`, `PlannerFacts.v`).
* C08, C15, C19, C49, C60: invariant of the ownership machine over all histories (`OwnershipInv.v`, `OwnershipFacts.v`); the leak results are exact counts.
* C09-C14, C16-C18: refinement of the task bodies to sums over stored triples, for every partition.
* C20-C29, C61, C62: induction on the dimension; loop invariants; the composed statements go from the creator's arguments to convolution.
* C30-C35, C46-C48, C50-C52, C55: arithmetic (mixed radix, bit fields) and finite case analysis over the registration table.
* C36-C44, C56-C59: loop invariants over the reals; conjugacy and Krylov-space arguments (`CGMath.v`, `BiCGMath.v`, `PropsGMRES.v`).
* C45: the GPU task bodies against the CPU ones through the cuSPARSE contract.
* C63: syntactic comparison of launch sequences up to future names.
* C64: simulation between the two stencil models.
* C65-C69, C76, C82, C83: Flocq error bounds composed along arbitrary reduction trees and solver steps.
* C85: Chebyshev polynomials of the operator by a three-term recurrence (`Chebyshev.v`, no eigenvalues), CG's optimality, a discrete Poincare inequality along each offset (`StencilRayleigh.v`).
* C86: every index expression of the two programs is evaluated in checked signed/unsigned arithmetic (`PeersFacts.v`); the calls are a permutation of the numbered stencil contents of C20-C28.
* C89: a weakest-precondition proof of the set-up; the driver issues the launches of a plain run of k steps (C70), so C88, C36 and C39 apply; two equal copies reduce to one (CopiesCG.v); closed form in 1-D (LaplacianCG.v).
* C90: sorted duplicate-free lists with the same elements are equal; the expected text is computed from the pieces proved in C77; interleavings are permutations.
* C91: induction over the generator's steps with closed forms; command lines are computed symbolically with the decimal texts kept as variables that are numbers and not option names; then C86. C92: induction over the loops with the processes numbered through the whole script; the table is checked entry by entry.
* C93: a judgement J (same working directory afterwards, writes confined to a set, commands an initial segment of a plan) with one rule per construct (BuildScriptsFacts.v); directory names are compared from their last character.
* C94: the variants are a flat map over the calls (induction); ids by C30 for three or more dimensions and by computation of the offsets for two; names by stripping the class name and then the parameters from the front.
* C95: simulation in both directions between the machine with one list of tasks per operation and shard and the machine of Async.v (invariant: the shards' remaining tasks together are a permutation of the operation's remaining tasks); the corollaries transport theorems stated with `ends`/`execution`.
* C96: induction over the order in which references and objects are let go, with the ownership invariant of C08 (no illegal call) and `drops` (destructors do not abort); the programs up to the solver's construction by computation for every combination of vector growth, `allocate_workspace` symbolically, the end by the general theorem.
* C97: a simulation between the two builds, operation by operation, through states with the same objects and no fewer owners (every destroy call may be left out on one side); a second invariant (alive = created) over every operation of the build without cleanup; the programs through C96.
* C98: the two roundings that can occur (the words' sum, and the quotient, which is exact) are followed through SpecFloat's operations with Flocq; the vector part turns the tasks into a pointwise update by looking up a point's position in its piece.
* C99: the iteration for -A has the same residuals and directions, which reduces the negative definite case to C38's mathematics; for a form that is not definite a vector with <x, A x> = 0 is found on the line through two vectors of opposite signs; a store holding any right-hand side is built from the distinct storages of a planner's vectors.
* C100: every operation of SpecFloat keeps an infinity or NaN operand non-finite except a division by an infinity (FloatBad.v); per solver an invariant over the recorded scalars (PropsBreakdown.v), no assumption on the reduction order, the entries or the other scalars; one invariant per solution entry gives the persistence.
* C101: the textbook iterations of two proportional systems are compared step by step (`PropsSystem.v`: a permutation of the unknowns, `a' = mu a`, `b' = c b`, `x0' = (c/mu) x0`) and lifted to every run of both solvers by C36, C40 and the lemmas of C41; `SystemExample.v` is a pair with different partitions and numbers of matrices.
* C88: a program logic tracking the declared write permissions of every launch (WriteFacts.v); steps of a partial execution come from the launched tasks.
* C87: one double step equals two single steps as long as the direction is either real or undefined throughout (an invariant); the textbook iteration is invariant under renumbering of the unknowns.

"Two-sided" in a note means that the natural reading of the property is false of the code, and the theorem states exactly what holds instead.

| id | theorems (file) | status | note |
|---|---|---|---|
| C01 | `C01_deferred_equals_direct` (PropsScalar), `C01_ready_value_final` (PropsScalar), `C01_ieee_operations` (PropsFloatScalar), `C01_ieee_rsqrt` (PropsFloatScalar), `C01_ieee_closed` (PropsFloatScalar) | proved | any arithmetic, straight-line programs over scalar variables, every asynchronous execution; hypotheses met in: PropsFloatScalar.C01_ieee_example, PropsScalar.C01_example |
| C02 | `C02_value_semantics` (PropsScalar), `C02_copy_keeps_old_value` (PropsScalar) | proved | hypotheses met in: PropsScalar.C02_example |
| C03 | `C03_step_factors` (PropsVector) | proved | hypotheses met in: PropsVector.C03_C04_example |
| C04 | `C04_elementwise_exact` (PropsVector), `C04_partition_and_schedule_independent` (PropsVector) | proved | CPU task bodies; hypotheses met in: PropsVector.C03_C04_example |
| C05 | `C05_dot_is_sum` (PropsVector), `C05_dot_symmetric` (PropsVector), `C05_dot_linear` (PropsVector), `C05_dot_positive` (PropsVector) | proved | exact arithmetic over the reals, every legal reduction tree; hypotheses met in: PropsVector.C05_example, PropsVector.C05_example_accepted |
| C06 | `C06_schedule_independent` (PropsVector), `C06_two_pieces_reproducible` (PropsVector), `C06_reduction_order_visible` (PropsVector) | proved | the third theorem is a witness that the reduction order is visible with three pieces; hypotheses met in: PropsVector.C05_example |
| C07 | `C07_vector_needs_complete_disjoint_partition` (PropsVector), `C07_incompatible_operands_rejected` (PropsVector), `C07_compatible_operands_accepted` (PropsVector) | proved | hypotheses met in: PropsVector.C07_example |
| C08 | `C08_never_illegal` (PropsOwnership), `C08_refcount_exact` (PropsOwnership), `C08_members_alive` (PropsOwnership), `C08_released` (PropsOwnership) | proved | Legion's ownership counting is trusted; example: OwnershipExample.setup_reaches; hypotheses met in: OwnershipExample.setup_reaches, release_reaches, all_released_instance |
| C09 | `C09_coo_matvec` (PropsMatrix), `C09_C10_matvec_exact` (PropsMatrix), `C09_C10_partition_and_schedule_independent` (PropsMatrix) | proved | CPU task; entries whose column lies outside the source's index space are skipped by the code and by the statement; hypotheses met in: PropsMatrix.C09_C10_example |
| C10 | `C10_csr_matvec` (PropsMatrix), `C09_C10_matvec_exact` (PropsMatrix), `C09_C10_partition_and_schedule_independent` (PropsMatrix) | proved | row intervals disjoint; an entry in no interval is not in any row; hypotheses met in: PropsMatrix.C09_C10_example |
| C100 | `C100_cg_breakdown` (PropsBreakdown), `C100_bicgstab_breakdown` (PropsBreakdown), `C100_bicgstab_zero_rhs` (PropsBreakdown), `C100_gmres_breakdown` (PropsBreakdown), `C100_lost_entries_stay_lost` (PropsBreakdown) | proved | IEEE arithmetic with round to nearest even (Float.v, on SpecFloat); a zero right-hand side for CG is C39; the norm of the GMRES residual itself is not recorded by the code, so nothing is stated about it; example: PropsBreakdown.C100_example; hypotheses met in: PropsBreakdown.C100_example |
| C101 | `C101_cg` (PropsSystem), `C101_bicgstab` (PropsSystem), `C101_gmres` (PropsSystem), `C101_gmres_ignores_scale` (PropsSystem) | proved | exact arithmetic; two-sided: this GMRES does not scale with the right-hand side; hypotheses met in: SystemExample.C101_example |
| C11 | `C11_last_matching_row_of_each_piece` (PropsMatrix), `C11_uncovered_entries_ignored` (PropsMatrix), `C11_uncovered_entry_in_supplied_partition_aborts` (PropsMatrix), `C11_overlap_makes_result_partition_dependent` (PropsMatrix) | proved | hypotheses met in: SolverExample2.C11_example |
| C12 | `C12_kernel_partition` (PropsMatrix) | proved | hypotheses met in: PropsMatrix.C12_C13_example |
| C13 | `C13_ghost_partition` (PropsMatrix) | proved | hypotheses met in: PropsMatrix.C12_C13_example |
| C14 | `C14_row_partition_from_columns` (PropsMatrix), `C14_monotone` (PropsMatrix), `C14_column_partitioned_product` (PropsMatrix) | proved | hypotheses met in: PropsMatrix.C14_example |
| C15 | `C15_leaves_one_partition` (PropsLeaks), `C15_lost_forever` (PropsLeaks) | proved | two-sided: the helpers leak exactly one partition; hypotheses met in: OwnershipExample.domain_from_range_instance |
| C16 | `C16_planner_matvec` (PropsPlanner), `C16_planner_matvec_exact` (PropsPlanner) | proved | any arithmetic: block_product lists the additions in order; exact: the real operator of all added matrices; hypotheses met in: PropsPlanner.C16_C18_example |
| C17 | `C17_componentwise` (PropsPlanner), `C17_dot` (PropsPlanner), `C17_dot_exact` (PropsPlanner) | proved | dot needs at least one component (component 0 is accessed unconditionally); hypotheses met in: PropsPlanner.C16_C18_example |
| C18 | `C18_legal_calls_accepted` (PropsPlanner), `C18_illegal_call_rejected` (PropsPlanner), `C18_after_workspace` (PropsPlanner), `C18_allocate_workspace` (PropsPlanner) | proved | a CSR matrix whose row space is not the component's space is refused by Legion, outside the model; hypotheses met in: PropsPlanner.C16_C18_example |
| C19 | `C19_counts_restored` (PropsOwnership), `C19_destroy_exact` (PropsLeaks), `C19_all_released` (PropsOwnership), `C19_matrix_must_outlive_planner` (PropsLeaks), `C19_laplacian_balanced` (PropsLeaks) | proved | hypotheses met in: OwnershipExample.all_released_instance, matrix_first_instance, laplacian_instance |
| C20 | `C20_stencil_size_exact` (PropsStencil) | proved | all boxes (also empty sides) and offset lists of matching dimension; unbounded integers; hypotheses met in: PropsStencil.C20_example |
| C21 | `C21_traversal_visits_each_point_once` (PropsStencil) | proved | hypotheses met in: PropsStencil.C21_example |
| C22 | `C22_linearisation_order_preserving_bijection` (PropsStencil) | proved | hypotheses met in: PropsStencil.C22_example |
| C23 | `C23_offset_comparison_strict_total_order` (PropsStencil), `C23_sort_comparator_strict_weak_order` (PropsStencil) | proved | hypotheses met in: PropsStencil.C23_example |
| C24 | `C24_coo_stencil_contents` (PropsStencil), `C24_coo_fill_completes` (PropsStencil) | proved | plain and linearised COO fill tasks, any partition and interleaving; hypotheses met in: PropsStencil.C24_example |
| C25 | `C25_coo_contents_piece_independent` (PropsStencil), `C25_coo_task_writes_own_piece_only` (PropsStencil), `C25_csr_contents_piece_independent` (PropsStencil), `C25_csr_task_writes_own_piece_only` (PropsStencil), `C25_C28_linearized_csr_independent` (PropsStencil) | proved | hypotheses met in: PropsStencil.C24_example, C26_example |
| C26 | `C26_csr_stencil_contents` (PropsStencil), `C26_linearized_csr_stencil_contents` (PropsStencil) | proved | hypotheses met in: PropsStencil.C26_example |
| C27 | `C27_slice_skipping_only_an_optimisation` (PropsStencil) | proved | needs that an empty piece reports a lower bound not beyond the end of the space (Realm's empty rectangle); hypotheses met in: PropsStencil.C27_example |
| C28 | `C28_contents_independent_of_offset_order` (PropsStencil), `C28_csr_contents_independent_of_offset_order` (PropsStencil), `C25_C28_linearized_csr_independent` (PropsStencil) | proved | hypotheses met in: PropsStencil.C28_example |
| C29 | `C29_stencil_matvec_is_convolution` (PropsConvolution), `C29_stencil_matvec_real` (PropsConvolution), `C29_symmetric_stencil_symmetric_operator` (PropsConvolution) | proved | all storage formats; example: PropsConvolution.C29_example; hypotheses met in: PropsConvolution.C29_example |
| C30 | `C30_task_ids_injective` (PropsTaskIds), `C30_task_ids_in_their_block` (PropsTaskIds) | proved | for every configuration whose blocks fit in 32 bits; hypotheses met in: PropsTaskIds.C30_example |
| C31 | `C31_runtime_id_is_compile_time_id` (PropsTaskIds) | proved | Legion's type tag layout (256*dim + type position) is a run-time contract; hypotheses met in: PropsTaskIds.C30_example |
| C32 | `C32_which_launches_are_registered` (PropsTaskIds), `C32_unregistered_products` (PropsTaskIds) | proved | two-sided: products on 2-D/3-D or 32-bit spaces are NOT registered; hypotheses met in: PropsTaskIds.C30_example |
| C33 | `C33_blocking_shards` (PropsSharding) | proved | hypotheses met in: PropsSharding.C33_example |
| C34 | `C34_which_shards_are_used` (PropsSharding), `C34_shard_left_idle` (PropsSharding) | proved | two-sided: some shards can stay idle; hypotheses met in: PropsSharding.C34_shard_left_idle (a concrete case), C33_example |
| C35 | `C35_flatten_unflatten` (PropsPitches) | proved | here over the integers; with machine integers: C81; hypotheses met in: PropsPitches.C35_example |
| C36 | `C36_true_residual` (PropsCG), `C36_cg_is_textbook_cg` (PropsCG) | proved | exact arithmetic; hypotheses met in: SolverExample.C36_C38_example |
| C37 | `C37_initial_guess` (PropsCG) | proved | hypotheses met in: SolverExample2.C37_example |
| C38 | `C38_cg_converges` (PropsCGConv), `C38_cg_solves` (PropsCGConv) | proved | exact arithmetic; also Krylov optimality and uniqueness of the solution; hypotheses met in: SolverExample.C36_C38_example |
| C39 | `C39_zero_rhs_gives_nan` (PropsCGConv), `C39_step_after_convergence` (PropsCGConv) | proved | every IEEE format for a zero right-hand side, exact arithmetic for convergence after k steps; hypotheses met in: SolverExample2.C39_example, SolverExample2.C39_zero_example |
| C40 | `C40_bicgstab_is_textbook` (PropsBiCG), `C40_residual` (PropsBiCG), `C40_true_residual` (PropsBiCG) | proved | exact arithmetic; example: SolverExample.C40_C56_example; hypotheses met in: SolverExample.C40_C56_example |
| C41 | `C41_gmres_cycle` (PropsGMRES) | proved | exact arithmetic; hypotheses met in: SolverExample2.C41_C58_example |
| C42 | `C42_gmres_fixed_length` (PropsGMRES), `C42_residual_can_grow` (GMRESExample) | proved | exact arithmetic; restated: the code does not minimise; hypotheses met in: GMRESExample.diag_problem, SolverExample2.C41_C58_example |
| C43 | `C43_coo_laplacian` (PropsExample), `C43_csr_laplacian` (PropsExample) | proved | hypotheses met in: PropsExample.C43_example |
| C44 | `C44_cg_solves_laplacian` (PropsLaplacian) | proved | hypotheses met in: PropsLaplacian.C44_example |
| C45 | `C45_coo_gpu_equals_cpu` (PropsGpu), `C45_coo_gpu_needs_contiguous_entries` (PropsGpu), `C45_row_sorted_storage_is_contiguous` (PropsGpu), `C45_csr_gpu_overwrites` (PropsGpu), `C45_csr_agrees_iff_zero` (PropsGpu), `C45_csr_second_product_discards_first` (PropsGpu) | proved | two-sided; cuSPARSE by its documented contract; exact arithmetic (the GPU adds in another order); hypotheses met in: PropsGpu.csr_example, csr_example_run, coo_example, coo_gap_example |
| C46 | `C46_indptr` (PropsGpu), `C45_coo_gpu_equals_cpu` (PropsGpu), `C45_csr_gpu_overwrites` (PropsGpu) | proved | index pointers by C46_indptr; the shifted vector pointers by the effect theorems of C45; hypotheses met in: PropsGpu.csr_example_run |
| C47 | `C47_launch_covers_every_index` (PropsPitches), `C47_xpay_kernel_touches_each_point_once` (PropsPitches) | proved | hypotheses met in: PropsPitches.C35_example |
| C48 | `C48_slabs_fill` (PropsGpuDense), `C48_own_instance_fills` (PropsGpuDense), `C48_1d_fills` (PropsGpuDense), `C48_scal` (PropsGpuDense), `C48_scal_other_layouts` (PropsGpuDense), `C48_count_overflow` (PropsGpuDense), `C48_axpy` (PropsGpuDense), `C48_dot` (PropsGpuDense), `C48_degenerate_pieces` (PropsGpuDense), `C48_sub_box_of_larger_instance` (PropsGpuDense), `C48_mixed_orders` (PropsGpuDense) | proved | two-sided; cuBLAS by its documented contract; hypotheses met in: PropsGpuDense.own_2x2 |
| C49 | `C49_coo_leaks_five` (PropsLeaks), `C49_csr_leaks_nine` (PropsLeaks), `C49_lost_forever` (PropsLeaks) | proved | two-sided: the builders leak exactly 5 / 9 objects; hypotheses met in: OwnershipExample.setup_reaches |
| C50 | `C50_round_trip` (PropsArgBuffer), `C50_malformed_buffers` (PropsArgBuffer) | proved | hypotheses met in: PropsArgBuffer.C50_example |
| C51 | `C51_flags_are_sets` (PropsTaskFlags), `C51_test_is_intersection` (PropsTaskFlags), `C51_library_tasks` (PropsTaskFlags) | proved | hypotheses met in: PropsTaskFlags.C51_example |
| C52 | `C52_laplacian_2d_kernel_size` (PropsLap2D) | proved | hypotheses met in: PropsLap2D.C52_example |
| C53 | `C53_program_order` (PropsPlanner) | proved | hypotheses met in: SolverExample2.C53_C54_example |
| C54 | `C54_cg_runs` (PropsSolver), `C54_bicgstab_runs` (PropsSolver), `C54_gmres_runs` (PropsSolver) | proved | hypotheses met in: SolverExample2.C53_C54_example |
| C55 | `C55_print_partition_instance` (PropsTaskIds) | proved | two-sided; hypotheses met in: PropsTaskIds.C55_example |
| C56 | `C56_bicgstab_breaks_down` (PropsBiCG), `C56_answer_in_the_half_step` (PropsBiCG) | proved | exact arithmetic; hypotheses met in: SolverExample.C40_C56_example |
| C57 | `C57_bicgstab_past_convergence` (PropsBiCG) | proved | exact arithmetic; hypotheses met in: SolverExample2.C57_example |
| C58 | `C58_restart_too_large` (PropsGMRES) | proved | exact arithmetic; hypotheses met in: SolverExample2.C41_C58_example |
| C59 | `C59_gmres_past_convergence` (PropsGMRES) | proved | exact arithmetic; hypotheses met in: SolverExample2.C59_example |
| C60 | `C60_copy_acquires_too_little` (PropsLeaks), `C60_double_release` (PropsLeaks) | proved | hypotheses met in: OwnershipExample.copied_planner_instance |
| C61 | `C61_cg_solves_stencil` (PropsStencilCG) | proved | exact arithmetic; example: PropsStencilCG.C62_example; hypotheses met in: PropsStencilCG.C62_example |
| C62 | `C62_dominant_stencil_positive` (PropsStencilCG), `C62_benchmark_cg` (PropsStencilCG) | proved | exact arithmetic, entries 88/26 etc. as exact quotients; hypotheses met in: PropsStencilCG.C62_example |
| C63 | `C63_cg_steps_replay` (PropsTrace), `C63_bicgstab_steps_replay` (PropsTrace), `C63_gmres_steps_replay` (PropsTrace) | proved | example: PropsTrace.C63_example; hypotheses met in: PropsTrace.C63_example |
| C64 | `C64_machine_coo_stencil` (PropsMachine), `C64_machine_csr_stencil` (PropsMachine), `C64_machine_linearized_csr_stencil` (PropsMachine), `C64_linearize_exactly_when_volume_fits` (PropsMachine), `C64_fill_tasks_need_sums_to_fit` (PropsMachine), `C64_size_needs_room_above` (PropsMachine) | proved | signed overflow is UB, size_t wraps; examples: PropsMachine.C64_int_example, C64_int_overflow_example, C64_sum_overflow_example; hypotheses met in: PropsMachine.C64_int_example, PropsMachine.C64_int_overflow_example, PropsMachine.C64_sum_overflow_example |
| C65 | `C65_dot_rounding_error` (PropsFloat), `C65_dot_no_overflow` (PropsFloat), `C65_dot_runs_differ_little` (PropsFloat), `C65_gamma_classical` (PropsFloat) | proved | Flocq relates Coq's SpecFloat to real numbers; the compiler is assumed not to contract x*y+z; example: PropsFloat.C65_example; hypotheses met in: PropsFloat.C65_example |
| C66 | `C66_matvec_rounding_error` (PropsFloat), `C66_product_rounding_error` (PropsFloat) | proved | example: PropsFloat.C66_example; hypotheses met in: PropsFloat.C66_example |
| C67 | `C67_update_rounds_once` (PropsFloat) | proved | example: PropsFloat.C67_example; hypotheses met in: PropsFloat.C67_example |
| C68 | `C68_float_cg_run` (PropsFloatCG) | proved | as long as no infinity or NaN appears in x and p; example: PropsFloatCG.C68_example (double); hypotheses met in: PropsFloatCG.C68_example |
| C69 | `C69_residual_gap` (PropsFloatCG) | proved | same hypotheses as C68; example: PropsFloatCG.C68_example; hypotheses met in: PropsFloatCG.C68_example |
| C70 | `C70_cg_benchmark` (PropsBenchmark), `C70_bicgstab_benchmark` (PropsBenchmark), `C70_gmres_benchmark` (PropsBenchmark), `C70_per_trace_zero` (PropsBenchmark), `C70_copies_overrun` (PropsBenchmark), `C70_benchmark_overrun` (PropsBenchmark) | proved | the overrun claims are for exact arithmetic; examples: PropsBenchmark.C70_default_example, C70_wrap_example, PropsStencilCG.C62_example; hypotheses met in: PropsBenchmark.C70_default_example, PropsBenchmark.C70_wrap_example |
| C71 | `C71_print` (PropsPrint), `C71_print_triples` (PropsPrint), `C71_stencil_print` (PropsPrint), `C71_formats_print_alike` (PropsPrint) | proved | examples: PropsPrint.C71_stencil_example, C71_abort_example; hypotheses met in: PropsPrint.C71_stencil_example, PropsPrint.C71_abort_example |
| C72 | `C72_cg` (PropsInit), `C72_bicgstab` (PropsInit), `C72_gmres` (PropsInit), `C72_planner_calls` (PropsInit) | proved | accesses to the immutable matrix regions are not locations of the model; for arbitrary planner programs (C72_planner_calls) only the privilege and interference parts; example: PropsInit.C72_C74_example; hypotheses met in: PropsInit.C72_C74_example |
| C73 | `C73_handles` (PropsCudaHandles), `C73_own_handles` (PropsCudaHandles), `C73_shared_slot` (PropsCudaHandles), `C73_only_gpus` (PropsCudaHandles) | proved | sequential histories; LEGION_MAX_NUM_PROCS a power of two; example: PropsCudaHandles.C73_example; hypotheses met in: PropsCudaHandles.C73_example |
| C74 | `C74_cg` (PropsInit), `C74_bicgstab` (PropsInit), `C74_gmres` (PropsInit) | proved | example: PropsInit.C72_C74_example; hypotheses met in: PropsInit.C72_C74_example |
| C75 | `C75_mapped_product` (PropsGpuPlanner), `C75_mapped_product_exact` (PropsGpuPlanner), `C75_gpu_csr_discards_earlier_matrices` (PropsGpuPlanner), `C75_cg_run` (PropsGpuPlanner), `C75_bicgstab_run` (PropsGpuPlanner), `C75_gmres_run` (PropsGpuPlanner), `C75_same_solver_text` (PropsGpuPlanner), `C75_sorted_storage_is_gpu_usable` (PropsGpuLayout), `C75_coo_task_usable` (PropsGpuTasks), `C75_coo_task_is_the_cusparse_call` (PropsGpuTasks), `C75_csr_task_usable` (PropsGpuTasks), `C75_csr_task_is_the_cusparse_call` (PropsGpuTasks), `C75_cg_solves_laplacian_on_gpus` (PropsGpuLaplacian) | proved | solver equality in exact arithmetic; CSR row pointers that are not consecutive intervals are UB in this model (C46 describes what the call then does); examples: PropsGpuLaplacian.C75_example, C75_twice_example, C75_laplacian_example; hypotheses met in: PropsGpuLaplacian.C75_example, PropsGpuLaplacian.C75_twice_example, PropsGpuLaplacian.C75_laplacian_example |
| C76 | `C76_float_bicgstab_run` (PropsFloatBiCG), `C76_residual_gap` (PropsFloatBiCG) | proved | as long as no infinity or NaN appears in x and r; example: PropsFloatBiCG.C76_example (double); hypotheses met in: PropsFloatBiCG.C76_example |
| C77 | `C77_cg_tests_print` (PropsTests), `C77_cg_tests_solution` (PropsTests), `C77_laplacian_partitions` (PropsTests), `C77_block_partitions` (PropsTests), `C77_scalar_test` (PropsTests), `C77_vector_test` (PropsVectorProg), `C77_vector_test_exact` (PropsVectorProg) | proved | the CG tests in exact arithmetic (in double the recorded norms are only close to these: C69); formatting of numbers is not modelled; examples: PropsTests.C77_example, PropsTests.C77_expected_output; hypotheses met in: PropsTests.C77_example |
| C78 | `C78_chained_prints` (PropsPrintScalar), `C78_prints_of_specified` (PropsPrintScalar), `C78_program_prints` (PropsPrintScalar), `C78_unchained_any_order` (PropsPrintScalar) | proved | number formatting is not modelled; one print is one atomic line; example: PropsPrintScalar.C78_example; hypotheses met in: PropsPrintScalar.C78_example |
| C79 | `C79_partition_shown` (PropsPrintScalar), `C79_needs_same_type` (PropsPrintScalar) | proved | lines are atomic; the second theorem reads off the modelled dispatch on the colour space's type; example: PropsPrintScalar.C79_example; hypotheses met in: PropsPrintScalar.C79_example |
| C80 | `C80_programs_mean_what_they_say` (PropsVectorProg), `C80_schedule_independent` (PropsVectorProg), `C80_exact_partition_independent` (PropsVectorProg), `C80_reproducible_without_dots` (PropsVectorProg), `C80_whole_programs` (PropsVectorProg), `C80_prints` (PropsVectorProg) | proved | straight-line programs; the matrices are given values; the order in which scalar arguments of one call are evaluated is fixed; example: PropsVectorProg.C80_example; hypotheses met in: PropsVectorProg.C80_example |
| C81 | `C81_machine_flatten` (PropsPitchesMachine), `C81_signed_overflow` (PropsPitchesMachine), `C81_kernel_visits_each_point_once` (PropsPitchesMachine), `C81_kernel_too_large` (PropsPitchesMachine), `C81_unsigned_full_side` (PropsPitchesMachine) | proved | the failing launch is the device's documented limit of 2^31-1 blocks, taken as given; a debug build's stream check, if it runs, may report it; example: PropsPitchesMachine.C81_example; hypotheses met in: PropsPitchesMachine.C81_example |
| C82 | `C82_cg_tests_print_in_double` (PropsFloatTests), `C82_six_digits` (PropsFloatTests), `C82_example` (PropsFloatTests) | proved | binary64 (round to nearest even, std::fma where the code calls it, no other contraction, no extended precision) for every operation of the run; what operator<< prints is specified by shows_six (nearest six-digit decimal), of which C82_six_digits shows that the integer is the unique one; hypotheses met in: PropsFloatTests.C82_example |
| C83 | `C83_float_gmres_run` (PropsFloatGMRES), `C83_arnoldi_relation` (PropsFloatGMRES), `C83_solution_is_sum` (PropsFloatGMRES), `C83_normalised_scale` (PropsFloatGMRES), `C83_unit_length` (PropsFloatGMRES) | proved | as long as no infinity or NaN appears in the solution; a cycle with zero basis vectors adds nothing and is excluded (0 < m); examples: PropsFloatGMRES.C83_example, C83_unit_length_example (double); hypotheses met in: PropsFloatGMRES.C83_example, PropsFloatGMRES.C83_unit_length_example |
| C84 | `C84_streams_add_no_behaviour` (PropsGpuStreams), `C84_programs` (PropsGpuStreams), `C84_deterministic` (PropsGpuStreams), `C84_complete_means_done` (PropsGpuStreams), `C84_dot_result_ready` (PropsGpuStreams), `C84_terminates` (PropsGpuStreams), `C84_cg_solves_laplacian_on_streams` (PropsGpuStreams), `C84_shared_slot` (PropsGpuStreams) | proved | CUDA streams are FIFO, Realm runs one body at a time per processor and completes a task when its stream has passed the point of return; the order of the threads inside one kernel is not varied here (C46, C81); examples: PropsGpuStreams.C84_example, C84_dot_example; hypotheses met in: PropsGpuStreams.C84_example, PropsGpuStreams.C84_dot_example |
| C85 | `C85_cg_rate` (PropsCGRate), `C85_stencil_rate` (PropsCGRate), `C85_benchmark_rate` (PropsCGRate) | proved | exact arithmetic; proved with Chebyshev polynomials of the operator, without eigenvalues; k steps up to the one that solves the system (one step further divides by zero: C70); example: PropsCGRate.C85_example with PropsStencilCG.C62_example; hypotheses met in: PropsCGRate.C85_example |
| C86 | `C86_petsc_same_matrix` (PropsPeers), `C86_petsc_too_large` (PropsPeers), `C86_petsc_unused_sizes` (PropsPeers), `C86_trilinos_same_matrix` (PropsPeers), `C86_trilinos_local_overflow` (PropsPeers), `C86_trilinos_missing_size` (PropsPeers) | proved | the insertion calls are modelled, not the PETSc and Trilinos libraries; entries are given by their constant expressions; example: PropsPeers.C86_example; hypotheses met in: PropsPeers.C86_example |
| C87 | `C87_double_cg_agrees` (PropsKrylov), `C87_cg_is_textbook` (PropsKrylov), `C87_converges_then_undefined` (PropsKrylov), `C87_cg_matches_CGSolver` (PropsKrylov) | proved | exact arithmetic; example: PropsKrylov.C87_example; hypotheses met in: PropsKrylov.C87_example |
| C88 | `C88_cg` (PropsWrites), `C88_bicgstab` (PropsWrites), `C88_gmres` (PropsWrites), `C88_rhs_kept` (PropsWrites) | proved | write permission is what the launches declare (region requirements, futures); matrix regions are not locations of the model's memory: that the solvers request them read-only is by construction of Matrix.v; example: PropsWrites.C88_example; hypotheses met in: PropsWrites.C88_example |
| C89 | `C89_invalid_dim` (PropsBenchmarkProgram), `C89_bad_partition` (PropsBenchmarkProgram), `C89_per_trace_zero` (PropsBenchmarkProgram), `C89_no_solver` (PropsBenchmarkProgram), `C89_options` (PropsBenchmarkProgram), `C89_benchmark_runs` (PropsBenchmarkProgram), `C89_which_solver` (PropsBenchmarkProgram), `C89_benchmark_cg` (PropsBenchmarkProgram), `C89_benchmark_1d` (PropsBenchmarkProgram), `C89_default_run` (PropsBenchmarkProgram) | proved | the matrix is any the creator can leave (stencil_matrix), the partition any disjoint and complete one; command-line text to number conversion is Realm's; output, timing and destruction are not part of the model; example: PropsBenchmarkProgram.C89_example; hypotheses met in: PropsBenchmarkProgram.C89_example |
| C90 | `C90_set_tests` (PropsTestAll), `C90_vector_test_exact` (PropsTestAll), `C90_scalar_test` (PropsTestAll), `C90_verdict_is_return_code` (PropsTestAll), `C90_script_ends` (PropsTestAll), `C90_main` (PropsTestAll), `C90_build_test` (PropsTestAll), `C90_partition_tests_pass` (PropsTestAll), `C90_cg_tests_pass` (PropsTestAll), `C90_vector_test_passes` (PropsTestAll) | proved | lines are written as a whole; a stream inserting pieces of a line inside another task's line is not modelled; jsrun and the directory changes are not modelled; text of a double: nearest six-digit decimal (C82); example: PropsTestAll.C90_example; hypotheses met in: PropsTestAll.C90_example |
| C91 | `C91_sizes` (PropsBenchAll), `C91_same_problem` (PropsBenchAll), `C91_same_matrix` (PropsBenchAll), `C91_bench_all_third_extent` (PropsBenchAll), `C91_iterations` (PropsBenchAll), `C91_resources` (PropsBenchAll), `C91_count_nodes` (PropsBenchAll) | proved | Realm's command line parser and PETSc's option database are modelled as described in BenchAll.v (external libraries); in bench_all.py the LegionSolvers calls are commented out; the matrix theorem is for sizes up to the largest PetscInt and fewer than 2^31 rows per Trilinos process (C86 shows what happens beyond); example: PropsBenchAll.C91_example with PropsPeers.C86_example; hypotheses met in: PropsBenchAll.C91_example |
| C92 | `C92_petsc_limit` (PropsBenchRuns), `C92_petsc_ends` (PropsBenchRuns), `C92_trilinos_runs` (PropsBenchRuns), `C92_legion_runs` (PropsBenchRuns), `C92_limit_must_be_a_size` (PropsBenchRuns), `C92_bench_all` (PropsBenchRuns), `C92_bench_all_ends` (PropsBenchRuns), `C92_limit_table` (PropsBenchRuns), `C92_bench_all_ls` (PropsBenchRuns) | proved | a process is its error output and return code, any function of its number and command; console output of the scripts is not modelled; example: PropsBenchRuns.C92_example; hypotheses met in: PropsBenchRuns.C92_example |
| C93 | `C93_directories` (PropsBuildScripts), `C93_refresh` (PropsBuildScripts), `C93_build_directory_is_needed` (PropsBuildScripts), `C93_make_all` (PropsBuildScripts), `C93_refresh_then_make` (PropsBuildScripts), `C93_options` (PropsBuildScripts), `C93_build_legion` (PropsBuildScripts), `C93_build_legion_order` (PropsBuildScripts), `C93_build_dependencies` (PropsBuildScripts), `C93_matching` (PropsBuildScripts), `C93_change_directory` (PropsBuildScripts) | proved | SCRATCH_DIR and LIB_PREFIX absolute, without symbolic links; mkdir, rmtree and chdir fail only because of what exists; well_behaved: a command writes below its working directory, git clone in the directory it creates, make install below the configured prefix; hypotheses on how SCRATCH_DIR, LIB_PREFIX and the working directory lie in each other are stated in each theorem; example: PropsBuildScripts.C93_example; hypotheses met in: PropsBuildScripts.C93_example |
| C94 | `C94_compiles` (PropsInitialize), `C94_variants` (PropsInitialize), `C94_once` (PropsInitialize), `C94_one_dimension` (PropsInitialize), `C94_names` (PropsInitialize), `C94_ambiguous_names` (PropsInitialize), `C94_messages` (PropsInitialize), `C94_output` (PropsInitialize), `C94_description` (PropsInitialize) | proved | which tasks are registered is TaskIds.registered (C32), here shown to be the calls of initialize; Legion's own registry and the mapper callback are only recorded; example: PropsInitialize.C94_example; hypotheses met in: PropsInitialize.C94_example |
| C95 | `C95_each_task_on_one_shard` (PropsReplication), `C95_same_executions` (PropsReplication), `C95_no_deadlock` (PropsReplication), `C95_same_results` (PropsReplication), `C95_shard_count_is_invisible` (PropsReplication), `C95_functor_assigns` (PropsReplication), `C95_other_domains_stop` (PropsReplication), `C95_accepted_programs_finish` (PropsReplication), `C95_cg_solves` (PropsReplication), `C95_cg_tests_print` (PropsReplication) | proved | that all shards issue the same operations, dependence analysis across shards and coherence of the copies of regions are Legion's; the order in which future maps are reduced is a parameter of the program, the same for all shard counts; text a top-level task itself writes appears once per shard and is not part of the statement; examples: PropsReplication.C95_example, C95_example_shards; hypotheses met in: PropsReplication.C95_example, PropsReplication.C95_example_shards |
| C96 | `C96_scope_exit` (PropsPrograms), `C96_test02` (PropsPrograms), `C96_test03` (PropsPrograms), `C96_test04` (PropsPrograms), `C96_test05` (PropsPrograms), `C96_test06` (PropsPrograms), `C96_benchmark` (PropsPrograms) | proved | handle numbers are those of a fresh runtime; solver steps, fills, fences and traces create no handles; -dim outside 1..4 exits before creating any; example: PropsPrograms.C96_order_matters, C96_test05_shared; hypotheses met in: the theorems are about concrete programs |
| C97 | `C97_same_outcome` (PropsNoCleanup), `C97_nothing_released` (PropsNoCleanup), `C97_programs` (PropsNoCleanup), `C97_benchmark` (PropsNoCleanup) | proved | the user's own destroy calls are assumed to be under the macro as in test/; loadCUDALibs has no other effect on handles (C73) and is not in this model; examples: PropsNoCleanup.C97_test02_counts, C97_hides_errors; hypotheses met in: OwnershipExample.setup_reaches; the programs of C97_programs |
| C98 | `C98_unit` (PropsRandomFill), `C98_random_fill` (PropsRandomFill), `C98_seed_covers_state` (PropsRandomFill) | proved | no API of the library launches this task: the launch is the one its body asserts (one requirement with one field); std::uniform_real_distribution, std::generate_canonical and std::nextafter as in libstdc++, the engine's words are arbitrary (the Mersenne twister itself is not modelled); examples: PropsRandomFill.C98_unit_example, C98_example, C98_seed_example; hypotheses met in: PropsRandomFill.C98_unit_example, PropsRandomFill.C98_example, PropsRandomFill.C98_seed_example |
| C99 | `C99_every_run` (PropsDefinite), `C99_definite_solves` (PropsDefinite), `C99_indefinite_fails` (PropsDefinite), `C99_works_iff_definite` (PropsDefinite) | proved | exact arithmetic (division by zero is undefined, in IEEE arithmetic it gives an infinity or NaN); example: PropsDefinite.C99_example; hypotheses met in: PropsDefinite.C99_example |

