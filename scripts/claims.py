claim("C01", "proved", ["C01_deferred_equals_direct", "C01_ready_value_final", "C01_ieee_operations", "C01_ieee_rsqrt", "C01_ieee_closed"], "any arithmetic, straight-line programs over scalar variables, every asynchronous execution")
claim("C02", "proved", ["C02_value_semantics", "C02_copy_keeps_old_value"], "")
claim("C03", "proved", ["C03_step_factors"], "")
claim("C04", "proved", ["C04_elementwise_exact", "C04_partition_and_schedule_independent"], "CPU task bodies")
claim("C05", "proved", ["C05_dot_is_sum", "C05_dot_symmetric", "C05_dot_linear", "C05_dot_positive"], "exact arithmetic over the reals, every legal reduction tree")
claim("C06", "proved", ["C06_schedule_independent", "C06_two_pieces_reproducible", "C06_reduction_order_visible"], "the third theorem is a witness that the reduction order is visible with three pieces")
claim("C07", "proved", ["C07_vector_needs_complete_disjoint_partition", "C07_incompatible_operands_rejected", "C07_compatible_operands_accepted"], "")
claim("C20", "proved", ["C20_stencil_size_exact"], "all boxes (also empty sides) and offset lists of matching dimension; unbounded integers")
claim("C21", "proved", ["C21_traversal_visits_each_point_once"], "")
claim("C22", "proved", ["C22_linearisation_order_preserving_bijection"], "")
claim("C23", "proved", ["C23_offset_comparison_strict_total_order", "C23_sort_comparator_strict_weak_order"], "")
claim("C24", "proved", ["C24_coo_stencil_contents", "C24_coo_fill_completes"], "plain and linearised COO fill tasks, any partition and interleaving")
claim("C25", "proved", ["C25_coo_contents_piece_independent", "C25_coo_task_writes_own_piece_only", "C25_csr_contents_piece_independent", "C25_csr_task_writes_own_piece_only", "C25_C28_linearized_csr_independent"], "")
claim("C26", "proved", ["C26_csr_stencil_contents", "C26_linearized_csr_stencil_contents"], "")
claim("C27", "proved", ["C27_slice_skipping_only_an_optimisation"], "needs that an empty piece reports a lower bound not beyond the end of the space (Realm's empty rectangle)")
claim("C28", "proved", ["C28_contents_independent_of_offset_order", "C28_csr_contents_independent_of_offset_order", "C25_C28_linearized_csr_independent"], "")
claim("C09", "proved", ["C09_coo_matvec", "C09_C10_matvec_exact", "C09_C10_partition_and_schedule_independent"], "CPU task; entries whose column lies outside the source's index space are skipped by the code and by the statement")
claim("C10", "proved", ["C10_csr_matvec", "C09_C10_matvec_exact", "C09_C10_partition_and_schedule_independent"], "row intervals disjoint; an entry in no interval is not in any row")
claim("C11", "proved", ["C11_last_matching_row_of_each_piece", "C11_uncovered_entries_ignored", "C11_uncovered_entry_in_supplied_partition_aborts", "C11_overlap_makes_result_partition_dependent"], "")
claim("C12", "proved", ["C12_kernel_partition"], "")
claim("C13", "proved", ["C13_ghost_partition"], "")
claim("C14", "proved", ["C14_row_partition_from_columns", "C14_monotone", "C14_column_partitioned_product"], "")
claim("C16", "proved", ["C16_planner_matvec", "C16_planner_matvec_exact"], "any arithmetic: block_product lists the additions in order; exact: the real operator of all added matrices")
claim("C17", "proved", ["C17_componentwise", "C17_dot", "C17_dot_exact"], "dot needs at least one component (component 0 is accessed unconditionally)")
claim("C18", "proved", ["C18_legal_calls_accepted", "C18_illegal_call_rejected", "C18_after_workspace", "C18_allocate_workspace"], "a CSR matrix whose row space is not the component's space is refused by Legion, outside the model")
claim("C53", "proved", ["C53_program_order"], "")

claim("C36", "proved", ["C36_true_residual", "C36_cg_is_textbook_cg"], "exact arithmetic")
claim("C37", "proved", ["C37_initial_guess"], "")
claim("C38", "proved", ["C38_cg_converges", "C38_cg_solves"], "exact arithmetic; also Krylov optimality and uniqueness of the solution")
claim("C39", "proved", ["C39_zero_rhs_gives_nan", "C39_step_after_convergence"], "every IEEE format for a zero right-hand side, exact arithmetic for convergence after k steps")
claim("C43", "proved", ["C43_coo_laplacian", "C43_csr_laplacian"], "")
claim("C44", "proved", ["C44_cg_solves_laplacian"], "")
claim("C52", "proved", ["C52_laplacian_2d_kernel_size"], "")
claim("C54", "proved", ["C54_cg_runs", "C54_bicgstab_runs", "C54_gmres_runs"], "")

claim("C30", "proved", ["C30_task_ids_injective", "C30_task_ids_in_their_block"], "for every configuration whose blocks fit in 32 bits")
claim("C31", "proved", ["C31_runtime_id_is_compile_time_id"], "Legion's type tag layout (256*dim + type position) is a run-time contract")
claim("C32", "proved", ["C32_which_launches_are_registered", "C32_unregistered_products"], "two-sided: products on 2-D/3-D or 32-bit spaces are NOT registered")
claim("C33", "proved", ["C33_blocking_shards"], "")
claim("C34", "proved", ["C34_which_shards_are_used", "C34_shard_left_idle"], "two-sided: some shards can stay idle")
claim("C35", "proved", ["C35_flatten_unflatten"], "here over the integers; with machine integers: C81")
claim("C47", "proved", ["C47_launch_covers_every_index", "C47_xpay_kernel_touches_each_point_once"], "")
claim("C55", "proved", ["C55_print_partition_instance"], "two-sided")

claim("C45", "proved", ["C45_coo_gpu_equals_cpu", "C45_coo_gpu_needs_contiguous_entries", "C45_row_sorted_storage_is_contiguous", "C45_csr_gpu_overwrites", "C45_csr_agrees_iff_zero", "C45_csr_second_product_discards_first"], "two-sided; cuSPARSE by its documented contract; exact arithmetic (the GPU adds in another order)")
claim("C46", "proved", ["C46_indptr", "C45_coo_gpu_equals_cpu", "C45_csr_gpu_overwrites"], "index pointers by C46_indptr; the shifted vector pointers by the effect theorems of C45")
claim("C48", "proved", ["C48_slabs_fill", "C48_own_instance_fills", "C48_1d_fills", "C48_scal", "C48_scal_other_layouts", "C48_count_overflow", "C48_axpy", "C48_dot", "C48_degenerate_pieces", "C48_sub_box_of_larger_instance", "C48_mixed_orders"], "two-sided; cuBLAS by its documented contract")
claim("C50", "proved", ["C50_round_trip", "C50_malformed_buffers"], "")
claim("C51", "proved", ["C51_flags_are_sets", "C51_test_is_intersection", "C51_library_tasks"], "")

claim("C40", "proved", ["C40_bicgstab_is_textbook", "C40_residual", "C40_true_residual"], "exact arithmetic; example: SolverExample.C40_C56_example")
claim("C56", "proved", ["C56_bicgstab_breaks_down", "C56_answer_in_the_half_step"], "exact arithmetic")
claim("C57", "proved", ["C57_bicgstab_past_convergence"], "exact arithmetic")

claim("C41", "proved", ["C41_gmres_cycle"], "exact arithmetic")
claim("C42", "proved", ["C42_gmres_fixed_length", "C42_residual_can_grow"], "exact arithmetic; restated: the code does not minimise")
claim("C58", "proved", ["C58_restart_too_large"], "exact arithmetic")
claim("C59", "proved", ["C59_gmres_past_convergence"], "exact arithmetic")

claim("C08", "proved", ["C08_never_illegal", "C08_refcount_exact", "C08_members_alive", "C08_released"], "Legion's ownership counting is trusted; example: OwnershipExample.setup_reaches")
claim("C15", "proved", ["C15_leaves_one_partition", "C15_lost_forever"], "two-sided: the helpers leak exactly one partition")
claim("C19", "proved", ["C19_counts_restored", "C19_destroy_exact", "C19_all_released", "C19_matrix_must_outlive_planner", "C19_laplacian_balanced"], "")
claim("C49", "proved", ["C49_coo_leaks_five", "C49_csr_leaks_nine", "C49_lost_forever"], "two-sided: the builders leak exactly 5 / 9 objects")
claim("C60", "proved", ["C60_copy_acquires_too_little", "C60_double_release"], "")
claim("C29", "proved", ["C29_stencil_matvec_is_convolution", "C29_stencil_matvec_real", "C29_symmetric_stencil_symmetric_operator"], "all storage formats; example: PropsConvolution.C29_example")
claim("C61", "proved", ["C61_cg_solves_stencil"], "exact arithmetic; example: PropsStencilCG.C62_example")
claim("C62", "proved", ["C62_dominant_stencil_positive", "C62_benchmark_cg"], "exact arithmetic, entries 88/26 etc. as exact quotients")
claim("C63", "proved", ["C63_cg_steps_replay", "C63_bicgstab_steps_replay", "C63_gmres_steps_replay"], "example: PropsTrace.C63_example")
claim("C64", "proved", ["C64_machine_coo_stencil", "C64_machine_csr_stencil", "C64_machine_linearized_csr_stencil", "C64_linearize_exactly_when_volume_fits", "C64_fill_tasks_need_sums_to_fit", "C64_size_needs_room_above"], "signed overflow is UB, size_t wraps; examples: PropsMachine.C64_int_example, C64_int_overflow_example, C64_sum_overflow_example")
claim("C65", "proved", ["C65_dot_rounding_error", "C65_dot_no_overflow", "C65_dot_runs_differ_little", "C65_gamma_classical"], "Flocq relates Coq's SpecFloat to real numbers; the compiler is assumed not to contract x*y+z; example: PropsFloat.C65_example")
claim("C66", "proved", ["C66_matvec_rounding_error", "C66_product_rounding_error"], "example: PropsFloat.C66_example")
claim("C67", "proved", ["C67_update_rounds_once"], "example: PropsFloat.C67_example")
claim("C68", "proved", ["C68_float_cg_run"], "as long as no infinity or NaN appears in x and p; example: PropsFloatCG.C68_example (double)")
claim("C69", "proved", ["C69_residual_gap"], "same hypotheses as C68; example: PropsFloatCG.C68_example")
claim("C71", "proved", ["C71_print", "C71_print_triples", "C71_stencil_print", "C71_formats_print_alike"], "examples: PropsPrint.C71_stencil_example, C71_abort_example")
claim("C70", "proved", ["C70_cg_benchmark", "C70_bicgstab_benchmark", "C70_gmres_benchmark", "C70_per_trace_zero", "C70_copies_overrun", "C70_benchmark_overrun"], "the overrun claims are for exact arithmetic; examples: PropsBenchmark.C70_default_example, C70_wrap_example, PropsStencilCG.C62_example")
claim("C73", "proved", ["C73_handles", "C73_own_handles", "C73_shared_slot", "C73_only_gpus"], "sequential histories; LEGION_MAX_NUM_PROCS a power of two; example: PropsCudaHandles.C73_example")
claim("C72", "proved", ["C72_cg", "C72_bicgstab", "C72_gmres", "C72_planner_calls"], "accesses to the immutable matrix regions are not locations of the model; for arbitrary planner programs (C72_planner_calls) only the privilege and interference parts; example: PropsInit.C72_C74_example")
claim("C74", "proved", ["C74_cg", "C74_bicgstab", "C74_gmres"], "example: PropsInit.C72_C74_example")
claim("C78", "proved", ["C78_chained_prints", "C78_prints_of_specified", "C78_program_prints", "C78_unchained_any_order"], "number formatting is not modelled; one print is one atomic line; example: PropsPrintScalar.C78_example")
claim("C79", "proved", ["C79_partition_shown", "C79_needs_same_type"], "lines are atomic; the second theorem reads off the modelled dispatch on the colour space's type; example: PropsPrintScalar.C79_example")
claim("C77", "proved", ["C77_cg_tests_print", "C77_cg_tests_solution", "C77_laplacian_partitions", "C77_block_partitions", "C77_scalar_test", "C77_vector_test", "C77_vector_test_exact"], "the CG tests in exact arithmetic (in double the recorded norms are only close to these: C69); formatting of numbers is not modelled; examples: PropsTests.C77_example, PropsTests.C77_expected_output")
claim("C80", "proved", ["C80_programs_mean_what_they_say", "C80_schedule_independent", "C80_exact_partition_independent", "C80_reproducible_without_dots", "C80_whole_programs", "C80_prints"], "straight-line programs; the matrices are given values; the order in which scalar arguments of one call are evaluated is fixed; example: PropsVectorProg.C80_example")
claim("C75", "proved", ["C75_mapped_product", "C75_mapped_product_exact", "C75_gpu_csr_discards_earlier_matrices", "C75_cg_run", "C75_bicgstab_run", "C75_gmres_run", "C75_same_solver_text", "C75_sorted_storage_is_gpu_usable", "C75_coo_task_usable", "C75_coo_task_is_the_cusparse_call", "C75_csr_task_usable", "C75_csr_task_is_the_cusparse_call", "C75_cg_solves_laplacian_on_gpus"], "solver equality in exact arithmetic; CSR row pointers that are not consecutive intervals are UB in this model (C46 describes what the call then does); examples: PropsGpuLaplacian.C75_example, C75_twice_example, C75_laplacian_example")
claim("C76", "proved", ["C76_float_bicgstab_run", "C76_residual_gap"], "as long as no infinity or NaN appears in x and r; example: PropsFloatBiCG.C76_example (double)")
claim("C81", "proved", ["C81_machine_flatten", "C81_signed_overflow", "C81_kernel_visits_each_point_once", "C81_kernel_too_large", "C81_unsigned_full_side"], "the failing launch is the device's documented limit of 2^31-1 blocks, taken as given; a debug build's stream check, if it runs, may report it; example: PropsPitchesMachine.C81_example")
claim("C82", "proved", ["C82_cg_tests_print_in_double", "C82_six_digits", "C82_example"], "binary64 (round to nearest even, std::fma where the code calls it, no other contraction, no extended precision) for every operation of the run; what operator<< prints is specified by shows_six (nearest six-digit decimal), of which C82_six_digits shows that the integer is the unique one")
claim("C83", "proved", ["C83_float_gmres_run", "C83_arnoldi_relation", "C83_solution_is_sum", "C83_normalised_scale", "C83_unit_length"], "as long as no infinity or NaN appears in the solution; a cycle with zero basis vectors adds nothing and is excluded (0 < m); examples: PropsFloatGMRES.C83_example, C83_unit_length_example (double)")
claim("C84", "proved", ["C84_streams_add_no_behaviour", "C84_programs", "C84_deterministic", "C84_complete_means_done", "C84_dot_result_ready", "C84_terminates", "C84_cg_solves_laplacian_on_streams", "C84_shared_slot"], "CUDA streams are FIFO, Realm runs one body at a time per processor and completes a task when its stream has passed the point of return; the order of the threads inside one kernel is not varied here (C46, C81); examples: PropsGpuStreams.C84_example, C84_dot_example")
claim("C85", "proved", ["C85_cg_rate", "C85_stencil_rate", "C85_benchmark_rate"], "exact arithmetic; proved with Chebyshev polynomials of the operator, without eigenvalues; k steps up to the one that solves the system (one step further divides by zero: C70); example: PropsCGRate.C85_example with PropsStencilCG.C62_example")
claim("C86", "proved", ["C86_petsc_same_matrix", "C86_petsc_too_large", "C86_petsc_unused_sizes", "C86_trilinos_same_matrix", "C86_trilinos_local_overflow", "C86_trilinos_missing_size"], "the insertion calls are modelled, not the PETSc and Trilinos libraries; entries are given by their constant expressions; example: PropsPeers.C86_example")
claim("C87", "proved", ["C87_double_cg_agrees", "C87_cg_is_textbook", "C87_converges_then_undefined", "C87_cg_matches_CGSolver"], "exact arithmetic; example: PropsKrylov.C87_example")
claim("C88", "proved", ["C88_cg", "C88_bicgstab", "C88_gmres", "C88_rhs_kept"], "write permission is what the launches declare (region requirements, futures); matrix regions are not locations of the model's memory: that the solvers request them read-only is by construction of Matrix.v; example: PropsWrites.C88_example")
claim("C89", "proved", ["C89_invalid_dim", "C89_bad_partition", "C89_per_trace_zero", "C89_no_solver", "C89_options", "C89_benchmark_runs", "C89_which_solver", "C89_benchmark_cg", "C89_benchmark_1d", "C89_default_run"], "the matrix is any the creator can leave (stencil_matrix), the partition any disjoint and complete one; command-line text to number conversion is Realm's; output, timing and destruction are not part of the model; example: PropsBenchmarkProgram.C89_example")
claim("C90", "proved", ["C90_set_tests", "C90_vector_test_exact", "C90_scalar_test", "C90_verdict_is_return_code", "C90_script_ends", "C90_main", "C90_build_test", "C90_partition_tests_pass", "C90_cg_tests_pass", "C90_vector_test_passes"], "lines are written as a whole; a stream inserting pieces of a line inside another task's line is not modelled; jsrun and the directory changes are not modelled; text of a double: nearest six-digit decimal (C82); example: PropsTestAll.C90_example")
claim("C91", "proved", ["C91_sizes", "C91_same_problem", "C91_same_matrix", "C91_bench_all_third_extent", "C91_iterations", "C91_resources", "C91_count_nodes"], "Realm's command line parser and PETSc's option database are modelled as described in BenchAll.v (external libraries); in bench_all.py the LegionSolvers calls are commented out; the matrix theorem is for sizes up to the largest PetscInt and fewer than 2^31 rows per Trilinos process (C86 shows what happens beyond); example: PropsBenchAll.C91_example with PropsPeers.C86_example")
claim("C92", "proved", ["C92_petsc_limit", "C92_petsc_ends", "C92_trilinos_runs", "C92_legion_runs", "C92_limit_must_be_a_size", "C92_bench_all", "C92_bench_all_ends", "C92_limit_table", "C92_bench_all_ls"], "a process is its error output and return code, any function of its number and command; console output of the scripts is not modelled; example: PropsBenchRuns.C92_example")
claim("C93", "proved", ["C93_directories", "C93_refresh", "C93_build_directory_is_needed", "C93_make_all", "C93_refresh_then_make", "C93_options", "C93_build_legion", "C93_build_legion_order", "C93_build_dependencies", "C93_matching", "C93_change_directory"], "SCRATCH_DIR and LIB_PREFIX absolute, without symbolic links; mkdir, rmtree and chdir fail only because of what exists; well_behaved: a command writes below its working directory, git clone in the directory it creates, make install below the configured prefix; hypotheses on how SCRATCH_DIR, LIB_PREFIX and the working directory lie in each other are stated in each theorem; example: PropsBuildScripts.C93_example")
claim("C94", "proved", ["C94_compiles", "C94_variants", "C94_once", "C94_one_dimension", "C94_names", "C94_ambiguous_names", "C94_messages", "C94_output", "C94_description"], "which tasks are registered is TaskIds.registered (C32), here shown to be the calls of initialize; Legion's own registry and the mapper callback are only recorded; example: PropsInitialize.C94_example")
claim("C95", "proved", ["C95_each_task_on_one_shard", "C95_same_executions", "C95_no_deadlock", "C95_same_results", "C95_shard_count_is_invisible", "C95_functor_assigns", "C95_other_domains_stop", "C95_accepted_programs_finish", "C95_cg_solves", "C95_cg_tests_print"], "that all shards issue the same operations, dependence analysis across shards and coherence of the copies of regions are Legion's; the order in which future maps are reduced is a parameter of the program, the same for all shard counts; text a top-level task itself writes appears once per shard and is not part of the statement; examples: PropsReplication.C95_example, C95_example_shards")
claim("C96", "proved", ["C96_scope_exit", "C96_test02", "C96_test03", "C96_test04", "C96_test05", "C96_test06", "C96_benchmark"], "handle numbers are those of a fresh runtime; solver steps, fills, fences and traces create no handles; -dim outside 1..4 exits before creating any; example: PropsPrograms.C96_order_matters, C96_test05_shared")
claim("C97", "proved", ["C97_same_outcome", "C97_nothing_released", "C97_programs", "C97_benchmark"], "the user's own destroy calls are assumed to be under the macro as in test/; loadCUDALibs has no other effect on handles (C73) and is not in this model; examples: PropsNoCleanup.C97_test02_counts, C97_hides_errors")
claim("C98", "proved", ["C98_unit", "C98_random_fill", "C98_seed_covers_state"], "no API of the library launches this task: the launch is the one its body asserts (one requirement with one field); std::uniform_real_distribution, std::generate_canonical and std::nextafter as in libstdc++, the engine's words are arbitrary (the Mersenne twister itself is not modelled); examples: PropsRandomFill.C98_unit_example, C98_example, C98_seed_example")
claim("C99", "proved", ["C99_every_run", "C99_definite_solves", "C99_indefinite_fails", "C99_works_iff_definite"], "exact arithmetic (division by zero is undefined, in IEEE arithmetic it gives an infinity or NaN); example: PropsDefinite.C99_example")
claim("C100", "proved", ["C100_cg_breakdown", "C100_bicgstab_breakdown", "C100_bicgstab_zero_rhs", "C100_gmres_breakdown", "C100_lost_entries_stay_lost"], "IEEE arithmetic with round to nearest even (Float.v, on SpecFloat); a zero right-hand side for CG is C39; the norm of the GMRES residual itself is not recorded by the code, so nothing is stated about it; example: PropsBreakdown.C100_example")
claim("C101", "proved", ["C101_cg", "C101_bicgstab", "C101_gmres", "C101_gmres_ignores_scale"], "exact arithmetic; two-sided: this GMRES does not scale with the right-hand side")
# non-vacuity witnesses: every Example whose name carries the property's number, plus these
EX = {"C06": "PropsVector.C05_example", "C08": "OwnershipExample.setup_reaches, release_reaches, all_released_instance", "C15": "OwnershipExample.domain_from_range_instance",
 "C17": "PropsPlanner.C16_C18_example", "C19": "OwnershipExample.all_released_instance, matrix_first_instance, laplacian_instance",
 "C25": "PropsStencil.C24_example, C26_example", "C31": "PropsTaskIds.C30_example", "C32": "PropsTaskIds.C30_example",
 "C34": "PropsSharding.C34_shard_left_idle (a concrete case), C33_example", "C42": "GMRESExample.diag_problem, SolverExample2.C41_C58_example",
 "C45": "PropsGpu.csr_example, csr_example_run, coo_example, coo_gap_example", "C46": "PropsGpu.csr_example_run", "C47": "PropsPitches.C35_example", "C48": "PropsGpuDense.own_2x2",
 "C49": "OwnershipExample.setup_reaches", "C60": "OwnershipExample.copied_planner_instance", "C61": "PropsStencilCG.C62_example", "C69": "PropsFloatCG.C68_example",
 "C96": "the theorems are about concrete programs", "C97": "OwnershipExample.setup_reaches; the programs of C97_programs"}
import glob as _g
def _examples():
    found = {}
    for f in sorted(_g.glob(os.path.join(os.path.dirname(os.path.abspath(__file__)), "..", "rocq", "theories", "*.v"))):
        for n in re.findall(r"^(?:Example|Theorem|Lemma)\s+(\w*example\w*)", open(f).read(), re.M):
            for i in re.findall(r"C\d+", n): found.setdefault(i, []).append(os.path.basename(f)[:-2] + "." + n)
    return found
for _i, _l in _examples().items():
    if _i in C: EX[_i] = ", ".join(([EX[_i]] if _i in EX else []) + _l)
for _i, _t in EX.items():
    C[_i]["note"] = (C[_i]["note"] + "; " if C[_i]["note"] else "") + "hypotheses met in: " + _t
