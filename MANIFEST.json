{
 "claims": [
  {
   "property": "C01",
   "status": "proved",
   "theorems": [
    "C01_deferred_equals_direct",
    "C01_ready_value_final",
    "C01_ieee_operations",
    "C01_ieee_rsqrt",
    "C01_ieee_closed"
   ],
   "note": "any arithmetic, straight-line programs over scalar variables, every asynchronous execution; hypotheses met in: PropsFloatScalar.C01_ieee_example, PropsScalar.C01_example"
  },
  {
   "property": "C02",
   "status": "proved",
   "theorems": [
    "C02_value_semantics",
    "C02_copy_keeps_old_value"
   ],
   "note": "hypotheses met in: PropsScalar.C02_example"
  },
  {
   "property": "C03",
   "status": "proved",
   "theorems": [
    "C03_step_factors"
   ],
   "note": "hypotheses met in: PropsVector.C03_C04_example"
  },
  {
   "property": "C04",
   "status": "proved",
   "theorems": [
    "C04_elementwise_exact",
    "C04_partition_and_schedule_independent"
   ],
   "note": "CPU task bodies; hypotheses met in: PropsVector.C03_C04_example"
  },
  {
   "property": "C05",
   "status": "proved",
   "theorems": [
    "C05_dot_is_sum",
    "C05_dot_symmetric",
    "C05_dot_linear",
    "C05_dot_positive"
   ],
   "note": "exact arithmetic over the reals, every legal reduction tree; hypotheses met in: PropsVector.C05_example, PropsVector.C05_example_accepted"
  },
  {
   "property": "C06",
   "status": "proved",
   "theorems": [
    "C06_schedule_independent",
    "C06_two_pieces_reproducible",
    "C06_reduction_order_visible"
   ],
   "note": "the third theorem is a witness that the reduction order is visible with three pieces; hypotheses met in: PropsVector.C05_example"
  },
  {
   "property": "C07",
   "status": "proved",
   "theorems": [
    "C07_vector_needs_complete_disjoint_partition",
    "C07_incompatible_operands_rejected",
    "C07_compatible_operands_accepted"
   ],
   "note": "hypotheses met in: PropsVector.C07_example"
  },
  {
   "property": "C08",
   "status": "proved",
   "theorems": [
    "C08_never_illegal",
    "C08_refcount_exact",
    "C08_members_alive",
    "C08_released"
   ],
   "note": "Legion's ownership counting is trusted; example: OwnershipExample.setup_reaches; hypotheses met in: OwnershipExample.setup_reaches, release_reaches, all_released_instance"
  },
  {
   "property": "C09",
   "status": "proved",
   "theorems": [
    "C09_coo_matvec",
    "C09_C10_matvec_exact",
    "C09_C10_partition_and_schedule_independent"
   ],
   "note": "CPU task; entries whose column lies outside the source's index space are skipped by the code and by the statement; hypotheses met in: PropsMatrix.C09_C10_example"
  },
  {
   "property": "C10",
   "status": "proved",
   "theorems": [
    "C10_csr_matvec",
    "C09_C10_matvec_exact",
    "C09_C10_partition_and_schedule_independent"
   ],
   "note": "row intervals disjoint; an entry in no interval is not in any row; hypotheses met in: PropsMatrix.C09_C10_example"
  },
  {
   "property": "C100",
   "status": "proved",
   "theorems": [
    "C100_cg_breakdown",
    "C100_bicgstab_breakdown",
    "C100_bicgstab_zero_rhs",
    "C100_gmres_breakdown",
    "C100_lost_entries_stay_lost"
   ],
   "note": "IEEE arithmetic with round to nearest even (Float.v, on SpecFloat); a zero right-hand side for CG is C39; the norm of the GMRES residual itself is not recorded by the code, so nothing is stated about it; example: PropsBreakdown.C100_example; hypotheses met in: PropsBreakdown.C100_example"
  },
  {
   "property": "C101",
   "status": "proved",
   "theorems": [
    "C101_cg",
    "C101_bicgstab",
    "C101_gmres",
    "C101_gmres_ignores_scale"
   ],
   "note": "exact arithmetic; two-sided: this GMRES does not scale with the right-hand side; hypotheses met in: SystemExample.C101_example"
  },
  {
   "property": "C11",
   "status": "proved",
   "theorems": [
    "C11_last_matching_row_of_each_piece",
    "C11_uncovered_entries_ignored",
    "C11_uncovered_entry_in_supplied_partition_aborts",
    "C11_overlap_makes_result_partition_dependent"
   ],
   "note": "hypotheses met in: SolverExample2.C11_example"
  },
  {
   "property": "C12",
   "status": "proved",
   "theorems": [
    "C12_kernel_partition"
   ],
   "note": "hypotheses met in: PropsMatrix.C12_C13_example"
  },
  {
   "property": "C13",
   "status": "proved",
   "theorems": [
    "C13_ghost_partition"
   ],
   "note": "hypotheses met in: PropsMatrix.C12_C13_example"
  },
  {
   "property": "C14",
   "status": "proved",
   "theorems": [
    "C14_row_partition_from_columns",
    "C14_monotone",
    "C14_column_partitioned_product"
   ],
   "note": "hypotheses met in: PropsMatrix.C14_example"
  },
  {
   "property": "C15",
   "status": "proved",
   "theorems": [
    "C15_leaves_one_partition",
    "C15_lost_forever"
   ],
   "note": "two-sided: the helpers leak exactly one partition; hypotheses met in: OwnershipExample.domain_from_range_instance"
  },
  {
   "property": "C16",
   "status": "proved",
   "theorems": [
    "C16_planner_matvec",
    "C16_planner_matvec_exact"
   ],
   "note": "any arithmetic: block_product lists the additions in order; exact: the real operator of all added matrices; hypotheses met in: PropsPlanner.C16_C18_example"
  },
  {
   "property": "C17",
   "status": "proved",
   "theorems": [
    "C17_componentwise",
    "C17_dot",
    "C17_dot_exact"
   ],
   "note": "dot needs at least one component (component 0 is accessed unconditionally); hypotheses met in: PropsPlanner.C16_C18_example"
  },
  {
   "property": "C18",
   "status": "proved",
   "theorems": [
    "C18_legal_calls_accepted",
    "C18_illegal_call_rejected",
    "C18_after_workspace",
    "C18_allocate_workspace"
   ],
   "note": "a CSR matrix whose row space is not the component's space is refused by Legion, outside the model; hypotheses met in: PropsPlanner.C16_C18_example"
  },
  {
   "property": "C19",
   "status": "proved",
   "theorems": [
    "C19_counts_restored",
    "C19_destroy_exact",
    "C19_all_released",
    "C19_matrix_must_outlive_planner",
    "C19_laplacian_balanced"
   ],
   "note": "hypotheses met in: OwnershipExample.all_released_instance, matrix_first_instance, laplacian_instance"
  },
  {
   "property": "C20",
   "status": "proved",
   "theorems": [
    "C20_stencil_size_exact"
   ],
   "note": "all boxes (also empty sides) and offset lists of matching dimension; unbounded integers; hypotheses met in: PropsStencil.C20_example"
  },
  {
   "property": "C21",
   "status": "proved",
   "theorems": [
    "C21_traversal_visits_each_point_once"
   ],
   "note": "hypotheses met in: PropsStencil.C21_example"
  },
  {
   "property": "C22",
   "status": "proved",
   "theorems": [
    "C22_linearisation_order_preserving_bijection"
   ],
   "note": "hypotheses met in: PropsStencil.C22_example"
  },
  {
   "property": "C23",
   "status": "proved",
   "theorems": [
    "C23_offset_comparison_strict_total_order",
    "C23_sort_comparator_strict_weak_order"
   ],
   "note": "hypotheses met in: PropsStencil.C23_example"
  },
  {
   "property": "C24",
   "status": "proved",
   "theorems": [
    "C24_coo_stencil_contents",
    "C24_coo_fill_completes"
   ],
   "note": "plain and linearised COO fill tasks, any partition and interleaving; hypotheses met in: PropsStencil.C24_example"
  },
  {
   "property": "C25",
   "status": "proved",
   "theorems": [
    "C25_coo_contents_piece_independent",
    "C25_coo_task_writes_own_piece_only",
    "C25_csr_contents_piece_independent",
    "C25_csr_task_writes_own_piece_only",
    "C25_C28_linearized_csr_independent"
   ],
   "note": "hypotheses met in: PropsStencil.C24_example, C26_example"
  },
  {
   "property": "C26",
   "status": "proved",
   "theorems": [
    "C26_csr_stencil_contents",
    "C26_linearized_csr_stencil_contents"
   ],
   "note": "hypotheses met in: PropsStencil.C26_example"
  },
  {
   "property": "C27",
   "status": "proved",
   "theorems": [
    "C27_slice_skipping_only_an_optimisation"
   ],
   "note": "needs that an empty piece reports a lower bound not beyond the end of the space (Realm's empty rectangle); hypotheses met in: PropsStencil.C27_example"
  },
  {
   "property": "C28",
   "status": "proved",
   "theorems": [
    "C28_contents_independent_of_offset_order",
    "C28_csr_contents_independent_of_offset_order",
    "C25_C28_linearized_csr_independent"
   ],
   "note": "hypotheses met in: PropsStencil.C28_example"
  },
  {
   "property": "C29",
   "status": "proved",
   "theorems": [
    "C29_stencil_matvec_is_convolution",
    "C29_stencil_matvec_real",
    "C29_symmetric_stencil_symmetric_operator"
   ],
   "note": "all storage formats; example: PropsConvolution.C29_example; hypotheses met in: PropsConvolution.C29_example"
  },
  {
   "property": "C30",
   "status": "proved",
   "theorems": [
    "C30_task_ids_injective",
    "C30_task_ids_in_their_block"
   ],
   "note": "for every configuration whose blocks fit in 32 bits; hypotheses met in: PropsTaskIds.C30_example"
  },
  {
   "property": "C31",
   "status": "proved",
   "theorems": [
    "C31_runtime_id_is_compile_time_id"
   ],
   "note": "Legion's type tag layout (256*dim + type position) is a run-time contract; hypotheses met in: PropsTaskIds.C30_example"
  },
  {
   "property": "C32",
   "status": "proved",
   "theorems": [
    "C32_which_launches_are_registered",
    "C32_unregistered_products"
   ],
   "note": "two-sided: products on 2-D/3-D or 32-bit spaces are NOT registered; hypotheses met in: PropsTaskIds.C30_example"
  },
  {
   "property": "C33",
   "status": "proved",
   "theorems": [
    "C33_blocking_shards"
   ],
   "note": "hypotheses met in: PropsSharding.C33_example"
  },
  {
   "property": "C34",
   "status": "proved",
   "theorems": [
    "C34_which_shards_are_used",
    "C34_shard_left_idle"
   ],
   "note": "two-sided: some shards can stay idle; hypotheses met in: PropsSharding.C34_shard_left_idle (a concrete case), C33_example"
  },
  {
   "property": "C35",
   "status": "proved",
   "theorems": [
    "C35_flatten_unflatten"
   ],
   "note": "here over the integers; with machine integers: C81; hypotheses met in: PropsPitches.C35_example"
  },
  {
   "property": "C36",
   "status": "proved",
   "theorems": [
    "C36_true_residual",
    "C36_cg_is_textbook_cg"
   ],
   "note": "exact arithmetic; hypotheses met in: SolverExample.C36_C38_example"
  },
  {
   "property": "C37",
   "status": "proved",
   "theorems": [
    "C37_initial_guess"
   ],
   "note": "hypotheses met in: SolverExample2.C37_example"
  },
  {
   "property": "C38",
   "status": "proved",
   "theorems": [
    "C38_cg_converges",
    "C38_cg_solves"
   ],
   "note": "exact arithmetic; also Krylov optimality and uniqueness of the solution; hypotheses met in: SolverExample.C36_C38_example"
  },
  {
   "property": "C39",
   "status": "proved",
   "theorems": [
    "C39_zero_rhs_gives_nan",
    "C39_step_after_convergence"
   ],
   "note": "every IEEE format for a zero right-hand side, exact arithmetic for convergence after k steps; hypotheses met in: SolverExample2.C39_example, SolverExample2.C39_zero_example"
  },
  {
   "property": "C40",
   "status": "proved",
   "theorems": [
    "C40_bicgstab_is_textbook",
    "C40_residual",
    "C40_true_residual"
   ],
   "note": "exact arithmetic; example: SolverExample.C40_C56_example; hypotheses met in: SolverExample.C40_C56_example"
  },
  {
   "property": "C41",
   "status": "proved",
   "theorems": [
    "C41_gmres_cycle"
   ],
   "note": "exact arithmetic; hypotheses met in: SolverExample2.C41_C58_example"
  },
  {
   "property": "C42",
   "status": "proved",
   "theorems": [
    "C42_gmres_fixed_length",
    "C42_residual_can_grow"
   ],
   "note": "exact arithmetic; restated: the code does not minimise; hypotheses met in: GMRESExample.diag_problem, SolverExample2.C41_C58_example"
  },
  {
   "property": "C43",
   "status": "proved",
   "theorems": [
    "C43_coo_laplacian",
    "C43_csr_laplacian"
   ],
   "note": "hypotheses met in: PropsExample.C43_example"
  },
  {
   "property": "C44",
   "status": "proved",
   "theorems": [
    "C44_cg_solves_laplacian"
   ],
   "note": "hypotheses met in: PropsLaplacian.C44_example"
  },
  {
   "property": "C45",
   "status": "proved",
   "theorems": [
    "C45_coo_gpu_equals_cpu",
    "C45_coo_gpu_needs_contiguous_entries",
    "C45_row_sorted_storage_is_contiguous",
    "C45_csr_gpu_overwrites",
    "C45_csr_agrees_iff_zero",
    "C45_csr_second_product_discards_first"
   ],
   "note": "two-sided; cuSPARSE by its documented contract; exact arithmetic (the GPU adds in another order); hypotheses met in: PropsGpu.csr_example, csr_example_run, coo_example, coo_gap_example"
  },
  {
   "property": "C46",
   "status": "proved",
   "theorems": [
    "C46_indptr",
    "C45_coo_gpu_equals_cpu",
    "C45_csr_gpu_overwrites"
   ],
   "note": "index pointers by C46_indptr; the shifted vector pointers by the effect theorems of C45; hypotheses met in: PropsGpu.csr_example_run"
  },
  {
   "property": "C47",
   "status": "proved",
   "theorems": [
    "C47_launch_covers_every_index",
    "C47_xpay_kernel_touches_each_point_once"
   ],
   "note": "hypotheses met in: PropsPitches.C35_example"
  },
  {
   "property": "C48",
   "status": "proved",
   "theorems": [
    "C48_slabs_fill",
    "C48_own_instance_fills",
    "C48_1d_fills",
    "C48_scal",
    "C48_scal_other_layouts",
    "C48_count_overflow",
    "C48_axpy",
    "C48_dot",
    "C48_degenerate_pieces",
    "C48_sub_box_of_larger_instance",
    "C48_mixed_orders"
   ],
   "note": "two-sided; cuBLAS by its documented contract; hypotheses met in: PropsGpuDense.own_2x2"
  },
  {
   "property": "C49",
   "status": "proved",
   "theorems": [
    "C49_coo_leaks_five",
    "C49_csr_leaks_nine",
    "C49_lost_forever"
   ],
   "note": "two-sided: the builders leak exactly 5 / 9 objects; hypotheses met in: OwnershipExample.setup_reaches"
  },
  {
   "property": "C50",
   "status": "proved",
   "theorems": [
    "C50_round_trip",
    "C50_malformed_buffers"
   ],
   "note": "hypotheses met in: PropsArgBuffer.C50_example"
  },
  {
   "property": "C51",
   "status": "proved",
   "theorems": [
    "C51_flags_are_sets",
    "C51_test_is_intersection",
    "C51_library_tasks"
   ],
   "note": "hypotheses met in: PropsTaskFlags.C51_example"
  },
  {
   "property": "C52",
   "status": "proved",
   "theorems": [
    "C52_laplacian_2d_kernel_size"
   ],
   "note": "hypotheses met in: PropsLap2D.C52_example"
  },
  {
   "property": "C53",
   "status": "proved",
   "theorems": [
    "C53_program_order"
   ],
   "note": "hypotheses met in: SolverExample2.C53_C54_example"
  },
  {
   "property": "C54",
   "status": "proved",
   "theorems": [
    "C54_cg_runs",
    "C54_bicgstab_runs",
    "C54_gmres_runs"
   ],
   "note": "hypotheses met in: SolverExample2.C53_C54_example"
  },
  {
   "property": "C55",
   "status": "proved",
   "theorems": [
    "C55_print_partition_instance"
   ],
   "note": "two-sided; hypotheses met in: PropsTaskIds.C55_example"
  },
  {
   "property": "C56",
   "status": "proved",
   "theorems": [
    "C56_bicgstab_breaks_down",
    "C56_answer_in_the_half_step"
   ],
   "note": "exact arithmetic; hypotheses met in: SolverExample.C40_C56_example"
  },
  {
   "property": "C57",
   "status": "proved",
   "theorems": [
    "C57_bicgstab_past_convergence"
   ],
   "note": "exact arithmetic; hypotheses met in: SolverExample2.C57_example"
  },
  {
   "property": "C58",
   "status": "proved",
   "theorems": [
    "C58_restart_too_large"
   ],
   "note": "exact arithmetic; hypotheses met in: SolverExample2.C41_C58_example"
  },
  {
   "property": "C59",
   "status": "proved",
   "theorems": [
    "C59_gmres_past_convergence"
   ],
   "note": "exact arithmetic; hypotheses met in: SolverExample2.C59_example"
  },
  {
   "property": "C60",
   "status": "proved",
   "theorems": [
    "C60_copy_acquires_too_little",
    "C60_double_release"
   ],
   "note": "hypotheses met in: OwnershipExample.copied_planner_instance"
  },
  {
   "property": "C61",
   "status": "proved",
   "theorems": [
    "C61_cg_solves_stencil"
   ],
   "note": "exact arithmetic; example: PropsStencilCG.C62_example; hypotheses met in: PropsStencilCG.C62_example"
  },
  {
   "property": "C62",
   "status": "proved",
   "theorems": [
    "C62_dominant_stencil_positive",
    "C62_benchmark_cg"
   ],
   "note": "exact arithmetic, entries 88/26 etc. as exact quotients; hypotheses met in: PropsStencilCG.C62_example"
  },
  {
   "property": "C63",
   "status": "proved",
   "theorems": [
    "C63_cg_steps_replay",
    "C63_bicgstab_steps_replay",
    "C63_gmres_steps_replay"
   ],
   "note": "example: PropsTrace.C63_example; hypotheses met in: PropsTrace.C63_example"
  },
  {
   "property": "C64",
   "status": "proved",
   "theorems": [
    "C64_machine_coo_stencil",
    "C64_machine_csr_stencil",
    "C64_machine_linearized_csr_stencil",
    "C64_linearize_exactly_when_volume_fits",
    "C64_fill_tasks_need_sums_to_fit",
    "C64_size_needs_room_above"
   ],
   "note": "signed overflow is UB, size_t wraps; examples: PropsMachine.C64_int_example, C64_int_overflow_example, C64_sum_overflow_example; hypotheses met in: PropsMachine.C64_int_example, PropsMachine.C64_int_overflow_example, PropsMachine.C64_sum_overflow_example"
  },
  {
   "property": "C65",
   "status": "proved",
   "theorems": [
    "C65_dot_rounding_error",
    "C65_dot_no_overflow",
    "C65_dot_runs_differ_little",
    "C65_gamma_classical"
   ],
   "note": "Flocq relates Coq's SpecFloat to real numbers; the compiler is assumed not to contract x*y+z; example: PropsFloat.C65_example; hypotheses met in: PropsFloat.C65_example"
  },
  {
   "property": "C66",
   "status": "proved",
   "theorems": [
    "C66_matvec_rounding_error",
    "C66_product_rounding_error"
   ],
   "note": "example: PropsFloat.C66_example; hypotheses met in: PropsFloat.C66_example"
  },
  {
   "property": "C67",
   "status": "proved",
   "theorems": [
    "C67_update_rounds_once"
   ],
   "note": "example: PropsFloat.C67_example; hypotheses met in: PropsFloat.C67_example"
  },
  {
   "property": "C68",
   "status": "proved",
   "theorems": [
    "C68_float_cg_run"
   ],
   "note": "as long as no infinity or NaN appears in x and p; example: PropsFloatCG.C68_example (double); hypotheses met in: PropsFloatCG.C68_example"
  },
  {
   "property": "C69",
   "status": "proved",
   "theorems": [
    "C69_residual_gap"
   ],
   "note": "same hypotheses as C68; example: PropsFloatCG.C68_example; hypotheses met in: PropsFloatCG.C68_example"
  },
  {
   "property": "C70",
   "status": "proved",
   "theorems": [
    "C70_cg_benchmark",
    "C70_bicgstab_benchmark",
    "C70_gmres_benchmark",
    "C70_per_trace_zero",
    "C70_copies_overrun",
    "C70_benchmark_overrun"
   ],
   "note": "the overrun claims are for exact arithmetic; examples: PropsBenchmark.C70_default_example, C70_wrap_example, PropsStencilCG.C62_example; hypotheses met in: PropsBenchmark.C70_default_example, PropsBenchmark.C70_wrap_example"
  },
  {
   "property": "C71",
   "status": "proved",
   "theorems": [
    "C71_print",
    "C71_print_triples",
    "C71_stencil_print",
    "C71_formats_print_alike"
   ],
   "note": "examples: PropsPrint.C71_stencil_example, C71_abort_example; hypotheses met in: PropsPrint.C71_stencil_example, PropsPrint.C71_abort_example"
  },
  {
   "property": "C72",
   "status": "proved",
   "theorems": [
    "C72_cg",
    "C72_bicgstab",
    "C72_gmres",
    "C72_planner_calls"
   ],
   "note": "accesses to the immutable matrix regions are not locations of the model; for arbitrary planner programs (C72_planner_calls) only the privilege and interference parts; example: PropsInit.C72_C74_example; hypotheses met in: PropsInit.C72_C74_example"
  },
  {
   "property": "C73",
   "status": "proved",
   "theorems": [
    "C73_handles",
    "C73_own_handles",
    "C73_shared_slot",
    "C73_only_gpus"
   ],
   "note": "sequential histories; LEGION_MAX_NUM_PROCS a power of two; example: PropsCudaHandles.C73_example; hypotheses met in: PropsCudaHandles.C73_example"
  },
  {
   "property": "C74",
   "status": "proved",
   "theorems": [
    "C74_cg",
    "C74_bicgstab",
    "C74_gmres"
   ],
   "note": "example: PropsInit.C72_C74_example; hypotheses met in: PropsInit.C72_C74_example"
  },
  {
   "property": "C75",
   "status": "proved",
   "theorems": [
    "C75_mapped_product",
    "C75_mapped_product_exact",
    "C75_gpu_csr_discards_earlier_matrices",
    "C75_cg_run",
    "C75_bicgstab_run",
    "C75_gmres_run",
    "C75_same_solver_text",
    "C75_sorted_storage_is_gpu_usable",
    "C75_coo_task_usable",
    "C75_coo_task_is_the_cusparse_call",
    "C75_csr_task_usable",
    "C75_csr_task_is_the_cusparse_call",
    "C75_cg_solves_laplacian_on_gpus"
   ],
   "note": "solver equality in exact arithmetic; CSR row pointers that are not consecutive intervals are UB in this model (C46 describes what the call then does); examples: PropsGpuLaplacian.C75_example, C75_twice_example, C75_laplacian_example; hypotheses met in: PropsGpuLaplacian.C75_example, PropsGpuLaplacian.C75_twice_example, PropsGpuLaplacian.C75_laplacian_example"
  },
  {
   "property": "C76",
   "status": "proved",
   "theorems": [
    "C76_float_bicgstab_run",
    "C76_residual_gap"
   ],
   "note": "as long as no infinity or NaN appears in x and r; example: PropsFloatBiCG.C76_example (double); hypotheses met in: PropsFloatBiCG.C76_example"
  },
  {
   "property": "C77",
   "status": "proved",
   "theorems": [
    "C77_cg_tests_print",
    "C77_cg_tests_solution",
    "C77_laplacian_partitions",
    "C77_block_partitions",
    "C77_scalar_test",
    "C77_vector_test",
    "C77_vector_test_exact"
   ],
   "note": "the CG tests in exact arithmetic (in double the recorded norms are only close to these: C69); formatting of numbers is not modelled; examples: PropsTests.C77_example, PropsTests.C77_expected_output; hypotheses met in: PropsTests.C77_example"
  },
  {
   "property": "C78",
   "status": "proved",
   "theorems": [
    "C78_chained_prints",
    "C78_prints_of_specified",
    "C78_program_prints",
    "C78_unchained_any_order"
   ],
   "note": "number formatting is not modelled; one print is one atomic line; example: PropsPrintScalar.C78_example; hypotheses met in: PropsPrintScalar.C78_example"
  },
  {
   "property": "C79",
   "status": "proved",
   "theorems": [
    "C79_partition_shown",
    "C79_needs_same_type"
   ],
   "note": "lines are atomic; the second theorem reads off the modelled dispatch on the colour space's type; example: PropsPrintScalar.C79_example; hypotheses met in: PropsPrintScalar.C79_example"
  },
  {
   "property": "C80",
   "status": "proved",
   "theorems": [
    "C80_programs_mean_what_they_say",
    "C80_schedule_independent",
    "C80_exact_partition_independent",
    "C80_reproducible_without_dots",
    "C80_whole_programs",
    "C80_prints"
   ],
   "note": "straight-line programs; the matrices are given values; the order in which scalar arguments of one call are evaluated is fixed; example: PropsVectorProg.C80_example; hypotheses met in: PropsVectorProg.C80_example"
  },
  {
   "property": "C81",
   "status": "proved",
   "theorems": [
    "C81_machine_flatten",
    "C81_signed_overflow",
    "C81_kernel_visits_each_point_once",
    "C81_kernel_too_large",
    "C81_unsigned_full_side"
   ],
   "note": "the failing launch is the device's documented limit of 2^31-1 blocks, taken as given; a debug build's stream check, if it runs, may report it; example: PropsPitchesMachine.C81_example; hypotheses met in: PropsPitchesMachine.C81_example"
  },
  {
   "property": "C82",
   "status": "proved",
   "theorems": [
    "C82_cg_tests_print_in_double",
    "C82_six_digits",
    "C82_example"
   ],
   "note": "binary64 (round to nearest even, std::fma where the code calls it, no other contraction, no extended precision) for every operation of the run; what operator<< prints is specified by shows_six (nearest six-digit decimal), of which C82_six_digits shows that the integer is the unique one; hypotheses met in: PropsFloatTests.C82_example"
  },
  {
   "property": "C83",
   "status": "proved",
   "theorems": [
    "C83_float_gmres_run",
    "C83_arnoldi_relation",
    "C83_solution_is_sum",
    "C83_normalised_scale",
    "C83_unit_length"
   ],
   "note": "as long as no infinity or NaN appears in the solution; a cycle with zero basis vectors adds nothing and is excluded (0 < m); examples: PropsFloatGMRES.C83_example, C83_unit_length_example (double); hypotheses met in: PropsFloatGMRES.C83_example, PropsFloatGMRES.C83_unit_length_example"
  },
  {
   "property": "C84",
   "status": "proved",
   "theorems": [
    "C84_streams_add_no_behaviour",
    "C84_programs",
    "C84_deterministic",
    "C84_complete_means_done",
    "C84_dot_result_ready",
    "C84_terminates",
    "C84_cg_solves_laplacian_on_streams",
    "C84_shared_slot"
   ],
   "note": "CUDA streams are FIFO, Realm runs one body at a time per processor and completes a task when its stream has passed the point of return; the order of the threads inside one kernel is not varied here (C46, C81); examples: PropsGpuStreams.C84_example, C84_dot_example; hypotheses met in: PropsGpuStreams.C84_example, PropsGpuStreams.C84_dot_example"
  },
  {
   "property": "C85",
   "status": "proved",
   "theorems": [
    "C85_cg_rate",
    "C85_stencil_rate",
    "C85_benchmark_rate"
   ],
   "note": "exact arithmetic; proved with Chebyshev polynomials of the operator, without eigenvalues; k steps up to the one that solves the system (one step further divides by zero: C70); example: PropsCGRate.C85_example with PropsStencilCG.C62_example; hypotheses met in: PropsCGRate.C85_example"
  },
  {
   "property": "C86",
   "status": "proved",
   "theorems": [
    "C86_petsc_same_matrix",
    "C86_petsc_too_large",
    "C86_petsc_unused_sizes",
    "C86_trilinos_same_matrix",
    "C86_trilinos_local_overflow",
    "C86_trilinos_missing_size"
   ],
   "note": "the insertion calls are modelled, not the PETSc and Trilinos libraries; entries are given by their constant expressions; example: PropsPeers.C86_example; hypotheses met in: PropsPeers.C86_example"
  },
  {
   "property": "C87",
   "status": "proved",
   "theorems": [
    "C87_double_cg_agrees",
    "C87_cg_is_textbook",
    "C87_converges_then_undefined",
    "C87_cg_matches_CGSolver"
   ],
   "note": "exact arithmetic; example: PropsKrylov.C87_example; hypotheses met in: PropsKrylov.C87_example"
  },
  {
   "property": "C88",
   "status": "proved",
   "theorems": [
    "C88_cg",
    "C88_bicgstab",
    "C88_gmres",
    "C88_rhs_kept"
   ],
   "note": "write permission is what the launches declare (region requirements, futures); matrix regions are not locations of the model's memory: that the solvers request them read-only is by construction of Matrix.v; example: PropsWrites.C88_example; hypotheses met in: PropsWrites.C88_example"
  },
  {
   "property": "C89",
   "status": "proved",
   "theorems": [
    "C89_invalid_dim",
    "C89_bad_partition",
    "C89_per_trace_zero",
    "C89_no_solver",
    "C89_options",
    "C89_benchmark_runs",
    "C89_which_solver",
    "C89_benchmark_cg",
    "C89_benchmark_1d",
    "C89_default_run"
   ],
   "note": "the matrix is any the creator can leave (stencil_matrix), the partition any disjoint and complete one; command-line text to number conversion is Realm's; output, timing and destruction are not part of the model; example: PropsBenchmarkProgram.C89_example; hypotheses met in: PropsBenchmarkProgram.C89_example"
  },
  {
   "property": "C90",
   "status": "proved",
   "theorems": [
    "C90_set_tests",
    "C90_vector_test_exact",
    "C90_scalar_test",
    "C90_verdict_is_return_code",
    "C90_script_ends",
    "C90_main",
    "C90_build_test",
    "C90_partition_tests_pass",
    "C90_cg_tests_pass",
    "C90_vector_test_passes"
   ],
   "note": "lines are written as a whole; a stream inserting pieces of a line inside another task's line is not modelled; jsrun and the directory changes are not modelled; text of a double: nearest six-digit decimal (C82); example: PropsTestAll.C90_example; hypotheses met in: PropsTestAll.C90_example"
  },
  {
   "property": "C91",
   "status": "proved",
   "theorems": [
    "C91_sizes",
    "C91_same_problem",
    "C91_same_matrix",
    "C91_bench_all_third_extent",
    "C91_iterations",
    "C91_resources",
    "C91_count_nodes"
   ],
   "note": "Realm's command line parser and PETSc's option database are modelled as described in BenchAll.v (external libraries); in bench_all.py the LegionSolvers calls are commented out; the matrix theorem is for sizes up to the largest PetscInt and fewer than 2^31 rows per Trilinos process (C86 shows what happens beyond); example: PropsBenchAll.C91_example with PropsPeers.C86_example; hypotheses met in: PropsBenchAll.C91_example"
  },
  {
   "property": "C92",
   "status": "proved",
   "theorems": [
    "C92_petsc_limit",
    "C92_petsc_ends",
    "C92_trilinos_runs",
    "C92_legion_runs",
    "C92_limit_must_be_a_size",
    "C92_bench_all",
    "C92_bench_all_ends",
    "C92_limit_table",
    "C92_bench_all_ls"
   ],
   "note": "a process is its error output and return code, any function of its number and command; console output of the scripts is not modelled; example: PropsBenchRuns.C92_example; hypotheses met in: PropsBenchRuns.C92_example"
  },
  {
   "property": "C93",
   "status": "proved",
   "theorems": [
    "C93_directories",
    "C93_refresh",
    "C93_build_directory_is_needed",
    "C93_make_all",
    "C93_refresh_then_make",
    "C93_options",
    "C93_build_legion",
    "C93_build_legion_order",
    "C93_build_dependencies",
    "C93_matching",
    "C93_change_directory"
   ],
   "note": "SCRATCH_DIR and LIB_PREFIX absolute, without symbolic links; mkdir, rmtree and chdir fail only because of what exists; well_behaved: a command writes below its working directory, git clone in the directory it creates, make install below the configured prefix; hypotheses on how SCRATCH_DIR, LIB_PREFIX and the working directory lie in each other are stated in each theorem; example: PropsBuildScripts.C93_example; hypotheses met in: PropsBuildScripts.C93_example"
  },
  {
   "property": "C94",
   "status": "proved",
   "theorems": [
    "C94_compiles",
    "C94_variants",
    "C94_once",
    "C94_one_dimension",
    "C94_names",
    "C94_ambiguous_names",
    "C94_messages",
    "C94_output",
    "C94_description"
   ],
   "note": "which tasks are registered is TaskIds.registered (C32), here shown to be the calls of initialize; Legion's own registry and the mapper callback are only recorded; example: PropsInitialize.C94_example; hypotheses met in: PropsInitialize.C94_example"
  },
  {
   "property": "C95",
   "status": "proved",
   "theorems": [
    "C95_each_task_on_one_shard",
    "C95_same_executions",
    "C95_no_deadlock",
    "C95_same_results",
    "C95_shard_count_is_invisible",
    "C95_functor_assigns",
    "C95_other_domains_stop",
    "C95_accepted_programs_finish",
    "C95_cg_solves",
    "C95_cg_tests_print"
   ],
   "note": "that all shards issue the same operations, dependence analysis across shards and coherence of the copies of regions are Legion's; the order in which future maps are reduced is a parameter of the program, the same for all shard counts; text a top-level task itself writes appears once per shard and is not part of the statement; examples: PropsReplication.C95_example, C95_example_shards; hypotheses met in: PropsReplication.C95_example, PropsReplication.C95_example_shards"
  },
  {
   "property": "C96",
   "status": "proved",
   "theorems": [
    "C96_scope_exit",
    "C96_test02",
    "C96_test03",
    "C96_test04",
    "C96_test05",
    "C96_test06",
    "C96_benchmark"
   ],
   "note": "handle numbers are those of a fresh runtime; solver steps, fills, fences and traces create no handles; -dim outside 1..4 exits before creating any; example: PropsPrograms.C96_order_matters, C96_test05_shared; hypotheses met in: the theorems are about concrete programs"
  },
  {
   "property": "C97",
   "status": "proved",
   "theorems": [
    "C97_same_outcome",
    "C97_nothing_released",
    "C97_programs",
    "C97_benchmark"
   ],
   "note": "the user's own destroy calls are assumed to be under the macro as in test/; loadCUDALibs has no other effect on handles (C73) and is not in this model; examples: PropsNoCleanup.C97_test02_counts, C97_hides_errors; hypotheses met in: OwnershipExample.setup_reaches; the programs of C97_programs"
  },
  {
   "property": "C98",
   "status": "proved",
   "theorems": [
    "C98_unit",
    "C98_random_fill",
    "C98_seed_covers_state"
   ],
   "note": "no API of the library launches this task: the launch is the one its body asserts (one requirement with one field); std::uniform_real_distribution, std::generate_canonical and std::nextafter as in libstdc++, the engine's words are arbitrary (the Mersenne twister itself is not modelled); examples: PropsRandomFill.C98_unit_example, C98_example, C98_seed_example; hypotheses met in: PropsRandomFill.C98_unit_example, PropsRandomFill.C98_example, PropsRandomFill.C98_seed_example"
  },
  {
   "property": "C99",
   "status": "proved",
   "theorems": [
    "C99_every_run",
    "C99_definite_solves",
    "C99_indefinite_fails",
    "C99_works_iff_definite"
   ],
   "note": "exact arithmetic (division by zero is undefined, in IEEE arithmetic it gives an infinity or NaN); example: PropsDefinite.C99_example; hypotheses met in: PropsDefinite.C99_example"
  }
 ]
}
