{
"C01_deferred_equals_direct": [],
"C01_ieee_closed": [
"ClassicalDedekindReals.sig_forall_dec",
"ClassicalDedekindReals.sig_not_dec",
"Classical_Prop.classic",
"FunctionalExtensionality.functional_extensionality_dep"
],
"C01_ieee_operations": [
"ClassicalDedekindReals.sig_forall_dec",
"ClassicalDedekindReals.sig_not_dec",
"Classical_Prop.classic",
"FunctionalExtensionality.functional_extensionality_dep"
],
"C01_ieee_rsqrt": [
"ClassicalDedekindReals.sig_forall_dec",
"ClassicalDedekindReals.sig_not_dec",
"Classical_Prop.classic",
"FunctionalExtensionality.functional_extensionality_dep"
],
"C01_ready_value_final": [],
"C02_copy_keeps_old_value": [],
"C02_value_semantics": [],
"C03_step_factors": [],
"C04_elementwise_exact": [],
"C04_partition_and_schedule_independent": [],
"C05_dot_is_sum": [
"ClassicalDedekindReals.sig_forall_dec",
"ClassicalDedekindReals.sig_not_dec",
"FunctionalExtensionality.functional_extensionality_dep"
],
"C05_dot_linear": [
"ClassicalDedekindReals.sig_forall_dec",
"ClassicalDedekindReals.sig_not_dec",
"FunctionalExtensionality.functional_extensionality_dep"
],
"C05_dot_positive": [
"ClassicalDedekindReals.sig_forall_dec",
"ClassicalDedekindReals.sig_not_dec",
"FunctionalExtensionality.functional_extensionality_dep"
],
"C05_dot_symmetric": [
"ClassicalDedekindReals.sig_forall_dec",
"ClassicalDedekindReals.sig_not_dec",
"FunctionalExtensionality.functional_extensionality_dep"
],
"C06_reduction_order_visible": [],
"C06_schedule_independent": [],
"C06_two_pieces_reproducible": [],
"C07_compatible_operands_accepted": [],
"C07_incompatible_operands_rejected": [],
"C07_vector_needs_complete_disjoint_partition": [],
"C08_members_alive": [],
"C08_never_illegal": [],
"C08_refcount_exact": [],
"C08_released": [],
"C09_C10_matvec_exact": [
"ClassicalDedekindReals.sig_forall_dec",
"ClassicalDedekindReals.sig_not_dec",
"FunctionalExtensionality.functional_extensionality_dep"
],
"C09_C10_partition_and_schedule_independent": [],
"C09_coo_matvec": [],
"C100_bicgstab_breakdown": [
"ClassicalDedekindReals.sig_forall_dec",
"ClassicalDedekindReals.sig_not_dec",
"Classical_Prop.classic",
"FunctionalExtensionality.functional_extensionality_dep"
],
"C100_bicgstab_zero_rhs": [
"ClassicalDedekindReals.sig_forall_dec",
"ClassicalDedekindReals.sig_not_dec",
"Classical_Prop.classic",
"FunctionalExtensionality.functional_extensionality_dep"
],
"C100_cg_breakdown": [],
"C100_gmres_breakdown": [],
"C100_lost_entries_stay_lost": [
"ClassicalDedekindReals.sig_forall_dec",
"ClassicalDedekindReals.sig_not_dec",
"Classical_Prop.classic",
"FunctionalExtensionality.functional_extensionality_dep"
],
"C101_bicgstab": [
"ClassicalDedekindReals.sig_forall_dec",
"ClassicalDedekindReals.sig_not_dec",
"FunctionalExtensionality.functional_extensionality_dep"
],
"C101_cg": [
"ClassicalDedekindReals.sig_forall_dec",
"ClassicalDedekindReals.sig_not_dec",
"FunctionalExtensionality.functional_extensionality_dep"
],
"C101_gmres": [
"ClassicalDedekindReals.sig_forall_dec",
"ClassicalDedekindReals.sig_not_dec",
"Classical_Prop.classic",
"FunctionalExtensionality.functional_extensionality_dep"
],
"C101_gmres_ignores_scale": [
"ClassicalDedekindReals.sig_forall_dec",
"ClassicalDedekindReals.sig_not_dec",
"Classical_Prop.classic",
"FunctionalExtensionality.functional_extensionality_dep"
],
"C10_csr_matvec": [],
"C11_last_matching_row_of_each_piece": [],
"C11_overlap_makes_result_partition_dependent": [
"ClassicalDedekindReals.sig_forall_dec",
"ClassicalDedekindReals.sig_not_dec",
"FunctionalExtensionality.functional_extensionality_dep"
],
"C11_uncovered_entries_ignored": [],
"C11_uncovered_entry_in_supplied_partition_aborts": [],
"C12_kernel_partition": [],
"C13_ghost_partition": [],
"C14_column_partitioned_product": [],
"C14_monotone": [],
"C14_row_partition_from_columns": [],
"C15_leaves_one_partition": [],
"C15_lost_forever": [],
"C16_planner_matvec": [],
"C16_planner_matvec_exact": [
"ClassicalDedekindReals.sig_forall_dec",
"ClassicalDedekindReals.sig_not_dec",
"FunctionalExtensionality.functional_extensionality_dep"
],
"C17_componentwise": [],
"C17_dot": [],
"C17_dot_exact": [
"ClassicalDedekindReals.sig_forall_dec",
"ClassicalDedekindReals.sig_not_dec",
"FunctionalExtensionality.functional_extensionality_dep"
],
"C18_after_workspace": [],
"C18_allocate_workspace": [],
"C18_illegal_call_rejected": [],
"C18_legal_calls_accepted": [],
"C19_all_released": [],
"C19_counts_restored": [],
"C19_destroy_exact": [],
"C19_laplacian_balanced": [],
"C19_matrix_must_outlive_planner": [],
"C20_stencil_size_exact": [],
"C21_traversal_visits_each_point_once": [],
"C22_linearisation_order_preserving_bijection": [],
"C23_offset_comparison_strict_total_order": [],
"C23_sort_comparator_strict_weak_order": [],
"C24_coo_fill_completes": [],
"C24_coo_stencil_contents": [],
"C25_C28_linearized_csr_independent": [],
"C25_coo_contents_piece_independent": [],
"C25_coo_task_writes_own_piece_only": [],
"C25_csr_contents_piece_independent": [],
"C25_csr_task_writes_own_piece_only": [],
"C26_csr_stencil_contents": [],
"C26_linearized_csr_stencil_contents": [],
"C27_slice_skipping_only_an_optimisation": [],
"C28_contents_independent_of_offset_order": [],
"C28_csr_contents_independent_of_offset_order": [],
"C29_stencil_matvec_is_convolution": [],
"C29_stencil_matvec_real": [
"ClassicalDedekindReals.sig_forall_dec",
"ClassicalDedekindReals.sig_not_dec",
"FunctionalExtensionality.functional_extensionality_dep"
],
"C29_symmetric_stencil_symmetric_operator": [
"ClassicalDedekindReals.sig_forall_dec",
"ClassicalDedekindReals.sig_not_dec",
"FunctionalExtensionality.functional_extensionality_dep"
],
"C30_task_ids_in_their_block": [],
"C30_task_ids_injective": [],
"C31_runtime_id_is_compile_time_id": [],
"C32_unregistered_products": [],
"C32_which_launches_are_registered": [],
"C33_blocking_shards": [],
"C34_shard_left_idle": [],
"C34_which_shards_are_used": [],
"C35_flatten_unflatten": [],
"C36_cg_is_textbook_cg": [
"ClassicalDedekindReals.sig_forall_dec",
"ClassicalDedekindReals.sig_not_dec",
"FunctionalExtensionality.functional_extensionality_dep"
],
"C36_true_residual": [
"ClassicalDedekindReals.sig_forall_dec",
"ClassicalDedekindReals.sig_not_dec",
"FunctionalExtensionality.functional_extensionality_dep"
],
"C37_initial_guess": [
"ClassicalDedekindReals.sig_forall_dec",
"ClassicalDedekindReals.sig_not_dec",
"FunctionalExtensionality.functional_extensionality_dep"
],
"C38_cg_converges": [
"ClassicalDedekindReals.sig_forall_dec",
"ClassicalDedekindReals.sig_not_dec",
"FunctionalExtensionality.functional_extensionality_dep"
],
"C38_cg_solves": [
"ClassicalDedekindReals.sig_forall_dec",
"ClassicalDedekindReals.sig_not_dec",
"FunctionalExtensionality.functional_extensionality_dep"
],
"C39_step_after_convergence": [
"ClassicalDedekindReals.sig_forall_dec",
"ClassicalDedekindReals.sig_not_dec",
"FunctionalExtensionality.functional_extensionality_dep"
],
"C39_zero_rhs_gives_nan": [],
"C40_bicgstab_is_textbook": [
"ClassicalDedekindReals.sig_forall_dec",
"ClassicalDedekindReals.sig_not_dec",
"FunctionalExtensionality.functional_extensionality_dep"
],
"C40_residual": [
"ClassicalDedekindReals.sig_forall_dec",
"ClassicalDedekindReals.sig_not_dec",
"FunctionalExtensionality.functional_extensionality_dep"
],
"C40_true_residual": [
"ClassicalDedekindReals.sig_forall_dec",
"ClassicalDedekindReals.sig_not_dec",
"FunctionalExtensionality.functional_extensionality_dep"
],
"C41_gmres_cycle": [
"ClassicalDedekindReals.sig_forall_dec",
"ClassicalDedekindReals.sig_not_dec",
"Classical_Prop.classic",
"FunctionalExtensionality.functional_extensionality_dep"
],
"C42_gmres_fixed_length": [
"ClassicalDedekindReals.sig_forall_dec",
"ClassicalDedekindReals.sig_not_dec",
"Classical_Prop.classic",
"FunctionalExtensionality.functional_extensionality_dep"
],
"C42_residual_can_grow": [
"ClassicalDedekindReals.sig_forall_dec",
"ClassicalDedekindReals.sig_not_dec",
"FunctionalExtensionality.functional_extensionality_dep"
],
"C43_coo_laplacian": [],
"C43_csr_laplacian": [],
"C44_cg_solves_laplacian": [
"ClassicalDedekindReals.sig_forall_dec",
"ClassicalDedekindReals.sig_not_dec",
"FunctionalExtensionality.functional_extensionality_dep"
],
"C45_coo_gpu_equals_cpu": [
"ClassicalDedekindReals.sig_forall_dec",
"ClassicalDedekindReals.sig_not_dec",
"FunctionalExtensionality.functional_extensionality_dep"
],
"C45_coo_gpu_needs_contiguous_entries": [],
"C45_csr_agrees_iff_zero": [
"ClassicalDedekindReals.sig_forall_dec",
"ClassicalDedekindReals.sig_not_dec",
"FunctionalExtensionality.functional_extensionality_dep"
],
"C45_csr_gpu_overwrites": [
"ClassicalDedekindReals.sig_forall_dec",
"ClassicalDedekindReals.sig_not_dec",
"FunctionalExtensionality.functional_extensionality_dep"
],
"C45_csr_second_product_discards_first": [
"ClassicalDedekindReals.sig_forall_dec",
"ClassicalDedekindReals.sig_not_dec",
"FunctionalExtensionality.functional_extensionality_dep"
],
"C45_row_sorted_storage_is_contiguous": [],
"C46_indptr": [],
"C47_launch_covers_every_index": [],
"C47_xpay_kernel_touches_each_point_once": [],
"C48_1d_fills": [],
"C48_axpy": [],
"C48_count_overflow": [],
"C48_degenerate_pieces": [],
"C48_dot": [],
"C48_mixed_orders": [],
"C48_own_instance_fills": [],
"C48_scal": [],
"C48_scal_other_layouts": [],
"C48_slabs_fill": [],
"C48_sub_box_of_larger_instance": [],
"C49_coo_leaks_five": [],
"C49_csr_leaks_nine": [],
"C49_lost_forever": [],
"C50_malformed_buffers": [],
"C50_round_trip": [],
"C51_flags_are_sets": [],
"C51_library_tasks": [],
"C51_test_is_intersection": [],
"C52_laplacian_2d_kernel_size": [],
"C53_program_order": [],
"C54_bicgstab_runs": [],
"C54_cg_runs": [],
"C54_gmres_runs": [],
"C55_print_partition_instance": [],
"C56_answer_in_the_half_step": [
"ClassicalDedekindReals.sig_forall_dec",
"FunctionalExtensionality.functional_extensionality_dep"
],
"C56_bicgstab_breaks_down": [
"ClassicalDedekindReals.sig_forall_dec",
"ClassicalDedekindReals.sig_not_dec",
"FunctionalExtensionality.functional_extensionality_dep"
],
"C57_bicgstab_past_convergence": [
"ClassicalDedekindReals.sig_forall_dec",
"ClassicalDedekindReals.sig_not_dec",
"FunctionalExtensionality.functional_extensionality_dep"
],
"C58_restart_too_large": [
"ClassicalDedekindReals.sig_forall_dec",
"ClassicalDedekindReals.sig_not_dec",
"FunctionalExtensionality.functional_extensionality_dep"
],
"C59_gmres_past_convergence": [
"ClassicalDedekindReals.sig_forall_dec",
"ClassicalDedekindReals.sig_not_dec",
"Classical_Prop.classic",
"FunctionalExtensionality.functional_extensionality_dep"
],
"C60_copy_acquires_too_little": [],
"C60_double_release": [],
"C61_cg_solves_stencil": [
"ClassicalDedekindReals.sig_forall_dec",
"ClassicalDedekindReals.sig_not_dec",
"Classical_Prop.classic",
"FunctionalExtensionality.functional_extensionality_dep"
],
"C62_benchmark_cg": [
"ClassicalDedekindReals.sig_forall_dec",
"ClassicalDedekindReals.sig_not_dec",
"Classical_Prop.classic",
"FunctionalExtensionality.functional_extensionality_dep"
],
"C62_dominant_stencil_positive": [
"ClassicalDedekindReals.sig_forall_dec",
"FunctionalExtensionality.functional_extensionality_dep"
],
"C63_bicgstab_steps_replay": [],
"C63_cg_steps_replay": [],
"C63_gmres_steps_replay": [],
"C64_fill_tasks_need_sums_to_fit": [],
"C64_linearize_exactly_when_volume_fits": [],
"C64_machine_coo_stencil": [],
"C64_machine_csr_stencil": [],
"C64_machine_linearized_csr_stencil": [],
"C64_size_needs_room_above": [],
"C65_dot_no_overflow": [
"ClassicalDedekindReals.sig_forall_dec",
"ClassicalDedekindReals.sig_not_dec",
"Classical_Prop.classic",
"FunctionalExtensionality.functional_extensionality_dep"
],
"C65_dot_rounding_error": [
"ClassicalDedekindReals.sig_forall_dec",
"ClassicalDedekindReals.sig_not_dec",
"Classical_Prop.classic",
"FunctionalExtensionality.functional_extensionality_dep"
],
"C65_dot_runs_differ_little": [
"ClassicalDedekindReals.sig_forall_dec",
"ClassicalDedekindReals.sig_not_dec",
"Classical_Prop.classic",
"FunctionalExtensionality.functional_extensionality_dep"
],
"C65_gamma_classical": [
"ClassicalDedekindReals.sig_forall_dec",
"FunctionalExtensionality.functional_extensionality_dep"
],
"C66_matvec_rounding_error": [
"ClassicalDedekindReals.sig_forall_dec",
"ClassicalDedekindReals.sig_not_dec",
"Classical_Prop.classic",
"FunctionalExtensionality.functional_extensionality_dep"
],
"C66_product_rounding_error": [
"ClassicalDedekindReals.sig_forall_dec",
"ClassicalDedekindReals.sig_not_dec",
"Classical_Prop.classic",
"FunctionalExtensionality.functional_extensionality_dep"
],
"C67_update_rounds_once": [
"ClassicalDedekindReals.sig_forall_dec",
"ClassicalDedekindReals.sig_not_dec",
"Classical_Prop.classic",
"FunctionalExtensionality.functional_extensionality_dep"
],
"C68_float_cg_run": [
"ClassicalDedekindReals.sig_forall_dec",
"ClassicalDedekindReals.sig_not_dec",
"Classical_Prop.classic",
"FunctionalExtensionality.functional_extensionality_dep"
],
"C69_residual_gap": [
"ClassicalDedekindReals.sig_forall_dec",
"ClassicalDedekindReals.sig_not_dec",
"Classical_Prop.classic",
"FunctionalExtensionality.functional_extensionality_dep"
],
"C70_benchmark_overrun": [
"ClassicalDedekindReals.sig_forall_dec",
"ClassicalDedekindReals.sig_not_dec",
"Classical_Prop.classic",
"FunctionalExtensionality.functional_extensionality_dep"
],
"C70_bicgstab_benchmark": [],
"C70_cg_benchmark": [],
"C70_copies_overrun": [
"ClassicalDedekindReals.sig_forall_dec",
"ClassicalDedekindReals.sig_not_dec",
"Classical_Prop.classic",
"FunctionalExtensionality.functional_extensionality_dep"
],
"C70_gmres_benchmark": [],
"C70_per_trace_zero": [],
"C71_formats_print_alike": [],
"C71_print": [],
"C71_print_triples": [],
"C71_stencil_print": [],
"C72_bicgstab": [],
"C72_cg": [],
"C72_gmres": [],
"C72_planner_calls": [],
"C73_handles": [],
"C73_only_gpus": [],
"C73_own_handles": [],
"C73_shared_slot": [],
"C74_bicgstab": [],
"C74_cg": [],
"C74_gmres": [],
"C75_bicgstab_run": [
"ClassicalDedekindReals.sig_forall_dec",
"ClassicalDedekindReals.sig_not_dec",
"Classical_Prop.classic",
"FunctionalExtensionality.functional_extensionality_dep"
],
"C75_cg_run": [
"ClassicalDedekindReals.sig_forall_dec",
"ClassicalDedekindReals.sig_not_dec",
"Classical_Prop.classic",
"FunctionalExtensionality.functional_extensionality_dep"
],
"C75_cg_solves_laplacian_on_gpus": [
"ClassicalDedekindReals.sig_forall_dec",
"ClassicalDedekindReals.sig_not_dec",
"Classical_Prop.classic",
"FunctionalExtensionality.functional_extensionality_dep"
],
"C75_coo_task_is_the_cusparse_call": [
"ClassicalDedekindReals.sig_forall_dec",
"ClassicalDedekindReals.sig_not_dec",
"FunctionalExtensionality.functional_extensionality_dep"
],
"C75_coo_task_usable": [
"ClassicalDedekindReals.sig_forall_dec",
"ClassicalDedekindReals.sig_not_dec",
"FunctionalExtensionality.functional_extensionality_dep"
],
"C75_csr_task_is_the_cusparse_call": [
"ClassicalDedekindReals.sig_forall_dec",
"ClassicalDedekindReals.sig_not_dec",
"FunctionalExtensionality.functional_extensionality_dep"
],
"C75_csr_task_usable": [
"ClassicalDedekindReals.sig_forall_dec",
"ClassicalDedekindReals.sig_not_dec",
"FunctionalExtensionality.functional_extensionality_dep"
],
"C75_gmres_run": [
"ClassicalDedekindReals.sig_forall_dec",
"ClassicalDedekindReals.sig_not_dec",
"Classical_Prop.classic",
"FunctionalExtensionality.functional_extensionality_dep"
],
"C75_gpu_csr_discards_earlier_matrices": [],
"C75_mapped_product": [],
"C75_mapped_product_exact": [
"ClassicalDedekindReals.sig_forall_dec",
"ClassicalDedekindReals.sig_not_dec",
"FunctionalExtensionality.functional_extensionality_dep"
],
"C75_same_solver_text": [
"FunctionalExtensionality.functional_extensionality_dep"
],
"C75_sorted_storage_is_gpu_usable": [],
"C76_float_bicgstab_run": [
"ClassicalDedekindReals.sig_forall_dec",
"ClassicalDedekindReals.sig_not_dec",
"Classical_Prop.classic",
"FunctionalExtensionality.functional_extensionality_dep"
],
"C76_residual_gap": [
"ClassicalDedekindReals.sig_forall_dec",
"ClassicalDedekindReals.sig_not_dec",
"Classical_Prop.classic",
"FunctionalExtensionality.functional_extensionality_dep"
],
"C77_block_partitions": [],
"C77_cg_tests_print": [
"ClassicalDedekindReals.sig_forall_dec",
"ClassicalDedekindReals.sig_not_dec",
"FunctionalExtensionality.functional_extensionality_dep"
],
"C77_cg_tests_solution": [
"ClassicalDedekindReals.sig_forall_dec",
"ClassicalDedekindReals.sig_not_dec",
"FunctionalExtensionality.functional_extensionality_dep"
],
"C77_laplacian_partitions": [],
"C77_scalar_test": [],
"C77_vector_test": [
"FunctionalExtensionality.functional_extensionality_dep"
],
"C77_vector_test_exact": [
"ClassicalDedekindReals.sig_forall_dec",
"ClassicalDedekindReals.sig_not_dec",
"FunctionalExtensionality.functional_extensionality_dep"
],
"C78_chained_prints": [],
"C78_prints_of_specified": [],
"C78_program_prints": [],
"C78_unchained_any_order": [],
"C79_needs_same_type": [],
"C79_partition_shown": [],
"C80_exact_partition_independent": [
"ClassicalDedekindReals.sig_forall_dec",
"ClassicalDedekindReals.sig_not_dec",
"FunctionalExtensionality.functional_extensionality_dep"
],
"C80_prints": [
"FunctionalExtensionality.functional_extensionality_dep"
],
"C80_programs_mean_what_they_say": [],
"C80_reproducible_without_dots": [
"FunctionalExtensionality.functional_extensionality_dep"
],
"C80_schedule_independent": [],
"C80_whole_programs": [
"FunctionalExtensionality.functional_extensionality_dep"
],
"C81_kernel_too_large": [],
"C81_kernel_visits_each_point_once": [],
"C81_machine_flatten": [],
"C81_signed_overflow": [],
"C81_unsigned_full_side": [],
"C82_cg_tests_print_in_double": [
"ClassicalDedekindReals.sig_forall_dec",
"ClassicalDedekindReals.sig_not_dec",
"Classical_Prop.classic",
"FunctionalExtensionality.functional_extensionality_dep"
],
"C82_example": [
"ClassicalDedekindReals.sig_forall_dec",
"ClassicalDedekindReals.sig_not_dec",
"Classical_Prop.classic",
"FunctionalExtensionality.functional_extensionality_dep"
],
"C82_six_digits": [
"ClassicalDedekindReals.sig_forall_dec",
"FunctionalExtensionality.functional_extensionality_dep"
],
"C83_arnoldi_relation": [
"ClassicalDedekindReals.sig_forall_dec",
"ClassicalDedekindReals.sig_not_dec",
"FunctionalExtensionality.functional_extensionality_dep"
],
"C83_float_gmres_run": [
"ClassicalDedekindReals.sig_forall_dec",
"ClassicalDedekindReals.sig_not_dec",
"Classical_Prop.classic",
"FunctionalExtensionality.functional_extensionality_dep"
],
"C83_normalised_scale": [
"ClassicalDedekindReals.sig_forall_dec",
"ClassicalDedekindReals.sig_not_dec",
"FunctionalExtensionality.functional_extensionality_dep"
],
"C83_solution_is_sum": [
"ClassicalDedekindReals.sig_forall_dec",
"ClassicalDedekindReals.sig_not_dec",
"FunctionalExtensionality.functional_extensionality_dep"
],
"C83_unit_length": [
"ClassicalDedekindReals.sig_forall_dec",
"ClassicalDedekindReals.sig_not_dec",
"FunctionalExtensionality.functional_extensionality_dep"
],
"C84_cg_solves_laplacian_on_streams": [
"ClassicalDedekindReals.sig_forall_dec",
"ClassicalDedekindReals.sig_not_dec",
"Classical_Prop.classic",
"FunctionalExtensionality.functional_extensionality_dep"
],
"C84_complete_means_done": [],
"C84_deterministic": [],
"C84_dot_result_ready": [],
"C84_programs": [],
"C84_shared_slot": [],
"C84_streams_add_no_behaviour": [],
"C84_terminates": [],
"C85_benchmark_rate": [
"ClassicalDedekindReals.sig_forall_dec",
"ClassicalDedekindReals.sig_not_dec",
"FunctionalExtensionality.functional_extensionality_dep"
],
"C85_cg_rate": [
"ClassicalDedekindReals.sig_forall_dec",
"ClassicalDedekindReals.sig_not_dec",
"FunctionalExtensionality.functional_extensionality_dep"
],
"C85_stencil_rate": [
"ClassicalDedekindReals.sig_forall_dec",
"ClassicalDedekindReals.sig_not_dec",
"FunctionalExtensionality.functional_extensionality_dep"
],
"C86_petsc_same_matrix": [],
"C86_petsc_too_large": [],
"C86_petsc_unused_sizes": [],
"C86_trilinos_local_overflow": [],
"C86_trilinos_missing_size": [],
"C86_trilinos_same_matrix": [],
"C87_cg_is_textbook": [
"ClassicalDedekindReals.sig_forall_dec",
"ClassicalDedekindReals.sig_not_dec",
"FunctionalExtensionality.functional_extensionality_dep"
],
"C87_cg_matches_CGSolver": [
"ClassicalDedekindReals.sig_forall_dec",
"ClassicalDedekindReals.sig_not_dec",
"FunctionalExtensionality.functional_extensionality_dep"
],
"C87_converges_then_undefined": [
"ClassicalDedekindReals.sig_forall_dec",
"ClassicalDedekindReals.sig_not_dec",
"Classical_Prop.classic",
"FunctionalExtensionality.functional_extensionality_dep"
],
"C87_double_cg_agrees": [
"ClassicalDedekindReals.sig_forall_dec",
"ClassicalDedekindReals.sig_not_dec",
"FunctionalExtensionality.functional_extensionality_dep"
],
"C88_bicgstab": [],
"C88_cg": [],
"C88_gmres": [],
"C88_rhs_kept": [],
"C89_bad_partition": [
"ClassicalDedekindReals.sig_forall_dec",
"FunctionalExtensionality.functional_extensionality_dep"
],
"C89_benchmark_1d": [
"ClassicalDedekindReals.sig_forall_dec",
"ClassicalDedekindReals.sig_not_dec",
"Classical_Prop.classic",
"FunctionalExtensionality.functional_extensionality_dep"
],
"C89_benchmark_cg": [
"ClassicalDedekindReals.sig_forall_dec",
"ClassicalDedekindReals.sig_not_dec",
"Classical_Prop.classic",
"FunctionalExtensionality.functional_extensionality_dep"
],
"C89_benchmark_runs": [
"ClassicalDedekindReals.sig_forall_dec",
"FunctionalExtensionality.functional_extensionality_dep"
],
"C89_default_run": [
"ClassicalDedekindReals.sig_forall_dec",
"ClassicalDedekindReals.sig_not_dec",
"Classical_Prop.classic",
"FunctionalExtensionality.functional_extensionality_dep"
],
"C89_invalid_dim": [
"ClassicalDedekindReals.sig_forall_dec",
"FunctionalExtensionality.functional_extensionality_dep"
],
"C89_no_solver": [
"ClassicalDedekindReals.sig_forall_dec",
"FunctionalExtensionality.functional_extensionality_dep"
],
"C89_options": [],
"C89_per_trace_zero": [
"ClassicalDedekindReals.sig_forall_dec",
"FunctionalExtensionality.functional_extensionality_dep"
],
"C89_which_solver": [
"ClassicalDedekindReals.sig_forall_dec",
"FunctionalExtensionality.functional_extensionality_dep"
],
"C90_build_test": [],
"C90_cg_tests_pass": [
"ClassicalDedekindReals.sig_forall_dec",
"ClassicalDedekindReals.sig_not_dec",
"Classical_Prop.classic",
"FunctionalExtensionality.functional_extensionality_dep"
],
"C90_main": [],
"C90_partition_tests_pass": [],
"C90_scalar_test": [],
"C90_script_ends": [],
"C90_set_tests": [],
"C90_vector_test_exact": [],
"C90_vector_test_passes": [
"ClassicalDedekindReals.sig_forall_dec",
"FunctionalExtensionality.functional_extensionality_dep"
],
"C90_verdict_is_return_code": [],
"C91_bench_all_third_extent": [
"ClassicalDedekindReals.sig_forall_dec",
"FunctionalExtensionality.functional_extensionality_dep"
],
"C91_count_nodes": [],
"C91_iterations": [],
"C91_resources": [],
"C91_same_matrix": [
"ClassicalDedekindReals.sig_forall_dec",
"FunctionalExtensionality.functional_extensionality_dep"
],
"C91_same_problem": [
"ClassicalDedekindReals.sig_forall_dec",
"FunctionalExtensionality.functional_extensionality_dep"
],
"C91_sizes": [],
"C92_bench_all": [],
"C92_bench_all_ends": [],
"C92_bench_all_ls": [],
"C92_legion_runs": [],
"C92_limit_must_be_a_size": [],
"C92_limit_table": [],
"C92_petsc_ends": [],
"C92_petsc_limit": [],
"C92_trilinos_runs": [],
"C93_build_dependencies": [],
"C93_build_directory_is_needed": [],
"C93_build_legion": [],
"C93_build_legion_order": [],
"C93_change_directory": [],
"C93_directories": [],
"C93_make_all": [],
"C93_matching": [],
"C93_options": [],
"C93_refresh": [],
"C93_refresh_then_make": [],
"C94_ambiguous_names": [],
"C94_compiles": [],
"C94_description": [],
"C94_messages": [],
"C94_names": [],
"C94_once": [],
"C94_one_dimension": [],
"C94_output": [],
"C94_variants": [],
"C95_accepted_programs_finish": [],
"C95_cg_solves": [
"ClassicalDedekindReals.sig_forall_dec",
"ClassicalDedekindReals.sig_not_dec",
"FunctionalExtensionality.functional_extensionality_dep"
],
"C95_cg_tests_print": [
"ClassicalDedekindReals.sig_forall_dec",
"ClassicalDedekindReals.sig_not_dec",
"FunctionalExtensionality.functional_extensionality_dep"
],
"C95_each_task_on_one_shard": [],
"C95_functor_assigns": [],
"C95_no_deadlock": [],
"C95_other_domains_stop": [],
"C95_same_executions": [],
"C95_same_results": [],
"C95_shard_count_is_invisible": [],
"C96_benchmark": [],
"C96_scope_exit": [],
"C96_test02": [],
"C96_test03": [],
"C96_test04": [],
"C96_test05": [],
"C96_test06": [],
"C97_benchmark": [],
"C97_nothing_released": [],
"C97_programs": [],
"C97_same_outcome": [],
"C98_random_fill": [
"ClassicalDedekindReals.sig_forall_dec",
"ClassicalDedekindReals.sig_not_dec",
"Classical_Prop.classic",
"FunctionalExtensionality.functional_extensionality_dep"
],
"C98_seed_covers_state": [],
"C98_unit": [
"ClassicalDedekindReals.sig_forall_dec",
"ClassicalDedekindReals.sig_not_dec",
"Classical_Prop.classic",
"FunctionalExtensionality.functional_extensionality_dep"
],
"C99_definite_solves": [
"ClassicalDedekindReals.sig_forall_dec",
"ClassicalDedekindReals.sig_not_dec",
"FunctionalExtensionality.functional_extensionality_dep"
],
"C99_every_run": [
"ClassicalDedekindReals.sig_forall_dec",
"ClassicalDedekindReals.sig_not_dec",
"FunctionalExtensionality.functional_extensionality_dep"
],
"C99_indefinite_fails": [
"ClassicalDedekindReals.sig_forall_dec",
"ClassicalDedekindReals.sig_not_dec",
"FunctionalExtensionality.functional_extensionality_dep"
],
"C99_works_iff_definite": [
"ClassicalDedekindReals.sig_forall_dec",
"ClassicalDedekindReals.sig_not_dec",
"FunctionalExtensionality.functional_extensionality_dep"
]
}