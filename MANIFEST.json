{
 "claims": [
  {
   "property": "C01",
   "status": "proved",
   "theorems": [
    "C01_accepts_exactly_finite_square",
    "C01_rejection_is_ValueError",
    "C01_preserves_matrix",
    "C01_float_check_rejects_non_finite",
    "C01_float_check_accepts",
    "C01_float_check_nonnegative",
    "C01_float_check_overflow_refuted"
   ],
   "note": ""
  },
  {
   "property": "C02",
   "status": "proved",
   "theorems": [
    "C02_n_edges_undirected",
    "C02_n_edges_directed"
   ],
   "note": ""
  },
  {
   "property": "C03",
   "status": "proved",
   "theorems": [
    "C03_is_directed_history_independent",
    "C03_is_directed_iff_not_symmetric",
    "C03_has_loops_iff_nonzero_diagonal",
    "C03_unweighted_iff_all_nonzero_are_one"
   ],
   "note": ""
  },
  {
   "property": "C04",
   "status": "proved",
   "theorems": [
    "C04_edge_list_enumerates_every_edge_once",
    "C04_edge_list_rebuilds_weights",
    "C04_sorted"
   ],
   "note": ""
  },
  {
   "property": "C05",
   "status": "proved",
   "theorems": [
    "C05_is_connected_history_independent",
    "C05_is_connected_decides_connectivity",
    "C05_pop_order_is_irrelevant",
    "C05_empty_graph_raises"
   ],
   "note": ""
  },
  {
   "property": "C06",
   "status": "proved",
   "theorems": [
    "C06_components_partition",
    "C06_directed_graphs_are_rejected",
    "C06_agrees_with_is_connected_refuted"
   ],
   "note": ""
  },
  {
   "property": "C07",
   "status": "proved",
   "theorems": [
    "C07_subgraph_restricts",
    "C07_bad_selection_rejected",
    "C07_mask_equals_index_list"
   ],
   "note": ""
  },
  {
   "property": "C08",
   "status": "proved",
   "theorems": [
    "C08_weighted_degree",
    "C08_degree_counts_neighbours",
    "C08_handshake",
    "C08_total_weight"
   ],
   "note": ""
  },
  {
   "property": "C09",
   "status": "proved",
   "theorems": [
    "C09_combinatorial_structure",
    "C09_psd",
    "C09_blind_to_self_loops"
   ],
   "note": ""
  },
  {
   "property": "C10",
   "status": "proved",
   "theorems": [
    "C10_energy_combinatorial",
    "C10_energy_normalized",
    "C10_rejects_wrong_length",
    "C10_documented_normalized_formula_refuted"
   ],
   "note": ""
  },
  {
   "property": "C11",
   "status": "proved",
   "theorems": [
    "C11_normalized_entries",
    "C11_spectrum_in_0_2",
    "C11_psd",
    "C11_sqrt_degree_in_kernel",
    "C11_kernel"
   ],
   "note": ""
  },
  {
   "property": "C12",
   "status": "proved",
   "theorems": [
    "C12_factorisation"
   ],
   "note": ""
  },
  {
   "property": "C13",
   "status": "proved",
   "theorems": [
    "C13_gradient_values",
    "C13_divergence_adjoint",
    "C13_div_grad_is_laplacian",
    "C13_energy_is_squared_gradient",
    "C13_rejects_wrong_length"
   ],
   "note": ""
  },
  {
   "property": "C14",
   "status": "proved",
   "theorems": [
    "C14_upper_bound_is_upper_bound",
    "C14_negative_weights_refuted"
   ],
   "note": ""
  },
  {
   "property": "C15",
   "status": "proved",
   "theorems": [
    "C15_lmax_is_never_stale",
    "C15_lanczos_assertion_never_fails",
    "C15_lmax_available_without_type_change",
    "C15_lmax_after_type_change_refuted",
    "C15_lmax_read_none_refuted",
    "C15_failed_estimate_is_remembered_refuted"
   ],
   "note": ""
  },
  {
   "property": "C16",
   "status": "proved",
   "theorems": [
    "C16_caches_are_coherent",
    "C16_requested_eigenvectors_available",
    "C16_basis_computation_never_fails",
    "C16_D_available",
    "C16_values_read",
    "C16_unknown_type_leaves_inconsistent_state_refuted",
    "C16_failed_basis_is_remembered_refuted"
   ],
   "note": ""
  },
  {
   "property": "C17",
   "status": "proved",
   "theorems": [
    "C17_basis_diagonalises_the_laplacian",
    "C17_synthesis_of_analysis",
    "C17_analysis_of_synthesis",
    "C17_parseval",
    "C17_linear",
    "C17_laplacian_becomes_multiplication",
    "C17_dirichlet_energy_in_the_spectral_domain",
    "C17_partial_basis_cannot_be_inverted",
    "C17_wrong_length_rejected"
   ],
   "note": ""
  },
  {
   "property": "C18",
   "status": "proved",
   "theorems": [
    "C18_coherence_range",
    "C18_coherence_read"
   ],
   "note": ""
  },
  {
   "property": "C19",
   "status": "proved",
   "theorems": [
    "C19_analysis_multiplies_the_spectrum",
    "C19_synthesis_sums_the_filtered_features",
    "C19_linear",
    "C19_commutes_with_the_laplacian",
    "C19_eigenvectors_are_scaled_by_the_kernel",
    "C19_composition",
    "C19_energy",
    "C19_partial_basis_rejected",
    "C19_unknown_method_rejected"
   ],
   "note": ""
  },
  {
   "property": "C20",
   "status": "proved",
   "theorems": [
    "C20_series_interpolates_the_kernel",
    "C20_closed_form_for_a_pole",
    "C20_near_best_polynomial",
    "C20_heat_rate",
    "C20_heat_converges",
    "C20_default_heat",
    "C20_pole_rate",
    "C20_cheby_op_evaluates_the_series",
    "C20_cheby_op_2d",
    "C20_series_is_a_cosine_series",
    "C20_exact_on_polynomials",
    "C20_error_bound",
    "C20_order_zero_rejected"
   ],
   "note": ""
  },
  {
   "property": "C21",
   "status": "proved",
   "theorems": [
    "C21_adjoint"
   ],
   "note": ""
  },
  {
   "property": "C22",
   "status": "proved",
   "theorems": [
    "C22_frame_bounds",
    "C22_default_bounds",
    "C22_default_bounds_refuted"
   ],
   "note": ""
  },
  {
   "property": "C23",
   "status": "proved",
   "theorems": [
    "C23_tight_banks_preserve_energy_and_reconstruct",
    "C23_meyer",
    "C23_simple_tight",
    "C23_wrong_number_of_scales_rejected",
    "C23_itersine_even_overlap",
    "C23_itersine_odd_overlap_refuted",
    "C23_half_cosine",
    "C23_held_simoncelli_papadakis_regular",
    "C23_no_jumps",
    "C23_regular_mirror"
   ],
   "note": ""
  },
  {
   "property": "C24",
   "status": "proved",
   "theorems": [
    "C24_complement_completes_to_a_tight_frame",
    "C24_infeasible_bound_rejected",
    "C24_default_bound_tight_on_each_batch",
    "C24_default_bound_depends_on_the_batch_refuted"
   ],
   "note": ""
  },
  {
   "property": "C25",
   "status": "proved",
   "theorems": [
    "C25_inverse_projects_on_the_covered_spectrum",
    "C25_inverse_reconstructs",
    "C25_inverse_available"
   ],
   "note": ""
  },
  {
   "property": "C26",
   "status": "proved",
   "theorems": [
    "C26_localize",
    "C26_atoms_are_symmetric",
    "C26_localize_out_of_range",
    "C26_compute_frame_is_the_analysis_operator",
    "C26_compute_frame_square_bank_refuted"
   ],
   "note": ""
  },
  {
   "property": "C27",
   "status": "proved",
   "theorems": [
    "C27_rejected_shapes",
    "C27_accepted_shapes",
    "C27_result_shapes",
    "C27_analyze_synthesize"
   ],
   "note": ""
  },
  {
   "property": "C28",
   "status": "proved",
   "theorems": [
    "C28_heat_bank",
    "C28_range_and_value_at_zero",
    "C28_decreasing",
    "C28_semigroup",
    "C28_heat_equation",
    "C28_diffusion_composes",
    "C28_normalized"
   ],
   "note": ""
  },
  {
   "property": "C29",
   "status": "proved",
   "theorems": [
    "C29_wave_equation",
    "C29_initial_condition_and_bound",
    "C29_equal_lengths",
    "C29_broadcasting",
    "C29_incompatible_lengths_rejected",
    "C29_array_parameter_is_not_broadcast_refuted",
    "C29_negative_speed_accepted_refuted"
   ],
   "note": ""
  },
  {
   "property": "C30",
   "status": "proved",
   "theorems": [
    "C30_rectangular_is_the_indicator",
    "C30_expwin_lowpass",
    "C30_expwin_complementary",
    "C30_expwin_bandpass"
   ],
   "note": ""
  },
  {
   "property": "C31",
   "status": "proved",
   "theorems": [
    "C31_log_scales",
    "C31_log_scales_degenerate",
    "C31_mexican_hat",
    "C31_abspline_system_unique",
    "C31_abspline_is_smooth_at_the_knots"
   ],
   "note": ""
  },
  {
   "property": "C32",
   "status": "proved",
   "theorems": [
    "C32_accepts",
    "C32_rejects",
    "C32_symmetric",
    "C32_average",
    "C32_maximum",
    "C32_fill",
    "C32_tril",
    "C32_triu",
    "C32_identity_on_symmetric",
    "C32_sparse_dense",
    "C32_tril_negative_refuted"
   ],
   "note": ""
  },
  {
   "property": "C33",
   "status": "proved",
   "theorems": [
    "C33_distanz",
    "C33_one_argument",
    "C33_mismatch",
    "C33_defined",
    "C33_metric"
   ],
   "note": ""
  },
  {
   "property": "C34",
   "status": "proved",
   "theorems": [
    "C34_a_pseudo_inverse_exists",
    "C34_foster",
    "C34_potential_difference",
    "C34_metric",
    "C34_needs_combinatorial"
   ],
   "note": ""
  },
  {
   "property": "C35",
   "status": "proved",
   "theorems": [
    "C35_succeeds",
    "C35_matrix",
    "C35_any_matrix",
    "C35_two_steps",
    "C35_matrix_index_error",
    "C35_kron_graph",
    "C35_energy",
    "C35_connected",
    "C35_resistance",
    "C35_solvable",
    "C35_rejects",
    "C35_no_coordinates_refuted",
    "C35_single_vertex_refuted"
   ],
   "note": ""
  },
  {
   "property": "C36",
   "status": "proved",
   "theorems": [
    "C36_interpolates",
    "C36_solvable",
    "C36_needs_mr"
   ],
   "note": ""
  },
  {
   "property": "C37",
   "status": "proved",
   "theorems": [
    "C37_default_orders_refuted",
    "C37_perfect_reconstruction",
    "C37_what_each_level_holds",
    "C37_one_dimensional_signal_refuted",
    "C37_least_squares_refuted",
    "C37_extra_errors_ignored_refuted",
    "C37_missing_errors_rejected",
    "C37_wrong_length_rejected",
    "C37_wrong_number_of_filters_rejected"
   ],
   "note": ""
  },
  {
   "property": "C38",
   "status": "proved",
   "theorems": [
    "C38_bookkeeping",
    "C38_levels",
    "C38_elimination",
    "C38_resistance",
    "C38_selection",
    "C38_strictly_smaller",
    "C38_next_level",
    "C38_K_reg",
    "C38_basis_sign",
    "C38_basis_destroyed_refuted",
    "C38_partial_basis_refuted",
    "C38_unknown_method_rejected",
    "C38_no_level",
    "C38_single_vertex_refuted",
    "C38_two_vertices_refuted",
    "C38_sparsify_small_refuted",
    "C38_sparsify_levels_refuted",
    "C38_cached_basis",
    "C38_sparsified_levels"
   ],
   "note": ""
  },
  {
   "property": "C39",
   "status": "proved",
   "theorems": [
    "C39_minimises",
    "C39_inexact_solver",
    "C39_unique_and_in_range"
   ],
   "note": ""
  },
  {
   "property": "C40",
   "status": "proved",
   "theorems": [
    "C40_interpolates_with_least_energy",
    "C40_solvable",
    "C40_mask_length",
    "C40_single_column_refuted",
    "C40_integer_measurements",
    "C40_integer_measurements_refuted"
   ],
   "note": ""
  },
  {
   "property": "C41",
   "status": "proved",
   "theorems": [
    "C41_rows_are_probabilities",
    "C41_single_class_refuted"
   ],
   "note": ""
  },
  {
   "property": "C42",
   "status": "proved",
   "theorems": [
    "C42_projection_is_the_closest_point"
   ],
   "note": ""
  },
  {
   "property": "C43",
   "status": "proved",
   "theorems": [
    "C43_objective",
    "C43_gradient",
    "C43_step_decreases",
    "C43_fixed_points_are_minimisers",
    "C43_convergence_rate",
    "C43_accelerated_rate",
    "C43_rejections"
   ],
   "note": ""
  },
  {
   "property": "C44",
   "status": "proved",
   "theorems": [
    "C44_path",
    "C44_directed_path",
    "C44_empty_rejected"
   ],
   "note": ""
  },
  {
   "property": "C45",
   "status": "proved",
   "theorems": [
    "C45_ring",
    "C45_rejected",
    "C45_half_ring_refuted"
   ],
   "note": ""
  },
  {
   "property": "C46",
   "status": "proved",
   "theorems": [
    "C46_grid",
    "C46_positions",
    "C46_default",
    "C46_single_column_rejected",
    "C46_negative_diagonal_refuted"
   ],
   "note": ""
  },
  {
   "property": "C47",
   "status": "proved",
   "theorems": [
    "C47_torus",
    "C47_default",
    "C47_small_refuted"
   ],
   "note": ""
  },
  {
   "property": "C48",
   "status": "proved",
   "theorems": [
    "C48_comet",
    "C48_comet_rejected",
    "C48_star",
    "C48_star_plotting_refuted",
    "C48_full"
   ],
   "note": ""
  },
  {
   "property": "C49",
   "status": "proved",
   "theorems": [
    "C49_line_graph",
    "C49_self_loop_refuted"
   ],
   "note": ""
  },
  {
   "property": "C50",
   "status": "proved",
   "theorems": [
    "C50_graph",
    "C50_terminates",
    "C50_first_connected_attempt",
    "C50_n_try_zero_refuted",
    "C50_certain_pairs",
    "C50_labels",
    "C50_probabilities_in_range",
    "C50_out_of_range_rejected",
    "C50_probabilities",
    "C50_bad_shape_rejected",
    "C50_integer_q_refuted",
    "C50_erdos_renyi"
   ],
   "note": ""
  },
  {
   "property": "C51",
   "status": "proved",
   "theorems": [
    "C51_graph",
    "C51_too_many_edges_rejected",
    "C51_no_seed_rejected"
   ],
   "note": ""
  },
  {
   "property": "C52",
   "status": "proved",
   "theorems": [
    "C52_check",
    "C52_silent_iff",
    "C52_graph",
    "C52_odd_rejected",
    "C52_max_iter_one",
    "C52_empty_rejected",
    "C52_finished_silent",
    "C52_silence_refuted",
    "C52_restart_refuted",
    "C52_nontermination_refuted"
   ],
   "note": ""
  },
  {
   "property": "C53",
   "status": "proved",
   "theorems": [
    "C53_ring",
    "C53_too_few_rejected",
    "C53_out_of_range_rejected",
    "C53_coinciding_refuted"
   ],
   "note": ""
  },
  {
   "property": "C54",
   "status": "proved",
   "theorems": [
    "C54_graph",
    "C54_tree_refuted",
    "C54_zero"
   ],
   "note": ""
  },
  {
   "property": "C55",
   "status": "proved",
   "theorems": [
    "C55_graph",
    "C55_labels",
    "C55_inter_edges",
    "C55_density",
    "C55_epsilon",
    "C55_coordinates",
    "C55_k_neigh_refuted",
    "C55_succeeds",
    "C55_bad_parameters_rejected",
    "C55_empty_community_refuted",
    "C55_default_parameters",
    "C55_defaults",
    "C55_default_succeeds"
   ],
   "note": ""
  },
  {
   "property": "C56",
   "status": "proved",
   "theorems": [
    "C56_distances",
    "C56_graph",
    "C56_radius",
    "C56_knn",
    "C56_default_sigma",
    "C56_knn_neighbours",
    "C56_points",
    "C56_invariant",
    "C56_rejected",
    "C56_succeeds",
    "C56_radius_rejected_for_k_refuted",
    "C56_coincident_loops_refuted",
    "C56_default_succeeds"
   ],
   "note": ""
  },
  {
   "property": "C57",
   "status": "proved",
   "theorems": [
    "C57_break",
    "C57_join_any_width",
    "C57_round_trip",
    "C57_simple_names",
    "C57_eleven_columns_refuted",
    "C57_one_column_refuted",
    "C57_no_column_refuted",
    "C57_shared_prefix_merged_refuted",
    "C57_signals_lost_refuted",
    "C57_join_fails_refuted",
    "C57_column_name_clash_refuted"
   ],
   "note": ""
  },
  {
   "property": "C58",
   "status": "proved",
   "theorems": [
    "C58_to_networkx",
    "C58_from_networkx",
    "C58_round_trip",
    "C58_three_dimensional_signal_rejected",
    "C58_short_signal_rejected",
    "C58_no_nodes_rejected",
    "C58_export_breaks_the_signals_refuted",
    "C58_laplacian_type_lost_refuted"
   ],
   "note": ""
  },
  {
   "property": "C59",
   "status": "proved",
   "theorems": [
    "C59_to_graphtool_graph",
    "C59_to_graphtool_signals",
    "C59_from_graphtool",
    "C59_round_trip",
    "C59_isolated_vertices_dropped_refuted",
    "C59_isolated_vertices_signal_refuted",
    "C59_three_dimensional_signal_rejected",
    "C59_three_dimensional_signal_of_one_vertex",
    "C59_single_vertex_signal_lost_refuted",
    "C59_loops_doubled_refuted"
   ],
   "note": ""
  },
  {
   "property": "C60",
   "status": "proved",
   "theorems": [
    "C60_format",
    "C60_dispatch",
    "C60_save_then_load"
   ],
   "note": ""
  },
  {
   "property": "C61",
   "status": "proved",
   "theorems": [
    "C61_array",
    "C61_single_vertex_refuted",
    "C61_unknown_kind_rejected",
    "C61_layouts",
    "C61_community",
    "C61_community_errors_refuted",
    "C61_fixed_vertices",
    "C61_moves_are_bounded",
    "C61_translation",
    "C61_rescale",
    "C61_rescale_box_refuted",
    "C61_spring_single_vertex_refuted",
    "C61_spring_default",
    "C61_one_iteration",
    "C61_equilibrium",
    "C61_two_vertices",
    "C61_default_length"
   ],
   "note": ""
  },
  {
   "property": "C62",
   "status": "proved",
   "theorems": [
    "C62_norm_tig",
    "C62_spectrogram",
    "C62_bank_repeats_the_frame_refuted",
    "C62_keywords_ignored_refuted",
    "C62_avg_adj_deg",
    "C62_avg_adj_deg_refuted"
   ],
   "note": ""
  },
  {
   "property": "C63",
   "status": "proved",
   "theorems": [
    "C63_cheby_rect",
    "C63_cheby_rect_bad_bounds",
    "C63_jackson",
    "C63_jackson_out_of_range",
    "C63_jackson_repeatable_refuted"
   ],
   "note": ""
  },
  {
   "property": "C64",
   "status": "proved",
   "theorems": [
    "C64_separate_start_vectors",
    "C64_one_column",
    "C64_several_start_vectors_refuted",
    "C64_mixed_start_vectors_refuted",
    "C64_lanczos",
    "C64_lanczos_breakdown"
   ],
   "note": ""
  },
  {
   "property": "C65",
   "status": "proved",
   "theorems": [
    "C65_signals_always_fit",
    "C65_set_signal_effect"
   ],
   "note": ""
  },
  {
   "property": "C66",
   "status": "proved",
   "theorems": [
    "C66_graph_is_of_the_argument",
    "C66_graph_keeps_the_matrix",
    "C66_graph_leaves_canonical_arrays",
    "C66_graph_rejected_matrix_untouched",
    "C66_graph_effect_without_graph",
    "C66_graph_half_copied",
    "C66_graph_corrupts_a_reused_matrix_refuted",
    "C66_graph_corrupts_duplicates_refuted",
    "C66_graph_shares_weights",
    "C66_sbm_overwrites_q",
    "C66_sbm_repeatable",
    "C66_sbm_second_call_changes_first_M_refuted",
    "C66_sbm_overwrites_on_failure_refuted",
    "C66_sbm_leaves_q",
    "C66_ring_sorts_angles",
    "C66_nn_rescales_points",
    "C66_nn_destroys_points_refuted",
    "C66_nn_leaves_points"
   ],
   "note": ""
  },
  {
   "property": "C67",
   "status": "proved",
   "theorems": [
    "C67_normalize",
    "C67_sizes",
    "C67_default_sizes",
    "C67_single_edge_refuted",
    "C67_is_color",
    "C67_is_color_arrays",
    "C67_signal_read_as_colour_refuted",
    "C67_signal_coloured",
    "C67_default_limits",
    "C67_limits_exclude_values_refuted",
    "C67_qtg_colours",
    "C67_qtg_colours_refuted",
    "C67_plot_accepts",
    "C67_edges_drawn",
    "C67_plot_spectrogram_refuted",
    "C67_filter_points"
   ],
   "note": ""
  },
  {
   "property": "C68",
   "status": "proved",
   "theorems": [
    "C68_wrong_mother_kernel_rejected",
    "C68_gabor_shifts_the_mother_kernel",
    "C68_gabor_coefficients",
    "C68_modulation_first",
    "C68_localization_first",
    "C68_windowed_fourier_transform",
    "C68_modulation_resynthesis",
    "C68_modulation_evaluate",
    "C68_repeated_eigenvalue_refuted"
   ],
   "note": ""
  },
  {
   "property": "C69",
   "status": "proved",
   "theorems": [
    "C69_subgraph",
    "C69_connected_or_all_failed",
    "C69_total_resistance",
    "C69_edge_count",
    "C69_succeeds",
    "C69_rejects",
    "C69_small_or_loop_refuted",
    "C69_no_attempt_refuted",
    "C69_matrix_refuted",
    "C69_unbiased"
   ],
   "note": ""
  },
  {
   "property": "C70",
   "status": "proved",
   "theorems": [
    "C70_evaluate_sum_is_concatenation",
    "C70_getitem_index",
    "C70_getitem_out_of_range",
    "C70_getitem_slice",
    "C70_getitem_any_slice",
    "C70_split_and_add",
    "C70_filter_sum_is_concatenation",
    "C70_construct",
    "C70_index_keeps_the_graph",
    "C70_add",
    "C70_add_result",
    "C70_add_mixed_containers_refuted",
    "C70_add_something_else_refused",
    "C70_call",
    "C70_add_retargets",
    "C70_toarray_is_the_matrix_of_matmul"
   ],
   "note": ""
  },
  {
   "property": "C71",
   "status": "proved",
   "theorems": [
    "C71_rescale_center",
    "C71_empty_rejected"
   ],
   "note": ""
  },
  {
   "property": "C72",
   "status": "proved",
   "theorems": [
    "C72_kernel",
    "C72_zero_energy"
   ],
   "note": ""
  },
  {
   "property": "C73",
   "status": "proved",
   "theorems": [
    "C73_keywords",
    "C73_lap_type",
    "C73_coords",
    "C73_plotting",
    "C73_adjacency",
    "C73_grid2dimgpatches_drops_lap_type_refuted",
    "C73_fixed_keywords_refuted",
    "C73_parent_arguments"
   ],
   "note": ""
  },
  {
   "property": "C74",
   "status": "proved",
   "theorems": [
    "C74_tree_multiresolution_refuted",
    "C74_prox_tv_refuted",
    "C74_lanczos_op_refuted"
   ],
   "note": ""
  },
  {
   "property": "C75",
   "status": "proved",
   "theorems": [
    "C75_sensor",
    "C75_distributed",
    "C75_rejected",
    "C75_succeeds",
    "C75_perfect_square_rejected_refuted"
   ],
   "note": ""
  },
  {
   "property": "C76",
   "status": "proved",
   "theorems": [
    "C76_cube2",
    "C76_cube3",
    "C76_cube_rejected",
    "C76_cube_succeeds",
    "C76_sphere",
    "C76_sphere_rejected",
    "C76_sphere_succeeds",
    "C76_radius_ignored_refuted",
    "C76_cube_drops_points_refuted"
   ],
   "note": ""
  },
  {
   "property": "C77",
   "status": "proved",
   "theorems": [
    "C77_synthesized",
    "C77_standard",
    "C77_rejected",
    "C77_succeeds",
    "C77_seeded_moons_are_copies_refuted",
    "C77_unseeded_moons_are_independent"
   ],
   "note": ""
  },
  {
   "property": "C78",
   "status": "proved",
   "theorems": [
    "C78_roll_graph",
    "C78_roll_radius",
    "C78_roll_coords",
    "C78_roll_spiral",
    "C78_roll_outcome",
    "C78_david",
    "C78_david_complete_refuted"
   ],
   "note": ""
  },
  {
   "property": "C79",
   "status": "proved",
   "theorems": [
    "C79_patches",
    "C79_succeeds",
    "C79_rejected",
    "C79_aggregate",
    "C79_default",
    "C79_single_column_rejected_refuted",
    "C79_grid_succeeds"
   ],
   "note": ""
  },
  {
   "property": "C80",
   "status": "proved",
   "theorems": [
    "C80_meyer",
    "C80_simple_tight",
    "C80_single_filter_banks_cannot_be_evaluated",
    "C80_itersine",
    "C80_half_cosine",
    "C80_held_simoncelli_papadakis_regular",
    "C80_heat",
    "C80_mexican_hat",
    "C80_abspline",
    "C80_expwin",
    "C80_rectangular_refuted",
    "C80_wave",
    "C80_gabor"
   ],
   "note": ""
  },
  {
   "property": "C81",
   "status": "proved",
   "theorems": [
    "C81_minnesota_file",
    "C81_minnesota_file_raw",
    "C81_airfoil_file",
    "C81_logo_file",
    "C81_airfoil_accepts",
    "C81_airfoil",
    "C81_airfoil_simple",
    "C81_minnesota",
    "C81_minnesota_raw",
    "C81_minnesota_too_small",
    "C81_minnesota_connected_iff",
    "C81_logo",
    "C81_david_file",
    "C81_bunny"
   ],
   "note": ""
  },
  {
   "property": "C82",
   "status": "proved",
   "theorems": [
    "C82_every_graph_has_a_fourier_basis",
    "C82_basis_can_always_be_computed",
    "C82_eigenvalues_are_unique",
    "C82_filtering_does_not_depend_on_the_basis",
    "C82_trace",
    "C82_zero_eigenvalues_count_the_components",
    "C82_vertex_numbering_is_irrelevant"
   ],
   "note": ""
  },
  {
   "property": "C83",
   "status": "proved",
   "theorems": [
    "C83_path_gft_is_the_dct",
    "C83_ring_laplacian_is_diagonalized_by_the_dft",
    "C83_ring_gft_is_the_dft",
    "C83_grid_gft_is_a_kronecker_product",
    "C83_torus_gft_is_a_kronecker_product"
   ],
   "note": ""
  },
  {
   "property": "C84",
   "status": "proved",
   "theorems": [
    "C84_graph_text",
    "C84_title_is_short",
    "C84_small_limits_ignored_refuted",
    "C84_repr_never_fails",
    "C84_block_model_from_matrix_refuted",
    "C84_grid_patches",
    "C84_filter_text",
    "C84_filter_repr_never_fails",
    "C84_what_a_filter_says"
   ],
   "note": ""
  },
  {
   "property": "C85",
   "status": "proved",
   "theorems": [
    "C85_chebyshev_analysis_is_local",
    "C85_chebyshev_synthesis_is_local",
    "C85_matmul_is_local",
    "C85_operators_never_read_the_basis",
    "C85_atoms_have_bounded_support",
    "C85_components_do_not_mix"
   ],
   "note": ""
  },
  {
   "property": "C86",
   "status": "proved",
   "theorems": [
    "C86_heat_averages",
    "C86_heat_reaches_every_vertex",
    "C86_heat_smooths",
    "C86_heat_decays_to_the_mean",
    "C86_heat_flattens"
   ],
   "note": ""
  },
  {
   "property": "C87",
   "status": "proved",
   "theorems": [
    "C87_denoising_is_a_low_pass_filter",
    "C87_small_and_large_tau",
    "C87_tau_trades_fidelity_for_smoothness",
    "C87_order_is_preserved"
   ],
   "note": ""
  },
  {
   "property": "C88",
   "status": "proved",
   "theorems": [
    "C88_eigenvalues_increase_with_the_weights",
    "C88_one_edge_interlaces",
    "C88_resistance_decreases_with_the_weights",
    "C88_scaling_the_weights",
    "C88_filtering_does_not_depend_on_the_unit",
    "C88_heat_does_not_depend_on_the_unit"
   ],
   "note": ""
  },
  {
   "property": "C89",
   "status": "proved",
   "theorems": [
    "C89_close_all",
    "C89_one_figure_per_plot",
    "C89_graph_drawn",
    "C89_line_drawn",
    "C89_line_without_signal_refuted",
    "C89_line_indices_refuted",
    "C89_filter_drawn",
    "C89_tight_sum_is_flat"
   ],
   "note": ""
  },
  {
   "property": "C90",
   "status": "proved",
   "theorems": [
    "C90_frozen_and_current_attributes",
    "C90_assignment_is_rejected",
    "C90_unmodified_graph_answers_from_W",
    "C90_unmodified_graph_laplacian",
    "C90_A_is_a_snapshot",
    "C90_degree_is_a_snapshot",
    "C90_connectedness_is_a_snapshot",
    "C90_laplacian_after_writes",
    "C90_rows_after_writes",
    "C90_edge_list_after_writes",
    "C90_laplacian_after_writes_refuted"
   ],
   "note": ""
  },
  {
   "property": "C91",
   "status": "proved",
   "theorems": [
    "C91_smallest_of_four",
    "C91_tight_is_lmax",
    "C91_normalized_iff",
    "C91_normalized_connected_iff",
    "C91_normalized_bipartite",
    "C91_full_graph",
    "C91_semiregular_bipartite",
    "C91_regular_bipartite",
    "C91_degree_bound_iff",
    "C91_normalized_bipartite_only_refuted"
   ],
   "note": ""
  },
  {
   "property": "C92",
   "status": "proved",
   "theorems": [
    "C92_any_laplacian_error",
    "C92_any_graph_accepted",
    "C92_any_graph_double_precision_accepted",
    "C92_normalized_error",
    "C92_normalized_accepted",
    "C92_double_precision_normalized_accepted",
    "C92_normalized_not_symmetric_refuted",
    "C92_normalized_loops_refuted",
    "C92_symmetrize_is_exactly_symmetric",
    "C92_laplacian_is_exactly_symmetric",
    "C92_laplacian_error",
    "C92_fourier_basis_accepted",
    "C92_double_precision_accepted",
    "C92_integer_weights_are_exact",
    "C92_mixed_weights_refuted",
    "C92_lanczos_absolute_tolerance_refuted",
    "C92_symmetrize_is_accurate",
    "C92_symmetrize_double"
   ],
   "note": ""
  },
  {
   "property": "C93",
   "status": "proved",
   "theorems": [
    "C93_filtering_with_an_inexact_basis",
    "C93_round_trip_with_an_inexact_basis",
    "C93_filtering_is_stable",
    "C93_spectrum_is_stable",
    "C93_close_weights",
    "C93_heat_is_stable",
    "C93_heat_is_stable_exact_lmax",
    "C93_filtering_with_a_rounded_laplacian",
    "C93_rectangular_refuted"
   ],
   "note": ""
  },
  {
   "property": "C94",
   "status": "proved",
   "theorems": [
    "C94_full_graph",
    "C94_star",
    "C94_regular_graph",
    "C94_normalized_full_graph",
    "C94_normalized_ring",
    "C94_bipartite_spectrum"
   ],
   "note": ""
  },
  {
   "property": "C95",
   "status": "proved",
   "theorems": [
    "C95_frame_operator",
    "C95_approximate_reconstruction"
   ],
   "note": ""
  },
  {
   "property": "C96",
   "status": "proved",
   "theorems": [
    "C96_laplacian",
    "C96_row_sums",
    "C96_constants_in_the_kernel",
    "C96_integer_weights_refuted",
    "C96_average_of_a_symmetric_matrix",
    "C96_average_of_a_boolean_matrix"
   ],
   "note": ""
  },
  {
   "property": "C97",
   "status": "proved",
   "theorems": [
    "C97_live_banks_follow_the_graph",
    "C97_other_banks_are_settled_when_built",
    "C97_building_and_evaluating_now",
    "C97_normalized_heat_keeps_its_norms",
    "C97_normalized_heat_is_built_from_the_spectrum",
    "C97_live_bank_raises_without_lmax",
    "C97_type_change_breaks_live_banks_refuted",
    "C97_exact_filtering_with_a_live_bank",
    "C97_complement_pairs_stay_tight",
    "C97_default_filtering_with_a_live_bank",
    "C97_filtering_with_a_settled_bank",
    "C97_concatenated_banks",
    "C97_indexed_banks",
    "C97_settled_bank_after_type_change_refuted",
    "C97_retargeted_bank_reads_its_first_graph_refuted",
    "C97_gabor_follows_the_graph",
    "C97_constructors_that_read_nothing",
    "C97_gabor_needs_the_whole_basis",
    "C97_modulation_remembers",
    "C97_modulation_is_stale_refuted"
   ],
   "note": ""
  },
  {
   "property": "C98",
   "status": "proved",
   "theorems": [
    "C98_predictions_are_weighted_averages",
    "C98_predictions_are_stable",
    "C98_denoising_is_stable"
   ],
   "note": ""
  },
  {
   "property": "C99",
   "status": "proved",
   "theorems": [
    "C99_coherence_of_the_stored_basis",
    "C99_transform_bounds",
    "C99_uncertainty_principle",
    "C99_atoms",
    "C99_coherence_one_means_an_isolated_vertex",
    "C99_connected_graphs",
    "C99_star",
    "C99_path",
    "C99_there_is_a_coherence",
    "C99_coherence_depends_on_the_solver_refuted"
   ],
   "note": ""
  },
  {
   "property": "C100",
   "status": "proved",
   "theorems": [
    "C100_columns_are_the_smoothest_signals",
    "C100_total_smoothness",
    "C100_eigenmaps_have_the_shortest_edges",
    "C100_truncation",
    "C100_ideal_low_pass"
   ],
   "note": ""
  },
  {
   "property": "C101",
   "status": "proved",
   "theorems": [
    "C101_filters_respect_symmetries",
    "C101_symmetric_signals_stay_symmetric",
    "C101_localized_kernels_move",
    "C101_spectral_energy_is_invariant",
    "C101_predictions_respect_symmetries",
    "C101_ring_symmetries",
    "C101_torus_symmetries",
    "C101_path_symmetry",
    "C101_grid_symmetries",
    "C101_full_symmetries",
    "C101_star_symmetries",
    "C101_ring_filtering_is_a_circular_convolution",
    "C101_torus_filtering_is_a_circular_convolution",
    "C101_heat_on_a_grid_is_separable",
    "C101_heat_on_a_torus_is_separable"
   ],
   "note": ""
  },
  {
   "property": "C102",
   "status": "proved",
   "theorems": [
    "C102_spectral_calls_change_no_other_attribute",
    "C102_unwritten_objects_match_the_caches",
    "C102_unwritten_objects_are_coherent",
    "C102_basis_ignores_writes",
    "C102_D_ignores_writes",
    "C102_lmax_ignores_writes",
    "C102_another_type_recomputes",
    "C102_changed_edges_break_every_estimate",
    "C102_D_after_writes",
    "C102_bound_after_writes",
    "C102_stale_spectrum_refuted",
    "C102_bound_after_writes_refuted"
   ],
   "note": ""
  },
  {
   "property": "C103",
   "status": "proved",
   "theorems": [
    "C103_energy_of_a_set",
    "C103_cuts_against_eigenvalues",
    "C103_normalized_cuts_against_eigenvalues",
    "C103_a_fourier_mode_cuts_well",
    "C103_a_normalized_mode_cuts_well",
    "C103_connected_graphs_have_a_gap",
    "C103_distances_against_distinct_eigenvalues"
   ],
   "note": ""
  },
  {
   "property": "C104",
   "status": "proved",
   "theorems": [
    "C104_kron_reduction_interlaces",
    "C104_subgraph_eigenvalues",
    "C104_disconnecting_sets",
    "C104_a_closed_part_filters_alone",
    "C104_spectrum_of_the_components"
   ],
   "note": ""
  },
  {
   "property": "C105",
   "status": "proved",
   "theorems": [
    "C105_sides_of_the_second_mode_are_connected",
    "C105_clusters_of_the_second_mode"
   ],
   "note": ""
  },
  {
   "property": "C106",
   "status": "proved",
   "theorems": [
    "C106_interpolation_error",
    "C106_noisy_measurements",
    "C106_smooth_signals_are_determined",
    "C106_too_few_samples",
    "C106_more_samples",
    "C106_when_samples_suffice",
    "C106_noisy_constant",
    "C106_every_vertex_next_to_samples",
    "C106_samples_within_hops"
   ],
   "note": ""
  },
  {
   "property": "C107",
   "status": "proved",
   "theorems": [
    "C107_weights_determine_the_graph",
    "C107_rebuild",
    "C107_subgraph_of_a_subgraph",
    "C107_all_the_vertices",
    "C107_reordering_is_undone",
    "C107_connected_graphs_are_one_component",
    "C107_components_of_a_component",
    "C107_components_add_up"
   ],
   "note": ""
  },
  {
   "property": "C108",
   "status": "proved",
   "theorems": [
    "C108_every_edge_signal_splits",
    "C108_gradients_are_orthogonal_to_circulations",
    "C108_parts_are_unique",
    "C108_pythagoras",
    "C108_nearest_gradient",
    "C108_potentials",
    "C108_gradients_of_the_fourier_modes",
    "C108_divergences_sum_to_zero",
    "C108_poisson",
    "C108_circulations_exist",
    "C108_circulations_are_dependent",
    "C108_trees",
    "C108_paths",
    "C108_rings"
   ],
   "note": ""
  },
  {
   "property": "C109",
   "status": "proved",
   "theorems": [
    "C109_energy_of_a_difference",
    "C109_energy_of_a_flow",
    "C109_bridges",
    "C109_trees",
    "C109_edges_and_walks",
    "C109_spectral_formula",
    "C109_spectral_bounds",
    "C109_kirchhoff_index",
    "C109_full",
    "C109_path",
    "C109_resistances_exist"
   ],
   "note": ""
  },
  {
   "property": "C110",
   "status": "proved",
   "theorems": [
    "C110_degrees",
    "C110_pairs_of_vertices",
    "C110_independent_sets",
    "C110_colourings",
    "C110_separators",
    "C110_vertex_connectivity",
    "C110_mixing"
   ],
   "note": ""
  },
  {
   "property": "C111",
   "status": "proved",
   "theorems": [
    "C111_kron_reduction",
    "C111_isolated_parts"
   ],
   "note": ""
  },
  {
   "property": "C112",
   "status": "proved",
   "theorems": [
    "C112_tau_to_tau",
    "C112_large_tau",
    "C112_limits"
   ],
   "note": ""
  },
  {
   "property": "C113",
   "status": "proved",
   "theorems": [
    "C113_predicted_labels_change_nothing",
    "C113_leave_one_out"
   ],
   "note": ""
  },
  {
   "property": "C114",
   "status": "proved",
   "theorems": [
    "C114_classes_rename_and_merge",
    "C114_one_class_at_a_time",
    "C114_certain_and_impossible_classes"
   ],
   "note": ""
  },
  {
   "property": "C115",
   "status": "proved",
   "theorems": [
    "C115_the_constraint_is_not_active",
    "C115_the_solver_converges_to_the_logits",
    "C115_same_predictions_in_the_limit"
   ],
   "note": ""
  }
 ]
}