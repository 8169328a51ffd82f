{
 "claims": [
  {
   "property": "C01",
   "status": "proved",
   "theorems": [
    "C01_index_round_trip"
   ],
   "note": "exact arithmetic; int32 cast modelled as exact"
  },
  {
   "property": "C02",
   "status": "proved",
   "theorems": [
    "C02_all_points_in_index_order"
   ],
   "note": "exact arithmetic"
  },
  {
   "property": "C03",
   "status": "proved",
   "theorems": [
    "C03_nearest_grid_point",
    "C03_ties_to_even"
   ],
   "note": "exact arithmetic"
  },
  {
   "property": "C04",
   "status": "proved",
   "theorems": [
    "C04_containing_cell"
   ],
   "note": "exact arithmetic"
  },
  {
   "property": "C05",
   "status": "proved",
   "theorems": [
    "C05_rectangle_conversions_agree"
   ],
   "note": "exact arithmetic"
  },
  {
   "property": "C06",
   "status": "proved",
   "theorems": [
    "C06_construction"
   ],
   "note": ""
  },
  {
   "property": "C07",
   "status": "proved",
   "theorems": [
    "C07_piecewise_constant",
    "C07_vertices_exact"
   ],
   "note": ""
  },
  {
   "property": "C08",
   "status": "proved",
   "theorems": [
    "C08_construction",
    "C08_simplex_of_the_cell"
   ],
   "note": "exact arithmetic; np.linalg.inv and scipy Delaunay are quantified over with contracts (TriSpec.good_inv, good_dl), instances proved for every number of axes"
  },
  {
   "property": "C09",
   "status": "proved",
   "theorems": [
    "C09_barycentric_weights",
    "C09_affine_reproduction"
   ],
   "note": "exact arithmetic; np.linalg.inv and scipy Delaunay are quantified over with contracts (TriSpec.good_inv, good_dl), instances proved for every number of axes"
  },
  {
   "property": "C10",
   "status": "proved",
   "theorems": [
    "C10_vertex_values"
   ],
   "note": "exact arithmetic; np.linalg.inv and scipy Delaunay are quantified over with contracts (TriSpec.good_inv, good_dl), instances proved for every number of axes; needs sum_j 2 eps/spacing_j < 1"
  },
  {
   "property": "C100",
   "status": "proved",
   "theorems": [
    "C100_pairs",
    "C100_marked_pairs",
    "C100_independent_refuted"
   ],
   "note": "exact arithmetic; dynamics return a mean and an error bound per pair"
  },
  {
   "property": "C101",
   "status": "proved",
   "theorems": [
    "C101_value_bounds",
    "C101_car_values",
    "C101_returns",
    "C101_trajectory",
    "C101_underpowered",
    "C101_valley",
    "C101_motion",
    "C101_converged",
    "C101_terminal_refuted",
    "C101_arrival_refuted"
   ],
   "note": "exact arithmetic"
  },
  {
   "property": "C102",
   "status": "proved",
   "theorems": [
    "C102_piecewise_constant",
    "C102_concatenate",
    "C102_trajectory_width",
    "C102_response_width",
    "C102_initial_width",
    "C102_no_arrays",
    "C102_negative_samples",
    "C102_copy_parameters",
    "C102_copied_sum",
    "C102_polynomial_matrix",
    "C102_polynomial_rate",
    "C102_exact_dynamics",
    "C102_polynomial_level",
    "C102_lqr_singular",
    "C102_sample_gp_outputs",
    "C102_trajectory_broadcast",
    "C102_triangulation_values",
    "C102_wrong_width_stays",
    "C102_region_node",
    "C102_region_index",
    "C102_samples_per_variable"
   ],
   "note": "exceptions of numpy and TensorFlow as in the models of the calls"
  },
  {
   "property": "C103",
   "status": "proved",
   "theorems": [
    "C103_constructor_refuted",
    "C103_constructor",
    "C103_evaluation",
    "C103_bounds",
    "C103_default_width",
    "C103_errors",
    "C103_width_refuted"
   ],
   "note": "exact arithmetic; variance a number"
  },
  {
   "property": "C104",
   "status": "proved",
   "theorems": [
    "C104_colours",
    "C104_bands",
    "C104_labels",
    "C104_labels_refuted",
    "C104_lines",
    "C104_lines_refuted",
    "C104_first_call"
   ],
   "note": "Lipschitz constants given as numbers; matplotlib draws what it is given"
  },
  {
   "property": "C105",
   "status": "proved",
   "theorems": [
    "C105_rejected",
    "C105_not_adaptive",
    "C105_whole_number",
    "C105_condition",
    "C105_larger",
    "C105_strict_refuted"
   ],
   "note": "exact arithmetic; conversion rule of the TensorFlow versions the repository requires"
  },
  {
   "property": "C106",
   "status": "proved",
   "theorems": [
    "C106_safe_set",
    "C106_like_finer_tau",
    "C106_more_refinement",
    "C106_adaptive_larger",
    "C106_more_refinement_refuted",
    "C106_batch_size_refuted",
    "C106_invariance_refuted"
   ],
   "note": "can_shrink = True; exact arithmetic; conversion rule of the TensorFlow versions the repository requires"
  },
  {
   "property": "C107",
   "status": "proved",
   "theorems": [
    "C107_current_values",
    "C107_old_values",
    "C107_old_values_refuted"
   ],
   "note": "programs of LoopModel; constant Lipschitz constants and no refinement, as in C22"
  },
  {
   "property": "C108",
   "status": "proved",
   "theorems": [
    "C108_measurements",
    "C108_fractions",
    "C108_levels",
    "C108_levels_refuted"
   ],
   "note": "certificates of every update are arbitrary"
  },
  {
   "property": "C109",
   "status": "proved",
   "theorems": [
    "C109_histories",
    "C109_points",
    "C109_parameters",
    "C109_slope",
    "C109_derivative",
    "C109_faces_refuted"
   ],
   "note": "exact arithmetic; the differentiation rules of the TensorFlow operations are part of the model"
  },
  {
   "property": "C11",
   "status": "proved",
   "theorems": [
    "C11_convex_weights",
    "C11_projected_bounds"
   ],
   "note": "exact arithmetic; np.linalg.inv and scipy Delaunay are quantified over with contracts (TriSpec.good_inv, good_dl), instances proved for every number of axes"
  },
  {
   "property": "C110",
   "status": "proved",
   "theorems": [
    "C110_sharing",
    "C110_parameters",
    "C110_own_variables",
    "C110_new_objects",
    "C110_disjoint",
    "C110_saturated_network",
    "C110_variable_scope_refuted",
    "C110_dots_refuted"
   ],
   "note": "TensorFlow's rules for names, scopes and templates are part of the model"
  },
  {
   "property": "C111",
   "status": "proved",
   "theorems": [
    "C111_gradients",
    "C111_points",
    "C111_segment",
    "C111_lipschitz_refuted"
   ],
   "note": "exact arithmetic; TensorFlow's rules for differentiating the operations are part of the model"
  },
  {
   "property": "C112",
   "status": "proved",
   "theorems": [
    "C112_gradients",
    "C112_relu_refuted"
   ],
   "note": "exact arithmetic; TensorFlow's rules for differentiating the operations are part of the model"
  },
  {
   "property": "C113",
   "status": "proved",
   "theorems": [
    "C113_network_gradients",
    "C113_network_step",
    "C113_triangulation_gradients",
    "C113_triangulation_step",
    "C113_faces_refuted"
   ],
   "note": "without a Lyapunov object and without saturation of the policy; exact arithmetic; TensorFlow's rules for differentiating the operations are part of the model"
  },
  {
   "property": "C114",
   "status": "proved",
   "theorems": [
    "C114_gradients",
    "C114_objective_gradients",
    "C114_step",
    "C114_pre_training",
    "C114_normalization_refuted"
   ],
   "note": "exact arithmetic; TensorFlow's rules for differentiating the operations are part of the model; the learning rate for which a step helps is not computed"
  },
  {
   "property": "C115",
   "status": "proved",
   "theorems": [
    "C115_actor_gradients",
    "C115_actor_step",
    "C115_critic",
    "C115_supervised"
   ],
   "note": "exact arithmetic; TensorFlow's rules for differentiating the operations are part of the model; the learning rate for which a step helps is not computed"
  },
  {
   "property": "C116",
   "status": "proved",
   "theorems": [
    "C116_pendulum",
    "C116_cartpole",
    "C116_pendulum_batch",
    "C116_cartpole_batch",
    "C116_pendulum_actor",
    "C116_cartpole_actor"
   ],
   "note": "exact arithmetic; TensorFlow's rules for differentiating the operations are part of the model"
  },
  {
   "property": "C117",
   "status": "proved",
   "theorems": [
    "C117_gradients",
    "C117_step",
    "C117_kept",
    "C117_stuck",
    "C117_mountain_car",
    "C117_bounds_refuted"
   ],
   "note": "exact arithmetic; the bounds are two numbers as in the example; TensorFlow's rules for differentiating the operations are part of the model"
  },
  {
   "property": "C118",
   "status": "proved",
   "theorems": [
    "C118_objective",
    "C118_gradients",
    "C118_step",
    "C118_relevant_refuted"
   ],
   "note": "exact arithmetic; the derivatives of the dynamics, the error bounds and policy.lipschitz() are assumptions of the theorems (the last is proved in C119; those of the network and the triangulation are not assumed); TensorFlow's rules for differentiating the operations are part of the model"
  },
  {
   "property": "C119",
   "status": "proved",
   "theorems": [
    "C119_gradients",
    "C119_subgradient",
    "C119_update",
    "C119_ties_refuted"
   ],
   "note": "exact arithmetic; that tf.svd returns a singular value decomposition is an assumption of the theorems; TensorFlow's rules for differentiating the operations are part of the model"
  },
  {
   "property": "C12",
   "status": "proved",
   "theorems": [
    "C12_parameter_derivative"
   ],
   "note": "exact arithmetic; np.linalg.inv and scipy Delaunay are quantified over with contracts (TriSpec.good_inv, good_dl), instances proved for every number of axes"
  },
  {
   "property": "C120",
   "status": "proved",
   "theorems": [
    "C120_rounded_value_iteration",
    "C120_convergence_refuted",
    "C120_nearly_best_action",
    "C120_best_action_refuted"
   ],
   "note": "no overflow; the inverse of the 1 by 1 hyperplane matrix is accurate to 2^-50; rewards and dynamics return the computed numbers; in two dimensions see C68"
  },
  {
   "property": "C121",
   "status": "proved",
   "theorems": [
    "C121_few_uncertain_samples",
    "C121_finitely_many",
    "C121_system_known",
    "C121_white_noise_refuted"
   ],
   "note": "exact arithmetic; policy, beta and kernels do not change; every sample is measured at the sampled pair; uses the models of C28, C71, C89 and C90"
  },
  {
   "property": "C122",
   "status": "proved",
   "theorems": [
    "C122_bounds_vary",
    "C122_near_measurements",
    "C122_measured_region_is_safe",
    "C122_exploration_expands"
   ],
   "note": "exact arithmetic; policy, beta and kernels do not change; no refinement (not adaptive, or max_refinement at most 1); uses the models of C15, C71, C90 and C121"
  },
  {
   "property": "C123",
   "status": "proved",
   "theorems": [
    "C123_kernel_distance",
    "C123_bounds_lipschitz",
    "C123_with_jitter",
    "C123_near_measurements",
    "C123_net",
    "C123_unbounded_refuted"
   ],
   "note": "exact arithmetic; the kernels are gpflow's, as documented (C91); no refinement in C123_net; uses the models of C15, C71, C90, C91 and C122"
  },
  {
   "property": "C124",
   "status": "proved",
   "theorems": [
    "C124_true_function",
    "C124_predictions",
    "C124_dynamics",
    "C124_closed_loop"
   ],
   "note": "exact arithmetic; the kernels are gpflow's, as documented (C91); uses the models of C90, C91, C122 and C123"
  },
  {
   "property": "C13",
   "status": "proved",
   "theorems": [
    "C13_gradient_is_slope",
    "C13_gradient_derivative_point_major",
    "C13_affine_gradient",
    "C13_docstring_reshape_refuted"
   ],
   "note": "exact arithmetic; np.linalg.inv and scipy Delaunay are quantified over with contracts (TriSpec.good_inv, good_dl), instances proved for every number of axes; the reshape of the docstring is refuted as the property says"
  },
  {
   "property": "C14",
   "status": "proved",
   "theorems": [
    "C14_tensorflow_equals_numpy"
   ],
   "note": "no contracts needed; histories of assignments, project flag changes and gradient calls"
  },
  {
   "property": "C15",
   "status": "proved",
   "theorems": [
    "C15_certified_prefix",
    "C15_sublevel_set",
    "C15_batch_size_and_past_irrelevant"
   ],
   "note": "certificate outcomes are row-wise functions of the state index; np.argsort is any sorting permutation"
  },
  {
   "property": "C16",
   "status": "proved",
   "theorems": [
    "C16_initial_set_kept"
   ],
   "note": "certificate outcomes are row-wise functions of the state index; np.argsort is any sorting permutation"
  },
  {
   "property": "C17",
   "status": "proved",
   "theorems": [
    "C17_below_level_is_safe",
    "C17_level_is_last_certified",
    "C17_level_all_certified",
    "C17_level_nothing_certified",
    "C17_level_batch_independent_refuted",
    "C17_unconditional_refuted"
   ],
   "note": "certificate outcomes are row-wise functions of the state index; np.argsort is any sorting permutation"
  },
  {
   "property": "C18",
   "status": "proved",
   "theorems": [
    "C18_no_shrink_same_order",
    "C18_no_shrink_history",
    "C18_values_changed_refuted"
   ],
   "note": "certificate outcomes are row-wise functions of the state index; np.argsort is any sorting permutation"
  },
  {
   "property": "C19",
   "status": "proved",
   "theorems": [
    "C19_refinement_matches"
   ],
   "note": "certificate outcomes are row-wise functions of the state index; np.argsort is any sorting permutation"
  },
  {
   "property": "C20",
   "status": "proved",
   "theorems": [
    "C20_certified_neighbourhood",
    "C20_local_constants",
    "C20_coordinate_constants",
    "C20_local_around_state_only_refuted"
   ],
   "note": "exact arithmetic; dynamics, policy and Lyapunov function are arbitrary functions evaluated row-wise; tau/n_req is the real quotient"
  },
  {
   "property": "C21",
   "status": "proved",
   "theorems": [
    "C21_bound_covers_all_successors"
   ],
   "note": "exact arithmetic; dynamics, policy and Lyapunov function are arbitrary functions evaluated row-wise; tau/n_req is the real quotient"
  },
  {
   "property": "C22",
   "status": "proved",
   "theorems": [
    "C22_forward_invariance",
    "C22_reaches_initial_set",
    "C22_full_level_set_refuted"
   ],
   "note": "exact arithmetic; dynamics, policy and Lyapunov function are arbitrary functions evaluated row-wise; tau/n_req is the real quotient"
  },
  {
   "property": "C23",
   "status": "proved",
   "theorems": [
    "C23_fewer_certificates_smaller_set",
    "C23_fewer_certificates_lower_level",
    "C23_level_monotone_refuted",
    "C23_conservative_inputs"
   ],
   "note": "exact arithmetic; dynamics, policy and Lyapunov function are arbitrary functions evaluated row-wise; tau/n_req is the real quotient"
  },
  {
   "property": "C24",
   "status": "proved",
   "theorems": [
    "C24_refined_condition_at_centre",
    "C24_least_refinement",
    "C24_holds_at_refined_points_refuted",
    "C24_cell_decrease_refuted"
   ],
   "note": "exact arithmetic; dynamics, policy and Lyapunov function are arbitrary functions evaluated row-wise; tau/n_req is the real quotient"
  },
  {
   "property": "C25",
   "status": "proved",
   "theorems": [
    "C25_is_safe_nearest",
    "C25_initial_cells_safe"
   ],
   "note": "exact arithmetic; dynamics, policy and Lyapunov function are arbitrary functions evaluated row-wise; tau/n_req is the real quotient"
  },
  {
   "property": "C26",
   "status": "proved",
   "theorems": [
    "C26_smallest_boundary_value"
   ],
   "note": "exact arithmetic; every function on the grid points, every dimension"
  },
  {
   "property": "C27",
   "status": "proved",
   "theorems": [
    "C27_region",
    "C27_connected_sublevel_sets",
    "C27_python3",
    "C27_neighbours_larger_refuted",
    "C27_lower_boundary_start_refuted"
   ],
   "note": "heap modelled as extraction of the least (value, counter) entry; Python 2 semantics of tiebreaker.next()"
  },
  {
   "property": "C28",
   "status": "proved",
   "theorems": [
    "C28_most_uncertain_certified",
    "C28_tested_states",
    "C28_certified_maps_inside",
    "C28_action_limits",
    "C28_given_actions",
    "C28_given_actions_dimensions",
    "C28_exact_dynamics",
    "C28_always_certified_refuted"
   ],
   "note": "random draws are an argument; the cached graph is the functions it was built from"
  },
  {
   "property": "C29",
   "status": "proved",
   "theorems": [
    "C29_all_pairs",
    "C29_clipped_pairs",
    "C29_single_columns"
   ],
   "note": "real arithmetic; byte order of unique_rows is any total order of the rows"
  },
  {
   "property": "C30",
   "status": "proved",
   "theorems": [
    "C30_value_iteration_converges",
    "C30_successors_inside",
    "C30_extrapolation_refuted"
   ],
   "note": "existence, uniqueness and geometric convergence; divergence with extrapolation refuted by witness"
  },
  {
   "property": "C31",
   "status": "proved",
   "theorems": [
    "C31_solves_bellman",
    "C31_optimum_exists",
    "C31_failure_is_reported",
    "C31_gamma_one_refuted"
   ],
   "note": "cvxpy is an argument with a contract; a solver meeting it exists (ideal_solver)"
  },
  {
   "property": "C32",
   "status": "proved",
   "theorems": [
    "C32_best_allowed_action",
    "C32_succeeds",
    "C32_no_options",
    "C32_policy_takes_the_actions",
    "C32_unsafe_never_selected_refuted"
   ],
   "note": ""
  },
  {
   "property": "C33",
   "status": "proved",
   "theorems": [
    "C33_greedy_improves"
   ],
   "note": ""
  },
  {
   "property": "C34",
   "status": "proved",
   "theorems": [
    "C34_bellmann_error",
    "C34_zero_iff_bellman",
    "C34_semi_gradient"
   ],
   "note": ""
  },
  {
   "property": "C35",
   "status": "proved",
   "theorems": [
    "C35_mean_dynamics",
    "C35_lyapunov_penalty",
    "C35_zero_error_exact",
    "C35_deterministic_lyapunov_refuted"
   ],
   "note": ""
  },
  {
   "property": "C36",
   "status": "proved",
   "theorems": [
    "C36_batches",
    "C36_nonpositive_batch_size"
   ],
   "note": "arrays whose rows have at least one entry"
  },
  {
   "property": "C37",
   "status": "proved",
   "theorems": [
    "C37_no_arrays",
    "C37_combinations",
    "C37_linearly_spaced"
   ],
   "note": "n-dimensional arrays as index functions; exact arithmetic for linspace"
  },
  {
   "property": "C38",
   "status": "proved",
   "theorems": [
    "C38_unique_rows",
    "C38_unique_rows_float64",
    "C38_numerically_distinct_refuted"
   ],
   "note": "np.unique modelled as stable sort of the byte strings; binary64 of Flocq for the bits"
  },
  {
   "property": "C39",
   "status": "proved",
   "theorems": [
    "C39_last_write",
    "C39_other_callers",
    "C39_mixed_indices_refuted"
   ],
   "note": "hashable keys with decidable equality; the calling function is an argument"
  },
  {
   "property": "C40",
   "status": "proved",
   "theorems": [
    "C40_trajectory",
    "C40_prefix",
    "C40_no_steps",
    "C40_wrong_width_rejected_refuted"
   ],
   "note": "deterministic dynamics; the graph is the function it evaluates to"
  },
  {
   "property": "C41",
   "status": "proved",
   "theorems": [
    "C41_weight_constraint",
    "C41_unbounded_variables",
    "C41_gradient_clipping",
    "C41_missing_gradient",
    "C41_all_variables_updated_refuted"
   ],
   "note": "optimizer is an arbitrary function of the variables"
  },
  {
   "property": "C42",
   "status": "proved",
   "theorems": [
    "C42_arrays",
    "C42_single",
    "C42_tensors",
    "C42_mismatch",
    "C42_tensors_like_arrays_refuted",
    "C42_single_tensor"
   ],
   "note": "arguments with at most two axes"
  },
  {
   "property": "C43",
   "status": "proved",
   "theorems": [
    "C43_dlqr_cost_to_go",
    "C43_dlqr_optimal",
    "C43_dlqr_every_horizon",
    "C43_dlqr_total_cost",
    "C43_dlqr_lyapunov",
    "C43_dlqr_result",
    "C43_lqr_optimal",
    "C43_lqr_result"
   ],
   "note": ""
  },
  {
   "property": "C44",
   "status": "proved",
   "theorems": [
    "C44_pointwise",
    "C44_numbers",
    "C44_entries",
    "C44_parameters",
    "C44_accepted",
    "C44_several_inputs",
    "C44_commutes_refuted"
   ],
   "note": ""
  },
  {
   "property": "C45",
   "status": "proved",
   "theorems": [
    "C45_products",
    "C45_sums",
    "C45_sums_refuted",
    "C45_saturation",
    "C45_shapes"
   ],
   "note": ""
  },
  {
   "property": "C46",
   "status": "proved",
   "theorems": [
    "C46_saturation",
    "C46_closest",
    "C46_construction"
   ],
   "note": ""
  },
  {
   "property": "C47",
   "status": "proved",
   "theorems": [
    "C47_evaluation",
    "C47_rejects",
    "C47_mean",
    "C47_one_measurement",
    "C47_single_refuted",
    "C47_several_measurements_refuted",
    "C47_one_member_refuted",
    "C47_parameters_refuted"
   ],
   "note": ""
  },
  {
   "property": "C48",
   "status": "proved",
   "theorems": [
    "C48_history",
    "C48_rejected",
    "C48_counts_checked",
    "C48_stuck",
    "C48_atomic_refuted",
    "C48_counts_checked_refuted"
   ],
   "note": ""
  },
  {
   "property": "C49",
   "status": "proved",
   "theorems": [
    "C49_posterior",
    "C49_posterior_exists",
    "C49_scale_and_factor_irrelevant",
    "C49_cache_succeeds",
    "C49_normal_equations"
   ],
   "note": "Exact arithmetic; the Cholesky decomposition is an argument with the contract 'lower triangular factor'."
  },
  {
   "property": "C50",
   "status": "proved",
   "theorems": [
    "C50_variance_bounds",
    "C50_more_data",
    "C50_error_bounds_shrink",
    "C50_nested_intervals_refuted"
   ],
   "note": ""
  },
  {
   "property": "C51",
   "status": "proved",
   "theorems": [
    "C51_quadratic_value",
    "C51_quadratic_gradient",
    "C51_quadratic_expansion",
    "C51_square_required_refuted",
    "C51_linear",
    "C51_linear_inputs",
    "C51_linear_heights",
    "C51_linear_accepted",
    "C51_arrays",
    "C51_single_array_flattened",
    "C51_single_array_refuted"
   ],
   "note": ""
  },
  {
   "property": "C52",
   "status": "proved",
   "theorems": [
    "C52_lipschitz",
    "C52_lipschitz_unit_scale",
    "C52_factor_is_attained",
    "C52_no_variables",
    "C52_no_bias_refuted",
    "C52_output_scale_refuted"
   ],
   "note": "tf.svd is an argument required to return a singular value decomposition of the weights."
  },
  {
   "property": "C53",
   "status": "proved",
   "theorems": [
    "C53_functions",
    "C53_noise",
    "C53_total",
    "C53_one_output",
    "C53_interpolates_prior_sample",
    "C53_prior_mean_refuted",
    "C53_data_refuted"
   ],
   "note": ""
  },
  {
   "property": "C54",
   "status": "proved",
   "theorems": [
    "C54_positive_definite",
    "C54_lower_bound",
    "C54_accepted",
    "C54_total",
    "C54_no_regularisation_refuted",
    "C54_relu_refuted"
   ],
   "note": ""
  },
  {
   "property": "C55",
   "status": "proved",
   "theorems": [
    "C55_inverse",
    "C55_vanderpol_inverse",
    "C55_total",
    "C55_units_pendulum",
    "C55_units_cartpole",
    "C55_units_vanderpol",
    "C55_pendulum_equilibrium",
    "C55_cartpole_equilibrium",
    "C55_vanderpol_equilibrium",
    "C55_pendulum_rate",
    "C55_cartpole_rate",
    "C55_vanderpol_rate",
    "C55_vanderpol_state_only_refuted"
   ],
   "note": ""
  },
  {
   "property": "C56",
   "status": "proved",
   "theorems": [
    "C56_marks",
    "C56_trajectories",
    "C56_longer_horizon",
    "C56_no_horizon",
    "C56_marked_converges_refuted",
    "C56_converging_marked_refuted"
   ],
   "note": ""
  },
  {
   "property": "C57",
   "status": "proved",
   "theorems": [
    "C57_sorted",
    "C57_unsorted",
    "C57_empty",
    "C57_index_refuted"
   ],
   "note": ""
  },
  {
   "property": "C58",
   "status": "proved",
   "theorems": [
    "C58_class_weights",
    "C58_confusion_weights",
    "C58_missing_class_refuted"
   ],
   "note": ""
  },
  {
   "property": "C59",
   "status": "proved",
   "theorems": [
    "C59_derivatives",
    "C59_features",
    "C59_degree4_refuted",
    "C59_degree5_refuted",
    "C59_dim3_refuted",
    "C59_dim1"
   ],
   "note": ""
  },
  {
   "property": "C60",
   "status": "proved",
   "theorems": [
    "C60_maps_inside",
    "C60_undersaturated",
    "C60_padding",
    "C60_one",
    "C60_none_refuted",
    "C60_action_limit_refuted"
   ],
   "note": "The random batch is an argument."
  },
  {
   "property": "C61",
   "status": "proved",
   "theorems": [
    "C61_gradient_by_index",
    "C61_indices_untouched_refuted"
   ],
   "note": "the in-place modification is part of the statement; purity is refuted"
  },
  {
   "property": "C62",
   "status": "proved",
   "theorems": [
    "C62_pendulum",
    "C62_cartpole",
    "C62_cartpole_any_length",
    "C62_cartpole_length_refuted",
    "C62_vanderpol",
    "C62_vanderpol_damping_refuted",
    "C62_pendulum_negative_friction_refuted"
   ],
   "note": ""
  },
  {
   "property": "C63",
   "status": "proved",
   "theorems": [
    "C63_rollout",
    "C63_error_bound",
    "C63_early_stop",
    "C63_close",
    "C63_early_stop_refuted"
   ],
   "note": ""
  },
  {
   "property": "C64",
   "status": "proved",
   "theorems": [
    "C64_response",
    "C64_references",
    "C64_impulse_area",
    "C64_equilibrium"
   ],
   "note": ""
  },
  {
   "property": "C65",
   "status": "proved",
   "theorems": [
    "C65_largest_change",
    "C65_zero",
    "C65_smallest_change",
    "C65_sums",
    "C65_matrix_orders_refuted",
    "C65_sizes",
    "C65_broadcast_refuted"
   ],
   "note": ""
  },
  {
   "property": "C66",
   "status": "proved",
   "theorems": [
    "C66_box",
    "C66_usable",
    "C66_points",
    "C66_sign_refuted"
   ],
   "note": ""
  },
  {
   "property": "C67",
   "status": "proved",
   "theorems": [
    "C67_double_precision_index_round_trip",
    "C67_double_precision_lookup",
    "C67_far_from_origin_refuted"
   ],
   "note": "binary64 rounding (Flocq), overflow not modelled"
  },
  {
   "property": "C68",
   "status": "proved",
   "theorems": [
    "C68_one_dimension_exact",
    "C68_one_dimension_accuracy",
    "C68_two_dimensions_refuted"
   ],
   "note": "binary64 rounding (Flocq), overflow not modelled; scipy's Delaunay and np.linalg.inv are arguments"
  },
  {
   "property": "C69",
   "status": "proved",
   "theorems": [
    "C69_points_listed_and_indexed",
    "C69_equal_refuted"
   ],
   "note": "binary64 rounding (Flocq), overflow not modelled"
  },
  {
   "property": "C70",
   "status": "proved",
   "theorems": [
    "C70_gradient_bounds_slope",
    "C70_gradients_are_bounded",
    "C70_lipschitz",
    "C70_three_axes_refuted",
    "C70_kuhn_fits",
    "C70_every_dimension"
   ],
   "note": "scipy's Delaunay and np.linalg.inv are arguments with the contract in TriSpec; the refutation uses a triangulation of the cube into five tetrahedra (a Delaunay triangulation, since the corners of a cube lie on a sphere)"
  },
  {
   "property": "C71",
   "status": "proved",
   "theorems": [
    "C71_first_update_fixes",
    "C71_first_sample_fixes",
    "C71_reuse_invisible",
    "C71_values",
    "C71_initial_set",
    "C71_current_attributes_refuted"
   ],
   "note": "a graph is modelled as the function it was built from, evaluated with the current variables and data; the discretization is not replaced"
  },
  {
   "property": "C72",
   "status": "proved",
   "theorems": [
    "C72_shrink_forgets",
    "C72_initial_assigned",
    "C72_assigned_without_shrink_refuted"
   ],
   "note": ""
  },
  {
   "property": "C73",
   "status": "proved",
   "theorems": [
    "C73_safe_learning",
    "C73_without_margin_refuted"
   ],
   "note": "the safe set is computed with constant Lipschitz constants and without refinement, as in C22"
  },
  {
   "property": "C74",
   "status": "proved",
   "theorems": [
    "C74_optimal_exists",
    "C74_policy_iteration",
    "C74_value_iteration",
    "C74_greedy_policy",
    "C74_coarser_policy_refuted"
   ],
   "note": "exact arithmetic; the linear program solver is an argument that only claims optima and finds one if there is one; the value function and the policy are triangulations on one grid"
  },
  {
   "property": "C75",
   "status": "proved",
   "theorems": [
    "C75_reuse_invisible",
    "C75_first_improvement_fixes",
    "C75_operations",
    "C75_one_discount_refuted"
   ],
   "note": ""
  },
  {
   "property": "C76",
   "status": "proved",
   "theorems": [
    "C76_decrease",
    "C76_geometric",
    "C76_optimal_value_is_lyapunov_refuted"
   ],
   "note": ""
  },
  {
   "property": "C77",
   "status": "proved",
   "theorems": [
    "C77_half_sum",
    "C77_largest_spacing",
    "C77_largest_spacing_refuted",
    "C77_smallest_spacing",
    "C77_inverse_count_refuted"
   ],
   "note": ""
  },
  {
   "property": "C78",
   "status": "proved",
   "theorems": [
    "C78_closed_loop",
    "C78_policies",
    "C78_largest_entries",
    "C78_largest_entries_refuted"
   ],
   "note": "linear dynamics and linear policies, saturated or not"
  },
  {
   "property": "C79",
   "status": "proved",
   "theorems": [
    "C79_enlarged_gradients",
    "C79_gradients_refuted",
    "C79_error_bound_refuted",
    "C79_error_bound_slack"
   ],
   "note": ""
  },
  {
   "property": "C80",
   "status": "proved",
   "theorems": [
    "C80_strict_decrease_is_certified",
    "C80_level_reaches",
    "C80_fine_enough_grids",
    "C80_grid_with_margin",
    "C80_finer_grid_keeps_safe_refuted"
   ],
   "note": "the certificate and update_safe_set of C15, C17 and C20"
  },
  {
   "property": "C81",
   "status": "proved",
   "theorems": [
    "C81_points_on_level",
    "C81_order",
    "C81_upper_bound",
    "C81_upper_bound_refuted",
    "C81_unsymmetric_refuted",
    "C81_recent_numpy_fails"
   ],
   "note": "the eigenvalue decomposition is an argument that meets the contract eigen"
  },
  {
   "property": "C82",
   "status": "proved",
   "theorems": [
    "C82_same_vertices",
    "C82_numbers",
    "C82_one_axis",
    "C82_numbers_differ"
   ],
   "note": ""
  },
  {
   "property": "C83",
   "status": "proved",
   "theorems": [
    "C83_sum_in_any_order",
    "C83_decrease_error",
    "C83_check_with_slack",
    "C83_some_evaluation",
    "C83_fixed_points_pass_the_check",
    "C83_check_without_slack_refuted"
   ],
   "note": "no overflow; the policy and the dynamics are LinearSystem objects"
  },
  {
   "property": "C84",
   "status": "proved",
   "theorems": [
    "C84_inexact_values",
    "C84_double_precision_safe_set"
   ],
   "note": "no overflow; no adaptive refinement, or max_refinement at most 1; constants valid on the box with a margin of 1/128 spacing; see C83 for what happens without room in tau"
  },
  {
   "property": "C85",
   "status": "proved",
   "theorems": [
    "C85_masks",
    "C85_indices",
    "C85_constructor",
    "C85_list_refinement",
    "C85_wrong_length",
    "C85_array_refinement_refuted"
   ],
   "note": ""
  },
  {
   "property": "C86",
   "status": "proved",
   "theorems": [
    "C86_pendulum_torque",
    "C86_pendulum_energy",
    "C86_cartpole_motion",
    "C86_cartpole_energy",
    "C86_cartpole_energy_unit",
    "C86_linearize_cartpole",
    "C86_vanderpol_reverse",
    "C86_cartpole_energy_refuted"
   ],
   "note": "point mass on a massless rod; linearize without normalisation here, with normalisation see C62"
  },
  {
   "property": "C87",
   "status": "proved",
   "theorems": [
    "C87_keeps_evaluating",
    "C87_success_evaluates",
    "C87_evaluates_kept",
    "C87_stuck",
    "C87_other_columns",
    "C87_single_column",
    "C87_actions_repair",
    "C87_failed_call_harmless_refuted"
   ],
   "note": "that TensorFlow compares all entries of a feed dictionary with the shapes of their placeholders is an assumption, see section 2; arrays without rows count as fitting; other objects in the same graph are not part of the model"
  },
  {
   "property": "C88",
   "status": "proved",
   "theorems": [
    "C88_orderly",
    "C88_other_dimension",
    "C88_other_graph",
    "C88_one_state",
    "C88_independent_calls_refuted",
    "C88_other_objects_refuted"
   ],
   "note": "the TensorFlow checks of the feed dictionary are stated in GraphModel.v; functions are assumed to compute the same in every graph they can be called in"
  },
  {
   "property": "C89",
   "status": "proved",
   "theorems": [
    "C89_contains",
    "C89_kernel_expansions",
    "C89_any_function_refuted",
    "C89_measurement_errors_refuted"
   ],
   "note": "exact arithmetic, as in C49 and C50"
  },
  {
   "property": "C90",
   "status": "proved",
   "theorems": [
    "C90_bounds_contain",
    "C90_safe_learning",
    "C90_closed_loop_only_refuted"
   ],
   "note": "exact arithmetic over the reals; premises as in C73, with the correctness of the models replaced by the norm premise"
  },
  {
   "property": "C91",
   "status": "proved",
   "theorems": [
    "C91_kernels",
    "C91_sensible",
    "C91_predictions",
    "C91_diagonal_refuted"
   ],
   "note": "exact arithmetic; what the kernel objects of gpflow compute is stated in KernelModel.v from its documentation"
  },
  {
   "property": "C92",
   "status": "proved",
   "theorems": [
    "C92_contains",
    "C92_pendulum",
    "C92_more_columns_refuted"
   ],
   "note": "exact arithmetic; the true system is linear up to the remainder"
  },
  {
   "property": "C93",
   "status": "proved",
   "theorems": [
    "C93_continuous",
    "C93_every_state",
    "C93_discrete",
    "C93_every_vertex"
   ],
   "note": "exact arithmetic; np.random.uniform draws from [0, 1), np.random.choice as documented"
  },
  {
   "property": "C94",
   "status": "proved",
   "theorems": [
    "C94_mean_value",
    "C94_largest_entries",
    "C94_certified_neighbourhood",
    "C94_uncertain_successors",
    "C94_one_axis",
    "C94_notebooks_one_axis",
    "C94_gradient_at_state_refuted",
    "C94_error_bound_refuted"
   ],
   "note": "exact arithmetic; np.linalg.inv and scipy.spatial.Delaunay meet their contracts"
  },
  {
   "property": "C95",
   "status": "proved",
   "theorems": [
    "C95_half_gradient",
    "C95_rate_along_solutions",
    "C95_gradient_refuted",
    "C95_norm_refuted",
    "C95_matrix_refuted",
    "C95_positive",
    "C95_level",
    "C95_region_refuted"
   ],
   "note": "exact arithmetic; np.argsort returns a sorting permutation"
  },
  {
   "property": "C96",
   "status": "proved",
   "theorems": [
    "C96_marks",
    "C96_labels_stay",
    "C96_targets",
    "C96_sound",
    "C96_labelled_states_reach_initial_set",
    "C96_objective",
    "C96_zero_objective_refuted",
    "C96_zero_tau_refuted"
   ],
   "note": "exact arithmetic; np.argsort returns a sorting permutation; the parameters after each round are arbitrary"
  },
  {
   "property": "C97",
   "status": "proved",
   "theorems": [
    "C97_objectives",
    "C97_value_objective",
    "C97_value_error",
    "C97_scaling",
    "C97_policy_improvement",
    "C97_zero_state",
    "C97_action_limits",
    "C97_supervised",
    "C97_scaling_refuted",
    "C97_policy_improvement_refuted",
    "C97_zero_state_refuted",
    "C97_value_update_refuted"
   ],
   "note": "exact arithmetic; policies, dynamics and value functions are arguments that work row by row; optimizers are gradient steps"
  },
  {
   "property": "C98",
   "status": "proved",
   "theorems": [
    "C98_images",
    "C98_triangulation_image",
    "C98_picture_determines_values",
    "C98_saturated_policy",
    "C98_surfaces",
    "C98_surface_graph",
    "C98_slices",
    "C98_roa_colours",
    "C98_roa_colours_scaled",
    "C98_subsample",
    "C98_surfaces_refuted",
    "C98_roa_colours_refuted",
    "C98_subsample_refuted"
   ],
   "note": "exact arithmetic; imshow, plot_surface and ListedColormap are modelled after the documentation of matplotlib"
  },
  {
   "property": "C99",
   "status": "proved",
   "theorems": [
    "C99_least_refinement",
    "C99_strict_test",
    "C99_no_refinement",
    "C99_zero_threshold",
    "C99_increase_refuted",
    "C99_strict_test_refuted"
   ],
   "note": "exact arithmetic; division by zero gives the infinities and nan of numpy"
  }
 ]
}