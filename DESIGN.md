# Formal model of `safe_learning` in Rocq/Coq 8.16.1

Subject: the Python package in `/repo` (`safe_learning/*.py` and
`examples/utilities.py`), read as text.  Nothing of it is run.  The properties
are in `properties.jsonl` (C01 ...), their status in `MANIFEST.json`, the
mutation experiments in `seeded/LOG.jsonl`.

## 1. Shape of the development

`rocq/theories/`

* `Prelude.v`, `ListFacts.v`, `MxRing.v`  results with exceptions, list and matrix helpers
* `*Model.v`            shallow models, branch by branch, every definition cites file and lines
* `*Spec.v`             small independent specifications (what a user would write down)
* `*Proofs.v`, `Bellman.v`, `SparseSpec.v`, `TriInstances.v`  lemmas and instances of contracts
* `Properties/*.v`      the theorems (`C01_...`), each with examples (non-vacuity)
* `Properties/GridTests.v`, `Properties/LoopTests.v`  unit tests of the repository, evaluated on the model

Conventions

* A Python exception is a value: `res A := Ok a | Err e`, `e : exn`.
* A statement that turned out to be false is kept as a theorem `..._refuted` with a
  witness; the text of the property then says where the code deviates, and the
  strongest true version is proved next to it.
* Numbers.  Floating-point tensors are modelled by real numbers (`Coq.Reals`)
  or by an arbitrary real field of mathcomp (linear algebra).  Rounding is not
  modelled, except in `F64Model` and `F64CertModel` (and where a model says so).  Division is real division (the
  files import `division`, or use floats).
* Arrays of shape (n,) are lists, (n,m) arrays are lists of rows, tensors with
  two axes, or mathcomp matrices.
* TensorFlow graph building, placeholders, sessions and variable scopes are not
  modelled: a tensor is the value it evaluates to, given the variables and the feed
  dictionary.  An evaluation raises ValueError if any entry of the feed dictionary
  does not fit the shape of its placeholder, whether it is needed or not, and
  otherwise entries that are not needed have no effect (`LoopModel`, C87);
  elsewhere all entries fit.  In-place mutation of numpy arrays is modelled where it is
  observable (the views yielded by `batchify`, `simplex_ids %= ...`, the states of
  GPs and of `Lyapunov`).
* Oracles are arguments of the models: `np.argsort` (any permutation that sorts),
  `scipy.spatial.Delaunay` (any triangulation of the unit cell with the
  documented contract), `np.linalg.inv`/`solve` (exact, failing on singular
  matrices), Cholesky (any lower triangular factor with L L' = K),
  `tf.svd` (any singular value decomposition), Riccati solvers (any solution
  or a failure), cvxpy (any optimum or a failure status),
  `scipy.signal.cont2discrete` (any function), random draws (any).  Theorems
  quantify over them; the contract is a named hypothesis, and for the
  contracts an instance is exhibited.

## 2. Which code is modelled

| file of the model | code | properties |
|----|---------------|-------|
| `NumModel`, `GridModel` | `functions.py`: `GridWorld`, `PiecewiseConstant`; the numpy primitives they use | C01-C07, C93 |
| `TriModel` | `functions.py`: `_Delaunay1D`, `_Triangulation`, `Triangulation`, `ScipyDelaunay` (as contract) | C08-C14, C61 |
| `SafeModel` | `lyapunov.py`: `Lyapunov.__init__`, `update_values`, `update_safe_set`, `is_safe` | C15-C19, C25 |
| `CertModel` | `lyapunov.py`: `lipschitz_*`, `threshold`, `v_decrease_*`, `refined_safety_check` | C20-C24, C80 |
| `RegionModel` | `lyapunov.py`: `smallest_boundary_value`, `get_lyapunov_region` | C26, C27 |
| `SampleModel` | `lyapunov.py`: `perturb_actions`, `get_safe_sample` | C28, C29 |
| `RLModel` | `reinforcement_learning.py`: `PolicyIteration` | C30-C35 |
| `UtilModel` | `utilities.py`: `batchify`, `combinations`, `linearly_spaced_combinations`, `unique_rows`, `get_storage`, `set_storage`, `compute_trajectory`, `add_weight_constraint`, `gradient_clipping`, `concatenate_inputs` | C36-C42 |
| `LqrModel` | `utilities.py`: `lqr`, `dlqr` | C43 |
| `FunModel` | `functions.py`: `Function`, `AddedFunction`, `MultipliedFunction`, `ConstantFunction`, `Saturation` | C44-C46 |
| `StackModel` | `functions.py`: `FunctionStack`, `to_mean_function`, data handling of `GaussianProcess` | C47, C48 |
| `GPModel` | `functions.py`: `GPRCached`, `GaussianProcess.build_evaluation` | C49, C50, C89 |
| `QuadModel` | `functions.py`: `QuadraticFunction`, `LinearSystem` | C51 |
| `NNModel` | `functions.py`: `NeuralNetwork` | C52 |
| `SampleGPModel` | `functions.py`: `sample_gp_function` | C53 |
| `LyapNetModel` | `examples/utilities.py`: `LyapunovNetwork` | C54 |
| `DynModel` | `examples/utilities.py`: `InvertedPendulum`, `CartPole`, `VanDerPol` | C55, C62 |
| `RolloutModel` | `examples/utilities.py`: `compute_roa`, `reward_rollout`, `compute_closedloop_response` | C56, C63, C64 |
| `ExUtilModel` | `examples/utilities.py`: `find_nearest`, class weights, `monomials`, `constrained_batch_sampler`, `get_parameter_change`, `gridify` | C57-C60, C65, C66 |
| `F64Model` | `functions.py`: `GridWorld` and the numpy `_Triangulation` again, every operation rounded to binary64 | C67-C69 |
| `LoopModel` | `lyapunov.py`: the `Lyapunov` object over a sequence of calls with its stored graphs (`_storage`, `_STORAGE`), `get_safe_sample`, and attributes assigned from outside; the array that a failed call leaves in the feed dictionary | C71-C73, C87 |
| `PIModel` | `reinforcement_learning.py`: programs around one `PolicyIteration` object: operations created once and evaluated later, the stored graph of `discrete_policy_optimization`, assigned attributes | C74-C76 |
| `LipModel` | the notebooks in `examples/`: how `tau`, `L_dyn` and `L_v` are computed | C77-C79 |
| `EllipseModel` | `utilities.py`: `ellipse_bounds` | C81 |
| `ScipyModel` | `functions.py`: the points of `ScipyDelaunay` | C82 |
| `F64CertModel` | `lyapunov.py`: `v_decrease_bound` and `threshold`, with `QuadraticFunction` and `LinearSystem`, rounded to binary64, any order of summation | C83, C84 |
| `InitialModel` | `lyapunov.py`: the initial safe set given as a boolean array, a list of indices or an array of indices | C85 |
| `GraphModel` | `utilities.py`: `compute_trajectory` over a sequence of calls, with `get_storage`, `set_storage` and `get_feed_dict`; the checks that TensorFlow makes on a feed dictionary | C88 |
| `GPLoopModel` | `functions.py`: the dynamics of a `Lyapunov` object as a `FunctionStack` of `GaussianProcess` objects, at a state and an action | C90, C121, C122, C123, C124 |
| `KernelModel` | the notebooks in `examples/`: the kernels and their prior variances; `K` and `Kdiag` of gpflow's `Linear`, `RBF`, `Matern32`, sums and products | C91, C92, C123, C124 |
| `TriLyapModel` | the notebooks in `examples/`: triangulations and their negatives as Lyapunov functions, the largest gradient entry as their Lipschitz constant | C94 |
| `SosModel` | `examples/lyapunov_function_learning.ipynb`: the polynomial Lyapunov candidate, its derivative, and the level found on the grid | C95 |
| `RoaTrainModel` | `examples/lyapunov_function_learning.ipynb`: the training loop of the Lyapunov network with `roa_estimate`, targets, labels and objective | C96 |
| `ActorModel` | `examples/reinforcement_learning_pendulum.ipynb`, `examples/reinforcement_learning_cartpole.ipynb`: rewards, `r_max`, objectives of critic and actor, one gradient step of the critic | C97 |
| `PictureModel` | `examples/plotting.py:136-189` and the cells of the notebooks that draw values, surfaces, slices, regions of attraction and subsampled states; matplotlib's `imshow`, `plot_surface`, `ListedColormap` by their documentation | C98 |
| `ViewModel` | `examples/adaptive_safety_verification.ipynb` (N(x)) and `examples/1d_example.ipynb` (`get_safe_sets`) | C99, C100 |
| `CarModel` | `examples/basic_dynamic_programming.ipynb`: dynamics, reward, training loop, trajectory | C101 |
| `RbfModel` | `RBFNetwork` (radial basis functions on a grid) | C103 |
| `Plot1dModel` | `examples/plotting.py`: `plot_lyapunov_1d` | C104 |
| `TauModel` | `safe_learning/lyapunov.py`: the type of `tau / n_req` in `update_safe_set` | C105, C106 |
| `MetricsModel` | `examples/adaptive_safety_verification.ipynb`: the loop that collects data and records metrics | C108 |
| `AutoTriModel` | `tf.gradients` of `Triangulation.build_evaluation` (functions.py 1473-1499) | C109 |
| `ScopeModel` | names, scopes, variables and `parameters` of function objects (functions.py 32-82, 125-195, 323-352, 1397-1420, 1695-1727; utilities.py 113-120) | C110 |
| `AutoNetModel` | `tf.gradients` of Lyapunov networks, the Lipschitz constant `L_v` of the example (examples/utilities.py 85-104; examples/lyapunov_function_learning.ipynb cell 19) | C111 |
| `AutoNNModel` | `tf.gradients` of neural networks (functions.py 1702-1729) | C112 |
| `PolGradModel` | policy optimization by gradient descent (reinforcement_learning.py 89-103; test_rl.py 59-62; inverted_pendulum.ipynb cell 9) | C113 |
| `TrainGradModel` | gradient steps in the training of Lyapunov networks (lyapunov_function_learning.ipynb cells 25, 30) | C114 |
| `ActorGradModel` | gradient steps of critic and actor with neural networks (reinforcement_learning_pendulum.ipynb, reinforcement_learning_cartpole.ipynb) | C115 |
| `SimGradModel` | `tf.gradients` of `InvertedPendulum` and `CartPole` (examples/utilities.py) | C116 |
| `SatGradModel` | gradient descent on `future_values` for a `Saturation` of a `Triangulation`; the mountain car of `examples/basic_dynamic_programming.ipynb` | C117 |
| `ConsGradModel` | gradient descent on `future_values(states, lyapunov=lyapunov)` for a neural network, `examples/inverted_pendulum.ipynb` cells 9, 14, 17 | C118 |
| `LipGradModel` | `tf.gradients` of `NeuralNetwork.lipschitz` (functions.py 1731-1786) | C119 |
| `F64RLModel` | `value_iteration`, `future_values`, `discrete_policy_optimization` and the TensorFlow `Triangulation` in double precision (reinforcement_learning.py 65-114, 135-140, 214-279; functions.py 1442-1499) | C120 |

The simplifications made for a function are stated in the comment of its model.  The
more important ones:

* `update_safe_set`: the number of refinements divides in exact arithmetic (the
  dtype of `tau / n_req` is modelled in `TauModel` only); the initial set is a boolean mask; in
  `SafeModel` and `CertModel` the graph of `v_decrease` is rebuilt in every call;
  `LoopModel` models the stored graphs, and C71 shows when the difference is visible.
* Function objects create their variables in the constructor (except in `ScopeModel`).
* Rows of one array have the same length.

Cells of notebooks are counted from 0.

Not modelled: `examples/plotting.py` and the notebooks (except as listed above), TensorFlow kernels and
their rounding, the decorators `make_tf_fun`, `with_scope`,
`Configuration`, the triangulation computed by `ScipyDelaunay`, `safety_constraint`,
`import_from_directory`, `binary_cmap`,
`print_params`, the hyper-parameter optimisation of GPflow, and the arithmetic of
numpy's random generators.

## 3. Trusted base

* The Coq 8.16.1 kernel (and coqchk).
* The axioms in section 4, which is the output of `Print Assumptions`.
* That the models follow the cited lines.

## 4. Assumptions per theorem

All axioms are those of the Coq standard library; there are none of our own.

### none (closed under the global context)

`C102_concatenate`, `C102_copy_parameters`, `C102_lqr_singular`, `C102_mx_ex`, `C102_no_arrays`,
`C102_piecewise_constant`, `C102_sample_gp_outputs`, `C103_constructor_refuted`, `C110_disjoint`,
`C110_dots_refuted`, `C110_example`, `C110_new_objects`, `C110_own_variables`, `C110_parameters`,
`C110_saturated_network`, `C110_sharing`, `C110_variable_scope_refuted`, `C36_batches`, `C36_ex`,
`C36_ex_negative`, `C36_nonpositive_batch_size`, `C37_combinations`, `C37_ex`, `C37_no_arrays`,
`C38_unique_rows`, `C39_ex`, `C39_ex_lost`, `C39_last_write`, `C39_mixed_indices_refuted`,
`C39_other_callers`, `C42_arrays`, `C42_ex`, `C42_ex_row`, `C42_mismatch`, `C42_single`,
`C42_single_tensor`, `C42_tensors`, `C42_tensors_like_arrays_refuted`, `C43_dlqr_cost_to_go`,
`C43_dlqr_every_horizon`, `C43_dlqr_ex`, `C43_dlqr_lyapunov`, `C43_dlqr_optimal`, `C43_dlqr_result`,
`C43_dlqr_total_cost`, `C43_lqr_ex`, `C43_lqr_optimal`, `C43_lqr_result`, `C45_shapes`,
`C47_evaluation`, `C47_mean`, `C47_parameters_refuted`, `C47_rejects`, `C47_single_refuted`,
`C48_counts_checked`, `C48_history`, `C48_rejected`, `C48_stuck`, `C49_cache_succeeds`, `C49_ex`,
`C49_posterior`, `C49_posterior_exists`, `C49_scale_and_factor_irrelevant`,
`C50_error_bounds_shrink`, `C50_more_data`, `C50_nested_intervals_refuted`, `C50_variance_bounds`,
`C51_arrays`, `C51_linear_accepted`, `C51_linear_heights`, `C51_single_array_flattened`,
`C52_no_variables`, `C53_data_refuted`, `C53_ex`, `C53_functions`, `C53_interpolates_prior_sample`,
`C53_noise`, `C53_one_output`, `C53_prior_mean_refuted`, `C53_total`, `C54_accepted`, `C85_indices`,
`C85_wrong_length`, `C89_any_function_refuted`, `C89_contains`, `C89_ex`, `C89_kernel_expansions`,
`C89_measurement_errors_refuted`, `C98_roa_colours`, `C98_roa_colours_refuted`,
`C98_roa_colours_scaled`, `C98_subsample`, `C98_subsample_refuted`, `test_storage`,
`test_unique_rows`

### `ClassicalDedekindReals.sig_forall_dec`

`C06_example`, `C102_polynomial_matrix`, `C102_trajectory_broadcast`, `C102_trajectory_width`,
`C106_adaptive_larger`, `C15_batch_size_and_past_irrelevant`,
`C15_batch_size_and_past_irrelevant_ex`, `C15_certified_prefix`, `C15_ex`, `C15_sublevel_set_ex`,
`C16_initial_set_kept`, `C17_below_level_is_safe_ex`, `C17_level_all_certified`,
`C17_level_all_certified_ex`, `C17_level_is_last_certified`, `C17_level_is_last_certified_ex`,
`C17_level_nothing_certified_ex`, `C18_no_shrink_history`, `C18_no_shrink_history_ex`,
`C18_no_shrink_same_order`, `C19_refinement_matches`, `C23_ex`,
`C23_fewer_certificates_smaller_set`, `C37_ex_one`, `C40_ex`, `C40_no_steps`, `C40_prefix`,
`C40_trajectory`, `C40_wrong_width_rejected_refuted`, `C44_accepted`, `C44_commutes_refuted`,
`C44_parameters`, `C45_sat_ex`, `C47_data_ex`, `C47_one_measurement`, `C47_one_member_refuted`,
`C47_several_measurements_refuted`, `C48_atomic_refuted`, `C48_counts_checked_refuted`, `C48_ex`,
`C48_stuck_ex`, `C51_linear_inputs`, `C51_single_array_refuted`, `C54_total`, `C59_degree4_refuted`,
`C59_degree5_refuted`, `C59_dim1`, `C59_dim3_refuted`, `C59_ex`, `C72_shrink_forgets`,
`C85_constructor`, `C85_ex`, `C85_list_refinement`, `C85_masks`, `C85_refinement_ex`,
`C88_independent_calls_refuted`, `C88_one_state`, `C88_orderly`, `C88_other_dimension`,
`C88_other_graph`, `C88_other_objects_refuted`, `C88_wrong_ex`, `C95_norm_refuted`,
`test_concatenate_numpy`, `test_concatenate_tensorflow`, `test_copy`, `test_integer_numpoints`,
`test_safe_set_init`

### `ClassicalDedekindReals.sig_forall_dec`, `FunctionalExtensionality.functional_extensionality_dep`

`C01_example`, `C01_index_round_trip`, `C02_all_points_in_index_order`, `C02_example`,
`C03_example`, `C03_nearest_grid_point`, `C03_ties_to_even`, `C04_containing_cell`, `C04_example`,
`C05_example`, `C05_rectangle_conversions_agree`, `C06_construction`, `C07_example`,
`C07_piecewise_constant`, `C07_vertices_exact`, `C08_construction`, `C08_example`,
`C08_simplex_of_the_cell`, `C09_affine_reproduction`, `C09_barycentric_weights`, `C09_example`,
`C100_ex`, `C100_independent_refuted`, `C100_marked_pairs`, `C100_pairs`, `C101_converged`,
`C101_value_bounds`, `C102_copied_sum`, `C102_ex`, `C102_exact_dynamics`, `C102_initial_width`,
`C102_negative_samples`, `C102_notebook_ex`, `C102_polynomial_level`, `C102_region_index`,
`C102_region_index_ex`, `C102_region_node`, `C102_response_width`, `C102_samples_per_variable`,
`C102_trajectory_broadcast_ex`, `C102_wrong_width_stays`, `C103_constructor`, `C104_bands`,
`C104_colours`, `C104_ex`, `C104_first_call`, `C104_labels`, `C104_labels_refuted`, `C104_lines`,
`C104_lines_refuted`, `C105_condition`, `C105_ex`, `C105_larger`, `C105_not_adaptive`,
`C105_rejected`, `C105_strict_refuted`, `C105_whole_number`, `C106_batch_size_refuted`, `C106_ex`,
`C106_invariance_refuted`, `C106_like_finer_tau`, `C106_more_refinement`,
`C106_more_refinement_refuted`, `C106_safe_set`, `C107_current_values`, `C107_ex`,
`C107_old_values`, `C107_old_values_refuted`, `C108_ex`, `C108_fractions`, `C108_levels`,
`C108_levels_refuted`, `C108_measurements`, `C109_derivative`, `C109_derivative_ex`, `C109_ex`,
`C109_faces_refuted`, `C109_histories`, `C109_parameters`, `C109_points`, `C109_slope`,
`C10_example`, `C10_vertex_values`, `C112_relu_refuted`, `C113_faces_refuted`,
`C114_normalization_refuted`, `C118_objective`, `C118_relevant_refuted`, `C119_gradients`,
`C119_subgradient`, `C119_ties_ex`, `C119_ties_refuted`, `C11_convex_weights`, `C11_example`,
`C11_projected_bounds`, `C12_example`, `C12_parameter_derivative`, `C13_affine_gradient`,
`C13_docstring_reshape_refuted`, `C13_example`, `C13_gradient_derivative_point_major`,
`C13_gradient_is_slope`, `C14_example`, `C14_tensorflow_equals_numpy`, `C15_sublevel_set`,
`C16_C19_ex`, `C17_below_level_is_safe`, `C17_level_batch_independent_refuted`,
`C17_level_nothing_certified`, `C17_unconditional_refuted`, `C18_values_changed_refuted`,
`C20_certified_neighbourhood`, `C20_coordinate_constants`, `C20_coordinate_ex`, `C20_ex`,
`C20_local_around_state_only_refuted`, `C20_local_constants`, `C20_local_ex`,
`C21_bound_covers_all_successors`, `C21_ex`, `C22_ex`, `C22_forward_invariance`,
`C22_full_level_set_refuted`, `C22_quadratic_ex`, `C22_reaches_initial_set`,
`C22_reaches_initial_set_ex`, `C23_conservative_inputs`, `C23_conservative_inputs_ex`,
`C23_fewer_certificates_lower_level`, `C23_level_monotone_refuted`, `C24_cell_decrease_refuted`,
`C24_ex`, `C24_holds_at_refined_points_refuted`, `C24_least_refinement`,
`C24_refined_condition_at_centre`, `C25_ex`, `C25_initial_cells_safe`, `C25_is_safe_nearest`,
`C26_ex`, `C26_smallest_boundary_value`, `C27_connected_sublevel_sets`, `C27_ex`,
`C27_ex_connected`, `C27_lower_boundary_start_refuted`, `C27_neighbours_larger_refuted`,
`C27_python3`, `C27_region`, `C27_ties_ex`, `C28_action_limits`, `C28_actions_ex`,
`C28_actions_ex2`, `C28_always_certified_refuted`, `C28_certified_maps_inside`, `C28_ex`,
`C28_exact_dynamics`, `C28_exact_ex`, `C28_given_actions`, `C28_given_actions_dimensions`,
`C28_most_uncertain_certified`, `C28_tested_states`, `C29_all_pairs`, `C29_clipped_pairs`, `C29_ex`,
`C29_single_columns`, `C29_single_columns_ex`, `C30_extrapolation_refuted`,
`C31_failure_is_reported`, `C31_gamma_one_refuted`, `C32_best_allowed_action`, `C32_ex`,
`C32_no_options`, `C32_policy_takes_the_actions`, `C32_succeeds`,
`C32_unsafe_never_selected_refuted`, `C33_ex`, `C33_greedy_improves`, `C34_bellmann_error`,
`C34_ex`, `C34_semi_gradient`, `C34_zero_iff_bellman`, `C35_deterministic_lyapunov_refuted`,
`C35_ex`, `C35_lyapunov_penalty`, `C35_mean_dynamics`, `C35_zero_error_exact`, `C37_ex_linear`,
`C37_linearly_spaced`, `C41_all_variables_updated_refuted`, `C41_ex`, `C41_gradient_clipping`,
`C41_missing_gradient`, `C41_unbounded_variables`, `C41_weight_constraint`, `C44_entries`, `C44_ex`,
`C44_numbers`, `C44_pointwise`, `C44_several_inputs`, `C45_ex`, `C45_products`, `C45_saturation`,
`C45_sums`, `C45_sums_refuted`, `C46_closest`, `C46_construction`, `C46_ex`, `C46_saturation`,
`C47_ex`, `C51_linear`, `C51_linear_ex`, `C51_quadratic_ex`, `C51_quadratic_expansion`,
`C51_quadratic_gradient`, `C51_quadratic_value`, `C51_square_required_refuted`,
`C52_factor_is_attained`, `C52_no_bias_ex`, `C54_lower_bound`, `C54_no_regularisation_refuted`,
`C54_positive_definite`, `C54_relu_refuted`, `C55_inverse`, `C55_total`, `C55_units_vanderpol`,
`C55_vanderpol_equilibrium`, `C55_vanderpol_inverse`, `C55_vanderpol_state_only_refuted`,
`C57_empty`, `C57_ex`, `C57_index_refuted`, `C57_sorted`, `C57_unsorted`, `C58_class_weights`,
`C58_confusion_weights`, `C58_ex`, `C58_missing_class_refuted`, `C59_features`,
`C60_action_limit_refuted`, `C60_ex`, `C60_maps_inside`, `C60_none_refuted`, `C60_one`,
`C60_padding`, `C60_undersaturated`, `C61_gradient_by_index`, `C61_indices_untouched_refuted`,
`C63_close`, `C63_early_stop`, `C63_early_stop_refuted`, `C63_error_bound`, `C63_ex`, `C63_rollout`,
`C64_equilibrium`, `C64_ex`, `C64_impulse_area`, `C64_references`, `C64_response`, `C66_box`,
`C66_ex`, `C66_points`, `C66_sign_refuted`, `C66_usable`, `C70_gradients_are_bounded`,
`C70_kuhn_fits`, `C71_adaptive_ex`, `C71_current_attributes_refuted`, `C71_ex`,
`C71_first_sample_fixes`, `C71_first_update_fixes`, `C71_initial_set`, `C71_reuse_invisible`,
`C71_values`, `C72_assigned_without_shrink_refuted`, `C72_ex`, `C72_initial_assigned`, `C73_ex`,
`C73_safe_learning`, `C73_without_margin_refuted`, `C74_coarser_policy_refuted`,
`C74_value_iteration`, `C75_ex`, `C75_first_improvement_fixes`, `C75_operations`,
`C75_reuse_invisible`, `C76_decrease`, `C76_ex`, `C76_geometric`,
`C76_optimal_value_is_lyapunov_refuted`, `C77_ex`, `C77_half_sum`, `C77_inverse_count_refuted`,
`C77_largest_spacing`, `C77_largest_spacing_refuted`, `C77_smallest_spacing`, `C78_closed_loop`,
`C78_ex`, `C78_largest_entries`, `C78_policies`, `C79_error_bound_refuted`, `C79_ex2`,
`C79_gradients_refuted`, `C80_fine_enough_grids`, `C80_fine_enough_grids_ex`,
`C80_finer_grid_keeps_safe_refuted`, `C80_grid_with_margin`, `C80_grid_with_margin_ex`,
`C80_level_reaches`, `C80_level_reaches_ex`, `C80_strict_decrease_ex`,
`C80_strict_decrease_is_certified`, `C82_ex`, `C82_numbers`, `C82_numbers_differ`, `C82_one_axis`,
`C82_same_vertices`, `C84_inexact_values`, `C85_array_refinement_refuted`, `C87_actions_repair`,
`C87_evaluates_kept`, `C87_failed_call_harmless_refuted`, `C87_keeps_evaluating`, `C87_keeps_ex`,
`C87_other_columns`, `C87_single_column`, `C87_stuck`, `C87_stuck_ex`, `C87_success_evaluates`,
`C88_orderly_ex`, `C93_continuous`, `C93_discrete`, `C93_every_state`, `C93_every_vertex`, `C93_ex`,
`C94_error_bound_refuted`, `C94_gradient_at_state_refuted`, `C94_notebooks_one_axis`,
`C94_notebooks_one_axis_ex`, `C94_one_axis`, `C95_ex`, `C95_level`, `C95_matrix_refuted`,
`C95_positive`, `C95_region_refuted`, `C96_ex`, `C96_labelled_states_reach_initial_set`,
`C96_labels_stay`, `C96_marks`, `C96_objective`, `C96_sound`, `C96_targets`,
`C96_zero_objective_refuted`, `C96_zero_tau_refuted`, `C97_action_limits`, `C97_objectives`,
`C97_policy_improvement`, `C97_policy_improvement_refuted`, `C97_scaling`, `C97_scaling_refuted`,
`C97_supervised`, `C97_value_error`, `C97_value_objective`, `C97_value_update_refuted`,
`C97_zero_state`, `C97_zero_state_refuted`, `C98_ex`, `C98_images`, `C98_picture_determines_values`,
`C98_saturated_policy`, `C98_slices`, `C98_surface_graph`, `C98_surfaces`, `C98_surfaces_refuted`,
`C98_triangulation_image`, `C99_ex`, `C99_increase_refuted`, `C99_least_refinement`,
`C99_no_refinement`, `C99_strict_test`, `C99_strict_test_refuted`, `C99_zero_threshold`,
`g35_valid`, `test_0d`, `test_1d`, `test_add`, `test_class`, `test_dimensions_error`,
`test_evaluate`, `test_far_points`, `test_find_simplex`, `test_gradient`,
`test_index_state_conversion_indices`, `test_mult`, `test_neg`, `test_projection`,
`test_pwc_evaluation`, `test_smallest_boundary_value`, `test_update`, `test_values`

### `ClassicalDedekindReals.sig_forall_dec`, `ClassicalDedekindReals.sig_not_dec`, `FunctionalExtensionality.functional_extensionality_dep`

`C101_arrival_refuted`, `C101_car_values`, `C101_ex`, `C101_motion`, `C101_returns`,
`C101_terminal_refuted`, `C101_trajectory`, `C101_underpowered`, `C101_valley`,
`C102_polynomial_rate`, `C103_errors`, `C103_evaluation`, `C103_ex`, `C103_width_refuted`,
`C111_gradients`, `C111_lipschitz_refuted`, `C111_points`, `C112_ex`, `C112_gradients`,
`C113_network_ex`, `C113_network_gradients`, `C113_network_step`, `C114_ex`, `C114_gradients`,
`C114_objective_gradients`, `C114_pre_training`, `C114_step`, `C115_actor_gradients`,
`C115_actor_step`, `C115_critic`, `C115_ex`, `C115_supervised`, `C119_ex`, `C123_unbounded_refuted`,
`C30_ex`, `C30_successors_inside`, `C30_value_iteration_converges`, `C31_optimum_exists`,
`C31_solves_bellman`, `C52_ex`, `C52_lipschitz`, `C52_lipschitz_unit_scale`, `C52_no_bias_refuted`,
`C52_output_scale_refuted`, `C55_cartpole_equilibrium`, `C55_ex1`, `C55_ex2`,
`C55_pendulum_equilibrium`, `C55_units_cartpole`, `C55_units_pendulum`,
`C56_converging_marked_refuted`, `C56_ex`, `C56_longer_horizon`, `C56_marked_converges_refuted`,
`C56_marks`, `C56_no_horizon`, `C56_trajectories`, `C62_pendulum_negative_friction_refuted`,
`C65_broadcast_refuted`, `C65_ex`, `C65_largest_change`, `C65_matrix_orders_refuted`, `C65_sizes`,
`C65_smallest_change`, `C65_sums`, `C65_zero`, `C74_greedy_policy`, `C74_optimal_exists`,
`C75_one_discount_refuted`, `C78_largest_entries_refuted`, `C79_enlarged_gradients`,
`C79_error_bound_slack`, `C79_ex`, `C86_cartpole_motion`, `C86_linearize_ex`, `C86_pendulum_torque`,
`C86_vanderpol_ex`, `C95_rate_ex`, `C97_ex`

### `ClassicalDedekindReals.sig_forall_dec`, `ClassicalDedekindReals.sig_not_dec`, `Classical_Prop.classic`, `FunctionalExtensionality.functional_extensionality_dep`

`C102_triangulation_values`, `C103_bounds`, `C103_default_width`, `C111_ex`, `C111_segment`,
`C113_triangulation_ex`, `C113_triangulation_gradients`, `C113_triangulation_step`, `C116_cartpole`,
`C116_cartpole_actor`, `C116_cartpole_batch`, `C116_ex`, `C116_pendulum`, `C116_pendulum_actor`,
`C116_pendulum_batch`, `C117_bounds_refuted`, `C117_ex`, `C117_gradients`, `C117_kept`,
`C117_mountain_car`, `C117_mountain_car_ex`, `C117_step`, `C117_stuck`, `C118_ex`, `C118_gradients`,
`C118_step`, `C119_update`, `C119_update_ex`, `C120_best_action_refuted`,
`C120_convergence_refuted`, `C120_ex`, `C120_nearly_best_action`, `C120_nearly_best_action_ex`,
`C120_rounded_value_iteration`, `C123_kernel_distance`, `C38_ex`,
`C38_numerically_distinct_refuted`, `C38_unique_rows_float64`, `C54_ex`, `C55_cartpole_rate`,
`C55_pendulum_rate`, `C55_vanderpol_rate`, `C59_derivatives`, `C62_cartpole`,
`C62_cartpole_any_length`, `C62_cartpole_length_refuted`, `C62_ex`, `C62_ex2`, `C62_pendulum`,
`C62_vanderpol`, `C62_vanderpol_damping_refuted`, `C67_double_precision_index_round_trip`,
`C67_double_precision_lookup`, `C67_ex`, `C67_far_from_origin_refuted`, `C68_accuracy_ex`, `C68_ex`,
`C68_one_dimension_accuracy`, `C68_one_dimension_ex`, `C68_one_dimension_exact`,
`C68_two_dimensions_refuted`, `C69_equal_refuted`, `C69_points_listed_and_indexed`, `C70_example`,
`C70_gradient_bounds_slope`, `C70_lipschitz`, `C74_ex`, `C74_policy_iteration`, `C81_ex`,
`C81_order`, `C81_points_on_level`, `C81_recent_numpy_fails`, `C81_unsymmetric_refuted`,
`C81_upper_bound`, `C81_upper_bound_refuted`, `C83_check_with_slack`,
`C83_check_without_slack_refuted`, `C83_decrease_error`, `C83_ex`,
`C83_fixed_points_pass_the_check`, `C83_some_evaluation`, `C83_sum_in_any_order`,
`C84_double_precision_safe_set`, `C84_ex`, `C86_cartpole_energy`, `C86_cartpole_energy_ex`,
`C86_cartpole_energy_refuted`, `C86_cartpole_energy_unit`, `C86_linearize_cartpole`,
`C86_pendulum_energy`, `C86_pendulum_ex`, `C86_vanderpol_reverse`, `C91_diagonal_refuted`, `C91_ex`,
`C91_kernels`, `C94_certified_neighbourhood`, `C94_ex`, `C94_largest_entries`, `C94_mean_value`,
`C94_uncertain_successors`, `C95_gradient_refuted`, `C95_half_gradient`, `C95_rate_along_solutions`

### `ClassicalDedekindReals.sig_forall_dec`, `ClassicalDedekindReals.sig_not_dec`, `Epsilon.epsilon_statement`, `FunctionalExtensionality.functional_extensionality_dep`

`C121_ex`, `C121_few_uncertain_samples`, `C121_finitely_many`, `C121_system_known`,
`C121_white_noise_refuted`, `C122_bounds_vary`, `C122_ex`, `C122_exploration_expands`,
`C122_measured_ex`, `C122_measured_region_is_safe`, `C122_near_measurements`, `C122_slope_ex`,
`C124_predictions`, `C124_true_function`, `C49_normal_equations`, `C90_bounds_contain`,
`C90_closed_loop_only_refuted`, `C90_ex`, `C90_safe_learning`

### `ClassicalDedekindReals.sig_forall_dec`, `ClassicalEpsilon.constructive_indefinite_description`, `Classical_Prop.classic`, `FunctionalExtensionality.functional_extensionality_dep`

`C70_three_axes_refuted`

### `ClassicalDedekindReals.sig_forall_dec`, `ClassicalDedekindReals.sig_not_dec`, `ClassicalEpsilon.constructive_indefinite_description`, `Classical_Prop.classic`, `FunctionalExtensionality.functional_extensionality_dep`

`C70_every_dimension`

### `ClassicalDedekindReals.sig_forall_dec`, `ClassicalDedekindReals.sig_not_dec`, `Classical_Prop.classic`, `Epsilon.epsilon_statement`, `FunctionalExtensionality.functional_extensionality_dep`

`C123_bounds_lipschitz`, `C123_ex`, `C123_lipschitz_ex`, `C123_near_measurements`, `C123_net`,
`C123_net_ex`, `C123_with_jitter`, `C124_closed_loop`, `C124_closed_loop_ex`, `C124_dynamics`,
`C124_ex`, `C91_predictions`, `C91_sensible`, `C92_contains`, `C92_ex`, `C92_more_columns_refuted`,
`C92_pendulum`

### `ClassicalDedekindReals.sig_forall_dec`, `ClassicalDedekindReals.sig_not_dec`, `ClassicalUniqueChoice.dependent_unique_choice`, `Classical_Prop.classic`, `FunctionalExtensionality.functional_extensionality_dep`, `RelationalChoice.relational_choice`

`C31_ex`

### `ClassicalDedekindReals.sig_forall_dec`, `ClassicalDedekindReals.sig_not_dec`, `Classical_Prop.classic`, `Epsilon.epsilon_statement`, `FloatAxioms.Prim2SF_SF2Prim`, `FloatAxioms.Prim2SF_valid`, `FloatAxioms.SF2Prim_Prim2SF`, `FloatAxioms.abs_spec`, `FloatAxioms.add_spec`, `FloatAxioms.classify_spec`, `FloatAxioms.compare_spec`, `FloatAxioms.div_spec`, `FloatAxioms.eqb_spec`, `FloatAxioms.frshiftexp_spec`, `FloatAxioms.ldshiftexp_spec`, `FloatAxioms.ltb_spec`, `FloatAxioms.mul_spec`, `FloatAxioms.next_down_spec`, `FloatAxioms.next_up_spec`, `FloatAxioms.normfr_mantissa_spec`, `FloatAxioms.of_uint63_spec`, `FloatAxioms.opp_spec`, `FloatAxioms.sqrt_spec`, `FloatAxioms.sub_spec`, `FunctionalExtensionality.functional_extensionality_dep`, `PrimFloat.abs`, `PrimFloat.add`, `PrimFloat.classify`, `PrimFloat.compare`, `PrimFloat.div`, `PrimFloat.eqb`, `PrimFloat.float`, `PrimFloat.frshiftexp`, `PrimFloat.ldshiftexp`, `PrimFloat.ltb`, `PrimFloat.mul`, `PrimFloat.next_down`, `PrimFloat.next_up`, `PrimFloat.normfr_mantissa`, `PrimFloat.of_uint63`, `PrimFloat.opp`, `PrimFloat.sqrt`, `PrimFloat.sub`, `PrimInt63.add`, `PrimInt63.addc`, `PrimInt63.addcarryc`, `PrimInt63.addmuldiv`, `PrimInt63.compare`, `PrimInt63.div`, `PrimInt63.diveucl`, `PrimInt63.diveucl_21`, `PrimInt63.eqb`, `PrimInt63.head0`, `PrimInt63.int`, `PrimInt63.land`, `PrimInt63.leb`, `PrimInt63.lor`, `PrimInt63.lsl`, `PrimInt63.lsr`, `PrimInt63.ltb`, `PrimInt63.lxor`, `PrimInt63.mod`, `PrimInt63.mul`, `PrimInt63.mulc`, `PrimInt63.sub`, `PrimInt63.subc`, `PrimInt63.subcarryc`, `PrimInt63.tail0`, `Uint63.add_spec`, `Uint63.addc_def_spec`, `Uint63.addcarryc_def_spec`, `Uint63.addmuldiv_def_spec`, `Uint63.compare_def_spec`, `Uint63.div_spec`, `Uint63.diveucl_21_spec`, `Uint63.diveucl_def_spec`, `Uint63.eqb_correct`, `Uint63.eqb_refl`, `Uint63.head0_spec`, `Uint63.land_spec`, `Uint63.leb_spec`, `Uint63.lor_spec`, `Uint63.lsl_spec`, `Uint63.lsr_spec`, `Uint63.ltb_spec`, `Uint63.lxor_spec`, `Uint63.mod_spec`, `Uint63.mul_spec`, `Uint63.mulc_spec`, `Uint63.of_to_Z`, `Uint63.sub_spec`, `Uint63.subc_def_spec`, `Uint63.subcarryc_def_spec`, `Uint63.tail0_spec`

`test_new_data`
