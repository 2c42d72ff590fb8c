{
 "claims": [
  {
   "property": "C01",
   "status": "proved",
   "theorems": [
    "C01_read_back",
    "C01_rejected_set_is_noop"
   ],
   "note": "for every history of declare/set/update/clone operations"
  },
  {
   "property": "C02",
   "status": "proved",
   "theorems": [
    "C02_stored_values_admissible",
    "C02_update_prefix",
    "C02_failed_redeclaration_refuted"
   ],
   "note": "C02_stored_values_admissible and C02_update_prefix proved for all histories without a failed redeclaration; C02_failed_redeclaration_refuted: redeclaring an option with an inadmissible default raises after the new declaration is stored, leaving an inadmissible stored value"
  },
  {
   "property": "C03",
   "status": "proved",
   "theorems": [
    "C03_accept_iff",
    "C03_listed_values_refuted"
   ],
   "note": "exact acceptance rule (iff); C03_listed_values_refuted shows the consequence for corr-style declarations"
  },
  {
   "property": "C04",
   "status": "proved",
   "theorems": [
    "C04_independence",
    "C04_clone_copies",
    "C04_deep_copy_refuted"
   ],
   "note": "independence of dictionaries proved for all histories; C04_deep_copy_refuted: the documented deep copy is shallow, mutable values are shared"
  },
  {
   "property": "C05",
   "status": "proved",
   "theorems": [
    "C05_training_data_by_value",
    "C05_update_values_iff",
    "C05_recorded_sizes",
    "C05_sizes_disagree_refuted",
    "C05_negative_kx_refuted"
   ],
   "note": "by-value refinement for all histories with documented (nonnegative) kx; C05_negative_kx_refuted shows the guard is needed"
  },
  {
   "property": "C06",
   "status": "proved",
   "theorems": [
    "C06_update_derivative_iff",
    "C06_update_derivative_matching",
    "C06_update_derivative_effect",
    "C06_update_derivative_refuted",
    "C06_wrong_size_accepted_refuted"
   ],
   "note": "Property states the exact success condition; C06_*_refuted are the departures from the documented one."
  },
  {
   "property": "C07",
   "status": "proved",
   "theorems": [
    "C07_predict_values",
    "C07_predict_variances",
    "C07_predict_values_exact",
    "C07_predict_variances_exact",
    "C07_predict_derivatives",
    "C07_predict_output_derivatives",
    "C07_predict_variance_derivatives",
    "C07_predict_derivatives_no_copy_refuted"
   ],
   "note": "All five prediction calls, for every model-specific predictor; exact condition for the caller array."
  },
  {
   "property": "C08",
   "status": "proved",
   "theorems": [
    "C08_check_iff",
    "C08_unfolded_limits",
    "C08_unfolded_dimension"
   ],
   "note": "consistency check, relaxed bounds and dimension, each as an iff / equality"
  },
  {
   "property": "C09",
   "status": "proved",
   "theorems": [
    "C09_fold_unfold",
    "C09_roundtrip_folded",
    "C09_roundtrip_unfolded",
    "C09_every_row"
   ],
   "note": "both round trips for every type list with enum levels >= 1"
  },
  {
   "property": "C10",
   "status": "proved",
   "theorems": [
    "C10_projection",
    "C10_idempotent",
    "C10_fold_index",
    "C10_single_level_iff",
    "C10_ties_refuted"
   ],
   "note": "including the exact condition for a single selected level; C10_ties_refuted shows the tie case"
  },
  {
   "property": "C11",
   "status": "proved",
   "theorems": [
    "C11_projection_in_bounds",
    "C11_noninteger_bounds_refuted"
   ],
   "note": "bounds kept for integer bounds; C11_noninteger_bounds_refuted shows the other case"
  },
  {
   "property": "C12",
   "status": "proved",
   "theorems": [
    "C12_scaling_affine",
    "C12_scaling_increasing",
    "C12_random_in_bounds"
   ],
   "note": "scaling of unit samples to the limits is exactly affine, increasing and stays in bounds; the unit generator is an arbitrary function into [0,1)"
  },
  {
   "property": "C13",
   "status": "proved",
   "theorems": [
    "C13_full_factorial",
    "C13_clip_complete"
   ],
   "note": "rationals stand for floats; clip=True stays strictly inside"
  },
  {
   "property": "C14",
   "status": "proved",
   "theorems": [
    "C14_levels_terminate",
    "C14_levels_greedy",
    "C14_equal_weights_balanced",
    "C14_relative_weights",
    "C14_integer_weights_refuted",
    "C14_weights_array_overwritten",
    "C14_calls_independent"
   ],
   "note": "_refuted theorem: integer weights raise; termination of the level-increment loop with an explicit bound, greedy rule and balance for equal weights"
  },
  {
   "property": "C15",
   "status": "proved",
   "theorems": [
    "C15_columns_permuted",
    "C15_latin_kept"
   ],
   "note": "ESE and plain LHS: every column of the result is a permutation of the initial column, for every random stream"
  },
  {
   "property": "C16",
   "status": "proved",
   "theorems": [
    "C16_never_worse",
    "C16_incremental_exact",
    "C16_criterion_unique"
   ],
   "note": "over the reals; distances positive; best-so-far invariant of the simulated annealing for every random stream"
  },
  {
   "property": "C17",
   "status": "proved",
   "theorems": [
    "C17_nested",
    "C17_no_exception"
   ],
   "note": "for every drawn design and distance function; C17_no_exception gives a condition under which the call does not raise"
  },
  {
   "property": "C18",
   "status": "proved",
   "theorems": [
    "C18_bijection",
    "C18_contract_injective",
    "C18_row_major",
    "C18_quadrature_midpoints",
    "C18_quadrature_inside",
    "C18_quadrature_distinct",
    "C18_nearest_point"
   ],
   "note": "also: row-major order, quadrature points are distinct element midpoints, extrapolation distance is to the closest point"
  },
  {
   "property": "C19",
   "status": "proved",
   "theorems": [
    "C19_basis_is_cox_de_boor",
    "C19_partition_of_unity",
    "C19_partition_of_unity_all",
    "C19_derivative_bases_sum_to_zero",
    "C19_derivative_bases",
    "C19_reads_inside_knot_array",
    "C19_right_end_refuted",
    "C19_clamp_avoids_right_end"
   ],
   "note": "basis values equal the Cox-de Boor functions; derivative bases are derivatives between knots; memory safety; C19_right_end_refuted shows t=1 itself is not handled (unreachable through the clamp)"
  },
  {
   "property": "C20",
   "status": "proved",
   "theorems": [
    "C20_value_is_tensor_spline",
    "C20_constants",
    "C20_convex_hull",
    "C20_columns_in_range"
   ],
   "note": "and the value is the tensor-product spline, in the convex hull of the control values"
  },
  {
   "property": "C21",
   "status": "proved",
   "theorems": [
    "C21_columns_in_range",
    "C21_shared_vertices",
    "C21_every_dof_used"
   ],
   "note": "column map of the unique-dof matrix: in range, equal exactly for shared vertices, onto"
  },
  {
   "property": "C22",
   "status": "proved",
   "theorems": [
    "C22_element_search"
   ],
   "note": "reals stand for doubles"
  },
  {
   "property": "C23",
   "status": "proved",
   "theorems": [
    "C23_gradient",
    "C23_hessian",
    "C23_output_sensitivity_of_gradient",
    "C23_assembled_matrix"
   ],
   "note": "for any number of training blocks; symmetry hypothesis discharged for the matrix the code assembles"
  },
  {
   "property": "C24",
   "status": "proved",
   "theorems": [
    "C24_weights_ignore_grad_weight",
    "C24_derivatives_entered_first_raise",
    "C24_grad_weight_honoured_refuted"
   ],
   "note": "exact behaviour; C24_grad_weight_honoured_refuted: the documented scaling does not happen"
  },
  {
   "property": "C25",
   "status": "proved",
   "theorems": [
    "C25_rmtb_inside",
    "C25_rmtb_expansion",
    "C25_rmtc_inside",
    "C25_rmtc_expansion"
   ],
   "note": "RMTB and RMTC; first-order expansion at the nearest point of the box"
  },
  {
   "property": "C26",
   "status": "proved",
   "theorems": [
    "C26_interpolates",
    "C26_weighted_mean",
    "C26_between_the_data"
   ],
   "note": "reals stand for doubles; the exact-hit test of the C++ code is exact equality of the coordinates"
  },
  {
   "property": "C27",
   "status": "proved",
   "theorems": [
    "C27_derivative_away_from_data",
    "C27_derivative_at_data",
    "C27_order_one_refuted",
    "C27_output_derivatives_are_weights"
   ],
   "note": "away from data for every p; at data for p>1; C27_order_one_refuted for p=1"
  },
  {
   "property": "C28",
   "status": "proved",
   "theorems": [
    "C28_interpolates",
    "C28_side_conditions",
    "C28_unique_model",
    "C28_reproduces_affine_data",
    "C28_reproduces_constant_data"
   ],
   "note": "exact linear solver; uniqueness uses strict positive definiteness of the Gaussian kernel (proved) when reg = 0"
  },
  {
   "property": "C29",
   "status": "proved",
   "theorems": [
    "C29_derivative_is_partial_derivative"
   ],
   "note": "d0 nonzero in every dimension"
  },
  {
   "property": "C30",
   "status": "proved",
   "theorems": [
    "C30_basis",
    "C30_cross_index_bijective",
    "C30_derivative",
    "C30_derivatives_shape",
    "C30_train_fails_iff",
    "C30_least_squares",
    "C30_reproduces_quadratics"
   ],
   "note": "C30_derivatives_shape: the derivative call raises for two or more outputs and two or more points"
  },
  {
   "property": "C31",
   "status": "proved",
   "theorems": [
    "C31_least_squares",
    "C31_reproduces_affine_data",
    "C31_derivative"
   ],
   "note": "least-squares routine of scikit-learn is any routine returning a normal-equation solution on the centred data"
  },
  {
   "property": "C32",
   "status": "proved",
   "theorems": [
    "C32_textbook_formula",
    "C32_pls_formula",
    "C32_range",
    "C32_unit_at_distance_zero",
    "C32_symmetric",
    "C32_positive_semidefinite",
    "C32_positive_definite"
   ],
   "note": "all five kernels and the PLS versions; act_exp strictly definite for distinct projections"
  },
  {
   "property": "C33",
   "status": "proved",
   "theorems": [
    "C33_theta_gradient",
    "C33_theta_hessian",
    "C33_input_gradient",
    "C33_abs_exp_kink_refuted",
    "C33_act_exp_raises",
    "C33_pls_input_gradient"
   ],
   "note": "input gradient except on the kink of abs_exp, where no derivative exists (C33_abs_exp_kink_refuted)"
  },
  {
   "property": "C34",
   "status": "proved",
   "theorems": [
    "C34_pairs_once",
    "C34_correlation_matrix",
    "C34_symmetric"
   ],
   "note": ""
  },
  {
   "property": "C35",
   "status": "proved",
   "theorems": [
    "C35_value_at_training_points",
    "C35_interpolates",
    "C35_factorises_with_nugget",
    "C35_factorises_distinct_points"
   ],
   "note": "numpy QR and condition number are any functions meeting their contracts; theta is given"
  },
  {
   "property": "C36",
   "status": "proved",
   "theorems": [
    "C36_available",
    "C36_derivative_is_partial_derivative"
   ],
   "note": ""
  },
  {
   "property": "C37",
   "status": "proved",
   "theorems": [
    "C37_mean_is_best_linear_unbiased",
    "C37_variance_nonnegative",
    "C37_variance_at_training_points",
    "C37_variance_constant_trend",
    "C37_variance_error",
    "C37_linear_trend_refuted"
   ],
   "note": "the variance claim is false for trends with more than one coefficient: C37_variance_error characterises the error, C37_linear_trend_refuted exhibits it"
  },
  {
   "property": "C38",
   "status": "proved",
   "theorems": [
    "C38_affine_equivariance",
    "C38_likelihood_invariant",
    "C38_constant_input_refuted"
   ],
   "note": "refuted for constant input columns: C38_constant_input_refuted"
  },
  {
   "property": "C39",
   "status": "proved",
   "theorems": [
    "C39_bounded",
    "C39_attempts",
    "C39_result_consistent",
    "C39_best",
    "C39_best_refuted"
   ],
   "note": "scipy minimize is any sequence of evaluations with a result or ValueError; best-value part under the contract that a run returns the best point it evaluated, refuted without it"
  },
  {
   "property": "C40",
   "status": "proved",
   "theorems": [
    "C40_same_shape",
    "C40_other_dimension",
    "C40_array_theta0",
    "C40_rbf_d0",
    "C40_kplsk_refuted"
   ],
   "note": "C40_kplsk_refuted: retraining KPLSK"
  },
  {
   "property": "C41",
   "status": "proved",
   "theorems": [
    "C41_data_consistent",
    "C41_added_points_evaluated",
    "C41_number_of_points"
   ],
   "note": "objective deterministic and applied row by row; surrogate, sampling and SLSQP arbitrary"
  },
  {
   "property": "C42",
   "status": "proved",
   "theorems": [
    "C42_result_iff",
    "C42_reports_failure_iff",
    "C42_last_attempt_refuted"
   ],
   "note": "C42_last_attempt_refuted: a success at the last attempt is reported as failure"
  },
  {
   "property": "C43",
   "status": "proved",
   "theorems": [
    "C43_nonneg",
    "C43_no_uncertainty",
    "C43_monotone",
    "C43_expected_improvement",
    "C43_tunneling_bounds",
    "C43_tunneling_penalty",
    "C43_lower_confidence_bound"
   ],
   "note": "any function with the normal density as derivative and limit 0 at -infinity; existence proved"
  },
  {
   "property": "C44",
   "status": "proved",
   "theorems": [
    "C44_rows_passed",
    "C44_integers_not_rounded",
    "C44_mixed_integer_refuted"
   ],
   "note": "C44_mixed_integer_refuted exhibits masks and non-integral integers passed to the objective"
  },
  {
   "property": "C45",
   "status": "proved",
   "theorems": [
    "C45_split_partition",
    "C45_clusters_partition",
    "C45_cluster_members"
   ],
   "note": "lists of arbitrary values and labels"
  },
  {
   "property": "C46",
   "status": "proved",
   "theorems": [
    "C46_probabilities",
    "C46_smooth_value",
    "C46_single_cluster",
    "C46_between_experts",
    "C46_common_value",
    "C46_variance_bounds",
    "C46_hard_is_most_probable",
    "C46_zero_density_refuted"
   ],
   "note": "densities and expert predictions arbitrary; C46_zero_density_refuted shows the underflow case"
  },
  {
   "property": "C47",
   "status": "proved",
   "theorems": [
    "C47_first_minimal_score",
    "C47_single_point_minimal_error",
    "C47_perfect_expert_has_minimal_score",
    "C47_score_blind_refuted",
    "C47_minimal_error_refuted"
   ],
   "note": "numpy norm assumed to be the spectral norm (existence proved); C47_minimal_error_refuted and C47_score_blind_refuted show that the kept expert need not have minimal error"
  },
  {
   "property": "C48",
   "status": "proved",
   "theorems": [
    "C48_value_formula",
    "C48_trained_once",
    "C48_reproduces_high_fidelity",
    "C48_reproduces_high_fidelity_derivatives",
    "C48_derivative_rule"
   ],
   "note": "surrogates arbitrary; one output"
  },
  {
   "property": "C49",
   "status": "proved",
   "theorems": [
    "C49_effect_on_dictionaries",
    "C49_unchanged_iff",
    "C49_second_use_refuted",
    "C49_shared_dictionary_refuted"
   ],
   "note": "the original expectation (dictionaries unchanged) is refuted by C49_second_use_refuted and C49_shared_dictionary_refuted"
  },
  {
   "property": "C50",
   "status": "proved",
   "theorems": [
    "C50_levels",
    "C50_mean_is_best_linear_unbiased",
    "C50_interpolates",
    "C50_value_at_training_points",
    "C50_variance_first_level",
    "C50_variance_recursion",
    "C50_pls_variance",
    "C50_variances_nonneg",
    "C50_zero_at_first_level_points",
    "C50_zero_at_shared_points",
    "C50_third_level_positive",
    "C50_third_level_refuted"
   ],
   "note": "One output, given hyperparameters per level; QR, condition number and inverse are arbitrary functions meeting a contract (met by gs_qr, rcond01, chol_inv). C50_third_level_refuted shows the positive variance at shared points."
  },
  {
   "property": "C51",
   "status": "proved",
   "theorems": [
    "C51_accepts_iff",
    "C51_columns_from_second_level",
    "C51_first_two_levels_refuted"
   ],
   "note": "Exact acceptance condition; C51_first_two_levels_refuted shows the unchecked pair."
  },
  {
   "property": "C52",
   "status": "proved",
   "theorems": [
    "C52_transparent",
    "C52_failure_iff",
    "C52_failure_stores_nothing",
    "C52_printer",
    "C52_nothing_stored_recomputes",
    "C52_second_call_hits",
    "C52_no_directory_writes_nothing",
    "C52_no_directory_reads_None_refuted",
    "C52_rbf_matrix_missing_refuted",
    "C52_rmts_complete"
   ],
   "note": "Pickle contract assumed (load of dump is identity, truncated files do not load) and no md5 collision among the keys met; exceptions are the three _refuted theorems."
  },
  {
   "property": "C53",
   "status": "proved",
   "theorems": [
    "C53_depth_exact",
    "C53_balanced",
    "C53_leak_refuted",
    "C53_printer_goes_silent_refuted",
    "C53_times",
    "C53_last_time",
    "C53_inactive_is_quiet"
   ],
   "note": "Exact depth; C53_leak_refuted and C53_printer_goes_silent_refuted show the leak on exceptions."
  },
  {
   "property": "C54",
   "status": "proved",
   "theorems": [
    "C54_backtracking_sufficient_decrease",
    "C54_backtracking_terminates",
    "C54_ascent_never_returns_refuted",
    "C54_bracketed_strong_wolfe",
    "C54_bracketed_returns_nothing_refuted",
    "C54_midpoint_terminates",
    "C54_parabola",
    "C54_quadratic_exact",
    "C54_cubic_interpolant",
    "C54_cubic_trial",
    "C54_cubic_raises",
    "C54_cubic_on_quadratics",
    "C54_cubic_on_quadratics_refuted"
   ],
   "note": "midpoint search ends, quadratic search exact on convex quadratics; includes the bracketing searches for any trial rule; _refuted theorems: ascent direction never returns, bracketed search returns no point on a decreasing line, cubic search raises on a quadratic (exact arithmetic: the leading coefficient is exactly 0)"
  },
  {
   "property": "C55",
   "status": "proved",
   "theorems": [
    "C55_fixed_points_are_solutions",
    "C55_iterations_keep_solutions",
    "C55_dominant_rate",
    "C55_gs_energy",
    "C55_gs_converges",
    "C55_jacobi_refuted"
   ],
   "note": "Sparse LU is any function solving triangular systems; exact arithmetic. C55_jacobi_refuted: divergence of Jacobi on a positive definite matrix."
  },
  {
   "property": "C56",
   "status": "proved",
   "theorems": [
    "C56_given_points",
    "C56_training_points",
    "C56_other_calls",
    "C56_several_outputs",
    "C56_zero_data"
   ],
   "note": "Property states the exact behaviour of every argument combination, including the failing ones."
  },
  {
   "property": "C57",
   "status": "proved",
   "theorems": [
    "C57_restored_iff",
    "C57_single_block",
    "C57_redirection_lost_refuted",
    "C57_nested_not_silent_refuted",
    "C57_nested_closes_stdout_refuted",
    "C57_silence2_does_not_silence_refuted"
   ],
   "note": "Exact condition for restoration; _refuted theorems are the nested/redirected failures."
  },
  {
   "property": "C58",
   "status": "proved",
   "theorems": [
    "C58_values",
    "C58_smooth",
    "C58_lp_norm",
    "C58_robot_arm",
    "C58_cantilever",
    "C58_limits",
    "C58_cantilever_domain",
    "C58_high_order_refuted",
    "C58_call",
    "C58_out_of_range"
   ],
   "note": "The complex-step problems are C110. C58_high_order_refuted: order >= 3 never returns a derivative."
  },
  {
   "property": "C59",
   "status": "proved",
   "theorems": [
    "C59_accepted",
    "C59_section",
    "C59_ndim_rosenbrock",
    "C59_ndim_robot_arm",
    "C59_ndim_cantilever",
    "C59_repeated_refuted",
    "C59_negative_refuted"
   ],
   "note": "Exact acceptance condition; _refuted theorems: repeated and negative indices give wrong derivatives."
  },
  {
   "property": "C60",
   "status": "proved",
   "theorems": [
    "C60_partition",
    "C60_nonpositive_sizes",
    "C60_seeded_epochs_repeat"
   ],
   "note": "Property reworded to the exact behaviour for every integer batch size."
  },
  {
   "property": "C61",
   "status": "proved",
   "theorems": [
    "C61_forward",
    "C61_jacobian",
    "C61_predicted_values",
    "C61_predicted_derivatives"
   ],
   "note": "Exact condition under which scaled derivative predictions are partial derivatives; other shapes in C65."
  },
  {
   "property": "C62",
   "status": "proved",
   "theorems": [
    "C62_cost",
    "C62_cost_values",
    "C62_gradient",
    "C62_intermediate_gamma_refuted",
    "C62_negative_lambda_refuted",
    "C62_no_derivatives_refuted"
   ],
   "note": "Property states the exact range of gamma, lambd and batch size; _refuted theorems are the failing cases."
  },
  {
   "property": "C63",
   "status": "proved",
   "theorems": [
    "C63_activations"
   ],
   "note": ""
  },
  {
   "property": "C64",
   "status": "proved",
   "theorems": [
    "C64_line_search_ends",
    "C64_at_most_six_tries",
    "C64_factor_one_refuted",
    "C64_accepted",
    "C64_optimize_ends",
    "C64_optimize",
    "C64_worse_than_start_refuted"
   ],
   "note": "Exact: _refuted theorems give the non-terminating factor and the worse-than-start case."
  },
  {
   "property": "C65",
   "status": "proved",
   "theorems": [
    "C65_fails_exactly",
    "C65_one_point_refuted",
    "C65_square_scaling_refuted"
   ],
   "note": "Exact failing condition; shapes and broadcasting of Model.gradient modelled."
  },
  {
   "property": "C66",
   "status": "proved",
   "theorems": [
    "C66_training_data_replaced",
    "C66_predictions"
   ],
   "note": "The intended property is false of the code; the property states what happens instead."
  },
  {
   "property": "C67",
   "status": "proved",
   "theorems": [
    "C67_sampling_legal",
    "C67_decoding_legal"
   ],
   "note": "inner sampler is an arbitrary function returning nt rows inside the relaxed bounds"
  },
  {
   "property": "C68",
   "status": "proved",
   "theorems": [
    "C68_train_predict_same_points",
    "C68_noninteger_training_refuted"
   ],
   "note": "iff; witness of the other case in C68_noninteger_training_refuted"
  },
  {
   "property": "C69",
   "status": "proved",
   "theorems": [
    "C69_derivative_is_partial_derivative",
    "C69_clamped_value_is_flat",
    "C69_clamped_derivative_refuted"
   ],
   "note": "C69_clamped_derivative_refuted: nonzero derivative where the clamped value is flat"
  },
  {
   "property": "C70",
   "status": "proved",
   "theorems": [
    "C70_value_is_hermite_interpolant",
    "C70_interpolates_nodal_values",
    "C70_nodal_matrix_invertible",
    "C70_columns_in_range"
   ],
   "note": "the matrix inverse is any matrix meeting its contract, which exists in every dimension"
  },
  {
   "property": "C71",
   "status": "proved",
   "theorems": [
    "C71_derivative_is_partial_derivative"
   ],
   "note": "including element boundaries and linear extrapolation"
  },
  {
   "property": "C72",
   "status": "proved",
   "theorems": [
    "C72_stationary_is_global_minimum",
    "C72_newton_never_increases",
    "C72_training_terminates",
    "C72_quadratic_training_is_exact"
   ],
   "note": "linear solver is any exact solver; even approximation orders (default 4)"
  },
  {
   "property": "C73",
   "status": "proved",
   "theorems": [
    "C73_training_raises_iff",
    "C73_zero_outputs_refuted"
   ],
   "note": "iff, and C73_zero_outputs_refuted: all-zero outputs cannot be trained on"
  },
  {
   "property": "C74",
   "status": "proved",
   "theorems": [
    "C74_rmtb_energy_terms",
    "C74_rmtc_energy_terms"
   ],
   "note": "RMTB and RMTC"
  },
  {
   "property": "C75",
   "status": "proved",
   "theorems": [
    "C75_output_derivatives_exact"
   ],
   "note": "approximation order 2; for higher orders the code uses the matrix of the previous iterate"
  },
  {
   "property": "C76",
   "status": "proved",
   "theorems": [
    "C76_idw_output_derivatives",
    "C76_rbf_output_derivatives",
    "C76_rbf_cached_refuted"
   ],
   "note": "IDW for every order; RBF for every exact linear solver"
  },
  {
   "property": "C77",
   "status": "proved",
   "theorems": [
    "C77_every_row_once"
   ],
   "note": ""
  },
  {
   "property": "C78",
   "status": "proved",
   "theorems": [
    "C78_generalised_least_squares"
   ],
   "note": ""
  },
  {
   "property": "C79",
   "status": "proved",
   "theorems": [
    "C79_derivative_of_kriging_variance",
    "C79_derivative_of_predicted_variance",
    "C79_quadratic_refused"
   ],
   "note": "one query point per call"
  },
  {
   "property": "C80",
   "status": "proved",
   "theorems": [
    "C80_all_infinite_fails",
    "C80_constant_outputs"
   ],
   "note": "exact arithmetic"
  },
  {
   "property": "C81",
   "status": "proved",
   "theorems": [
    "C81_start_in_bounds",
    "C81_noise_start"
   ],
   "note": ""
  },
  {
   "property": "C82",
   "status": "proved",
   "theorems": [
    "C82_heaviside_factor"
   ],
   "note": "errors arbitrary reals"
  },
  {
   "property": "C83",
   "status": "proved",
   "theorems": [
    "C83_enabled_experts",
    "C83_empty_selection"
   ],
   "note": "surrogate classes given by name and supported features"
  },
  {
   "property": "C84",
   "status": "proved",
   "theorems": [
    "C84_available_iff",
    "C84_derivative_is_partial_derivative",
    "C84_linear_trend_error",
    "C84_linear_refuted"
   ],
   "note": "C84_linear_refuted is a concrete trained model whose reported derivative is wrong."
  },
  {
   "property": "C85",
   "status": "proved",
   "theorems": [
    "C85_theta_accepted_iff",
    "C85_theta_values",
    "C85_one_theta_per_level_refuted",
    "C85_noise_accepted_iff",
    "C85_noise_shape",
    "C85_one_number_per_level_refuted"
   ],
   "note": "use_het_noise off. Findings: C85_one_number_per_level_refuted (TypeError) and C85_one_theta_per_level_refuted (in-place broadcast fails)."
  },
  {
   "property": "C86",
   "status": "proved",
   "theorems": [
    "C86_default_is_coarsest_approximation",
    "C86_default_ignores_history",
    "C86_no_levels_exact",
    "C86_two_levels_keep_solutions",
    "C86_history_matters_refuted",
    "C86_names",
    "C86_iteration_limits",
    "C86_preconditioners",
    "C86_smoother_options_lost"
   ],
   "note": "Direct solver and sparse LU are arbitrary functions meeting a contract; Krylov iterations not modelled. C86_history_matters_refuted: history dependence with a smoother."
  },
  {
   "property": "C87",
   "status": "proved",
   "theorems": [
    "C87_trend_span",
    "C87_trend_count"
   ],
   "note": "Added after a surviving mutant of the quadratic trend."
  },
  {
   "property": "C88",
   "status": "proved",
   "theorems": [
    "C88_betas_ignored",
    "C88_betas_ignored_failures"
   ],
   "note": ""
  },
  {
   "property": "C89",
   "status": "proved",
   "theorems": [
    "C89_stops_exactly",
    "C89_default_never_stops_early"
   ],
   "note": ""
  },
  {
   "property": "C90",
   "status": "proved",
   "theorems": [
    "C90_training_data_needed",
    "C90_data_accepted",
    "C90_trains_exactly",
    "C90_one_point_refuted"
   ],
   "note": "Exact success condition; numpy randomness is a parameter (any generator)."
  },
  {
   "property": "C91",
   "status": "proved",
   "theorems": [
    "C91_epoch_is_adam_on_objective",
    "C91_direction_is_gradient"
   ],
   "note": ""
  },
  {
   "property": "C92",
   "status": "proved",
   "theorems": [
    "C92_same_initial_weights",
    "C92_initial_weights_not_seeded_refuted",
    "C92_second_training_reproducible"
   ],
   "note": "Any random generator is a parameter of the model."
  },
  {
   "property": "C93",
   "status": "proved",
   "theorems": [
    "C93_loaded_values",
    "C93_trained_values",
    "C93_not_restored_refuted"
   ],
   "note": ""
  },
  {
   "property": "C94",
   "status": "proved",
   "theorems": [
    "C94_mean_and_deviation",
    "C94_constant_data",
    "C94_training_data_recovered",
    "C94_derivatives_consistent"
   ],
   "note": ""
  },
  {
   "property": "C95",
   "status": "proved",
   "theorems": [
    "C95_gradient",
    "C95_objective",
    "C95_undefined_iff",
    "C95_same_likelihood"
   ],
   "note": "Hypothesis: the likelihood has a value at all nearby hyperparameters, and the data are not exactly a trend (then sigma2 is 0 and the likelihood infinite)."
  },
  {
   "property": "C96",
   "status": "proved",
   "theorems": [
    "C96_hessian",
    "C96_symmetric",
    "C96_indices"
   ],
   "note": "Only MGP calls the Hessian, with dof = nt; with the dof of MFK the formula would be wrong."
  },
  {
   "property": "C97",
   "status": "proved",
   "theorems": [
    "C97_prior",
    "C97_likelihood",
    "C97_gradient",
    "C97_hessian",
    "C97_precision_is_minus_hessian"
   ],
   "note": "Training is modelled at given hyperparameters (the TNC search itself is scipy); the prior mean is a single number, the only length that broadcasts."
  },
  {
   "property": "C98",
   "status": "proved",
   "theorems": [
    "C98_round_trip",
    "C98_defined_iff",
    "C98_same_prediction",
    "C98_active_subspace",
    "C98_wrong_dimension",
    "C98_options",
    "C98_components"
   ],
   "note": ""
  },
  {
   "property": "C99",
   "status": "proved",
   "theorems": [
    "C99_mean",
    "C99_mse"
   ],
   "note": "For a linear or quadratic trend the MSE itself carries the defect of C37 (transposed triangular solve), so the statement is about the constant trend, the only case in which the derivative is right by construction."
  },
  {
   "property": "C100",
   "status": "proved",
   "theorems": [
    "C100_formula",
    "C100_lower_bound",
    "C100_undefined_iff_singular",
    "C100_zero_at_training_points",
    "C100_output_scaling"
   ],
   "note": "The docstring announces the pair (MSE, MGPMSE); the code returns it the other way round. The missing output scale in the first-order term is a finding."
  },
  {
   "property": "C101",
   "status": "proved",
   "theorems": [
    "C101_equivalent_to_all_observations",
    "C101_variance_constant_trend",
    "C101_mean_where_no_noise",
    "C101_interpolates_where_observations_agree",
    "C101_inputs_kept",
    "C101_order_irrelevant",
    "C101_trains",
    "C101_noise0_length",
    "C101_one_output",
    "C101_several_outputs_refuted",
    "C101_outputs_tied"
   ],
   "note": "Hyperparameters are given (C81 treats their search). The failure for several outputs is a finding: np.mean without axis averages all outputs together and leaves one-dimensional coefficients."
  },
  {
   "property": "C102",
   "status": "proved",
   "theorems": [
    "C102_local_data",
    "C102_coefficients_nonnegative",
    "C102_extra_points",
    "C102_affine_exact",
    "C102_reproduces_derivatives",
    "C102_predictor",
    "C102_trains",
    "C102_calls",
    "C102_negative_extra_points",
    "C102_missing_derivative",
    "C102_one_input",
    "C102_positions_not_read"
   ],
   "note": "The PLS regression and the Box-Behnken table are arbitrary (the table under a contract), so nothing is claimed about the quality of the chosen directions. Findings: a second train() with extra_points > 0 fails, the readable exception for missing derivatives is unreachable, the positions given with the derivatives are ignored."
  },
  {
   "property": "C103",
   "status": "proved",
   "theorems": [
    "C103_second_phase_starts_from_the_first",
    "C103_same_predictions",
    "C103_not_worse",
    "C103_zero_coefficient_randomised",
    "C103_model",
    "C103_result_consistent",
    "C103_noise_restarts",
    "C103_estimated_heteroscedastic_refuted",
    "C103_estimated_heteroscedastic_raises"
   ],
   "note": "The optimiser is arbitrary. Findings: inputs without PLS coefficient restart at a random weight; eval_noise together with use_het_noise drops a hyperparameter."
  },
  {
   "property": "C104",
   "status": "proved",
   "theorems": [
    "C104_kriging",
    "C104_likelihood",
    "C104_idw",
    "C104_idw_duplicates_refuted",
    "C104_rbf",
    "C104_qp",
    "C104_ls",
    "C104_rmtb",
    "C104_rmtc"
   ],
   "note": "The rank tests of the likelihood are assumed not to depend on the order of rows (they are functions of singular values)."
  },
  {
   "property": "C105",
   "status": "proved",
   "theorems": [
    "C105_given_noise",
    "C105_estimated_noise",
    "C105_replicated_inputs",
    "C105_two_stages",
    "C105_keeps_predictions",
    "C105_zero_variance",
    "C105_not_zero_at_own_inputs",
    "C105_zero_variance_refuted",
    "C105_repeated_input_fails",
    "C105_outputs_overwritten",
    "C105_retrain",
    "C105_noise_length",
    "C105_het_noise_length"
   ],
   "note": "The hyperparameter search is any function of the data. Finding: the description of optim_var (variance at high-fidelity samples forced to zero) is false; it replaces the training outputs the user stored."
  },
  {
   "property": "C106",
   "status": "proved",
   "theorems": [
    "C106_retrain",
    "C106_other_shape",
    "C106_fresh",
    "C106_heteroscedastic",
    "C106_failure_blocks_training",
    "C106_after_failure",
    "C106_left_behind",
    "C106_components",
    "C106_components_refuted",
    "C106_rejected_data",
    "C106_rejected_noise"
   ],
   "note": "Whether a step raises is an oracle. Finding: an exception during training leaves the options of the level in place, so that the object refuses to train."
  },
  {
   "property": "C107",
   "status": "proved",
   "theorems": [
    "C107_trains_together",
    "C107_as_if_alone",
    "C107_reproduces",
    "C107_likelihood",
    "C107_units",
    "C107_order_of_outputs",
    "C107_constant_output",
    "C107_proportional_outputs"
   ],
   "note": "Hyperparameters given, as in C35; the combination law of the objective assumes no output is reproduced by the trend alone (sigma2 > 0)."
  },
  {
   "property": "C108",
   "status": "proved",
   "theorems": [
    "C108_kriging",
    "C108_variance_linear_refuted",
    "C108_likelihood",
    "C108_idw",
    "C108_rbf",
    "C108_qp",
    "C108_ls"
   ],
   "note": "The rank tests of the likelihood are assumed not to depend on the order of columns (they are functions of singular values). Finding: the reported variance with a linear trend depends on the order of the variables (only the diagonal of G is used)."
  },
  {
   "property": "C109",
   "status": "proved",
   "theorems": [
    "C109_rmtb_objective",
    "C109_rmtc_objective"
   ],
   "note": "At most 10^14 elements per dimension for RMTB (quadrature points must lie further than the C++ eps from the ends); what training finds is C72."
  },
  {
   "property": "C110",
   "status": "proved",
   "theorems": [
    "C110_values",
    "C110_complex_step",
    "C110_central",
    "C110_documented_refuted",
    "C110_documented_inertia_refuted",
    "C110_domain"
   ],
   "note": "Exact arithmetic: the complex step is shown consistent (limit as the step tends to 0, and defined for every small step); in double precision the step 1e-20 squared vanishes. C110_documented_refuted: the printed documentation of the welded beam is another function; C110_documented_inertia_refuted: torsion inertia lacks a factor D/2 in the documentation."
  },
  {
   "property": "C111",
   "status": "proved",
   "theorems": [
    "C111_each_output_as_alone",
    "C111_raises_iff",
    "C111_kept_matrix",
    "C111_order_two_derivatives",
    "C111_order_four_derivatives_refuted",
    "C111_retraining_keeps_matrix",
    "C111_retrained_derivatives_refuted"
   ],
   "note": "Linear solver and line search are arbitrary stateless functions; the state multigrid solvers carry from call to call is C86."
  },
  {
   "property": "C112",
   "status": "proved",
   "theorems": [
    "C112_genn_training",
    "C112_genn_values",
    "C112_genn_derivatives",
    "C112_idw_outputs",
    "C112_idw_inputs",
    "C112_idw_anisotropic_refuted",
    "C112_rbf_outputs",
    "C112_rbf_shift_refuted",
    "C112_rbf_inputs",
    "C112_qp",
    "C112_ls_training_points",
    "C112_ls",
    "C112_rmts_outputs",
    "C112_rmts_order4_refuted",
    "C112_rmtb_training",
    "C112_rmtc_training",
    "C112_rmtb_predictions",
    "C112_rmtc_predictions",
    "C112_rmtb_energy",
    "C112_rmtc_energy",
    "C112_rmtb_derivative_data",
    "C112_rmtc_derivative_data"
   ],
   "note": "The refuted theorems are the witnesses for the exclusions named in the property. Linear solvers enter by their contracts (solution of the system, inverse, normal equations); existence and uniqueness of RBF solutions is proved with the RBF properties."
  },
  {
   "property": "C113",
   "status": "proved",
   "theorems": [
    "C113_ei_zero_iff",
    "C113_ei_bounds",
    "C113_normal_distribution",
    "C113_variance_zero_iff",
    "C113_process_variance_zero_iff",
    "C113_variance_at_data",
    "C113_no_repeats",
    "C113_virtual_points",
    "C113_criteria",
    "C113_budget",
    "C113_failures_reevaluate"
   ],
   "note": "The internal optimiser and the virtual value are arbitrary functions in the loop theorems; the normal distribution function is any antiderivative of the density vanishing at minus infinity (shown unique, Gaussian integral proved)."
  },
  {
   "property": "C114",
   "status": "proved",
   "theorems": [
    "C114_order_and_units",
    "C114_units_of_each_level"
   ],
   "note": "QR, condition numbers and the inverse enter by their contracts (invariance of the condition numbers under reordering of rows and under equal Gram matrices)."
  },
  {
   "property": "C115",
   "status": "proved",
   "theorems": [
    "C115_r_squared",
    "C115_several_responses",
    "C115_several_responses_refuted",
    "C115_report",
    "C115_report_partials",
    "C115_csv_succeeds",
    "C115_csv_contents"
   ],
   "note": "Files are taken as already split into names and numbers; negative indices of response and partial are not modelled; the refuted theorem is the witness that several responses in one call can raise the R-square."
  },
  {
   "property": "C116",
   "status": "proved",
   "theorems": [
    "C116_kriging_reverts_to_the_trend",
    "C116_kriging_constant_trend",
    "C116_kriging_trend_variance",
    "C116_idw_mean",
    "C116_rbf_tail",
    "C116_genn_bounded",
    "C116_blind_input_refuted"
   ],
   "note": "The hyperparameters are those in force after training; QR and the condition number enter by their contracts; the refuted theorem is the exact exception (an input with theta = 0)."
  },
  {
   "property": "C117",
   "status": "proved",
   "theorems": [
    "C117_kriging_trainable",
    "C117_kriging_weights",
    "C117_kriging_superposition",
    "C117_kriging_derivative_superposition",
    "C117_kriging_reproduces_polynomials",
    "C117_idw",
    "C117_rbf",
    "C117_qp",
    "C117_ls"
   ],
   "note": "At given hyperparameters (the search itself depends on the outputs); QR, condition numbers and the least-squares routine enter by their contracts."
  },
  {
   "property": "C118",
   "status": "proved",
   "theorems": [
    "C118_order_irrelevant",
    "C118_seed_has_no_effect",
    "C118_minibatch_order_refuted"
   ],
   "note": "In real arithmetic (numpy sums in another order round differently); the generator is an arbitrary state machine whose shuffles are permutations; the refuted theorem is the exact exception for mini-batches."
  },
  {
   "property": "C119",
   "status": "proved",
   "theorems": [
    "C119_kriging_same_predictions",
    "C119_kriging_rescaled",
    "C119_kriging_variance",
    "C119_kriging_relative_variance",
    "C119_kriging_unchanged_theta_refuted",
    "C119_rbf",
    "C119_ls",
    "C119_qp",
    "C119_idw_refuted"
   ],
   "note": "At given hyperparameters (the search itself depends on the data); the refuted theorems are the exact exceptions."
  },
  {
   "property": "C120",
   "status": "proved",
   "theorems": [
    "C120_idw",
    "C120_idw_derivatives",
    "C120_rbf",
    "C120_rbf_derivatives",
    "C120_rmtb",
    "C120_rmtc",
    "C120_kriging_values",
    "C120_kriging_variances",
    "C120_kriging_derivatives",
    "C120_variance_derivatives",
    "C120_alone"
   ],
   "note": "LAPACK triangular solves are taken column by column; the B-spline bases and local coordinates of one point are those of the one-point models (C06-C12); GENN batches are C65, QP shapes C30."
  },
  {
   "property": "C121",
   "status": "proved",
   "theorems": [
    "C121_rmtb_values",
    "C121_rmtb_inside",
    "C121_rmtb_derivatives",
    "C121_slope_is_derivative",
    "C121_linear_functions",
    "C121_order_one_refuted",
    "C121_rmtc_values",
    "C121_rmtc_derivatives",
    "C121_rmtc_linear_extrapolation",
    "C121_rmtb_linear_extrapolation",
    "C121_rmtb_training",
    "C121_rmtb_quadratic_training",
    "C121_rmtc_training",
    "C121_rmtc_quadratic_training"
   ],
   "note": "the training bound uses the exact solution of the linear systems (solver contract as in C72); smoothness and weights non-negative; at most 1e14 elements per dimension."
  },
  {
   "property": "C122",
   "status": "proved",
   "theorems": [
    "C122_prediction_update",
    "C122_error_update",
    "C122_process_variance_update",
    "C122_constant_trend"
   ],
   "note": "At given hyperparameters (standing for the same kernel of the raw inputs, as in C119); QR and the condition numbers enter by their contracts."
  },
  {
   "property": "C123",
   "status": "proved",
   "theorems": [
    "C123_exact_solvers",
    "C123_choice_is_irrelevant",
    "C123_exact_training_is_optimal",
    "C123_dense_lu_never_trains",
    "C123_null_trains_to_zero",
    "C123_gs_first_iteration",
    "C123_dense_chol_copy",
    "C123_dense_chol_exact_refuted"
   ],
   "note": "Whether solve_triangular with overwrite_b writes into the array it is given is a parameter of the model (SciPy does for contiguous arrays and copies otherwise). Refuted: exactness of dense-chol when it copies, with a one-coefficient witness. Krylov and ilu are arbitrary functions here: nothing is claimed of them."
  },
  {
   "property": "C124",
   "status": "proved",
   "theorems": [
    "C124_idw",
    "C124_rbf",
    "C124_rbf_scales_refuted",
    "C124_ls_training_points",
    "C124_ls",
    "C124_qp",
    "C124_qp_directions"
   ],
   "note": "Linear solves by contract (RBF: any solutions of the two systems; LS: normal equations; QP: inverses of the two Gram matrices). Refuted for RBF with different length scales: two inputs and a quarter turn."
  },
  {
   "property": "C125",
   "status": "proved",
   "theorems": [
    "C125_ls",
    "C125_qp",
    "C125_rbf",
    "C125_idw",
    "C125_kriging_value",
    "C125_kriging_variance",
    "C125_rmtb",
    "C125_rmtc",
    "C125_rmtc_derivatives",
    "C125_rmtb_order1_refuted",
    "C125_moe_smooth",
    "C125_moe_hard_refuted"
   ],
   "note": "About exact real arithmetic. RMTC: the inverse of the nodal matrix by contract. Refuted for order-1 RMTB and for the hard recombination, each by a concrete jump."
  },
  {
   "property": "C126",
   "status": "proved",
   "theorems": [
    "C126_idw",
    "C126_idw_monotone",
    "C126_moe_smooth",
    "C126_ls",
    "C126_qp",
    "C126_ls_elsewhere_refuted",
    "C126_rbf_refuted"
   ],
   "note": "Linear solves by contract. Refuted for LS away from the training points (two points, errors -1 and 1, change 3) and for RBF between them."
  }
 ]
}