{
 "claims": [
  {
   "property": "C01",
   "status": "proved",
   "theorems": [
    "C01_registry_integrity",
    "C01_raises_iff",
    "C01_raise_leaves_unchanged"
   ],
   "note": ""
  },
  {
   "property": "C02",
   "status": "proved",
   "theorems": [
    "C02_correlation_tracks_variables"
   ],
   "note": ""
  },
  {
   "property": "C03",
   "status": "proved",
   "theorems": [
    "C03_argument_binding"
   ],
   "note": ""
  },
  {
   "property": "C04",
   "status": "proved",
   "theorems": [
    "C04_block_size_irrelevant",
    "C04_block_size_zero_diverges"
   ],
   "note": ""
  },
  {
   "property": "C05",
   "status": "proved",
   "theorems": [
    "C05_call_accounting",
    "C05_counts_per_mode",
    "C05_accounting_over_history"
   ],
   "note": ""
  },
  {
   "property": "C06",
   "status": "proved",
   "theorems": [
    "C06_forward_difference",
    "C06_exact_on_affine"
   ],
   "note": ""
  },
  {
   "property": "C07",
   "status": "proved",
   "theorems": [
    "C07_two_points_raise",
    "C07_input_unchanged_refuted"
   ],
   "note": ""
  },
  {
   "property": "C08",
   "status": "proved",
   "theorems": [
    "C08_multiproc_zero_raises",
    "C08_explicit_mode_suppresses_gradient",
    "C08_ddm_returns_users_pair",
    "C08_ddm_gradient_length",
    "C08_other_modes_forward_difference",
    "C08_gradient_modes_reject_two_points"
   ],
   "note": ""
  },
  {
   "property": "C09",
   "status": "proved",
   "theorems": [
    "C09_round_trip_from_u",
    "C09_round_trip_from_x"
   ],
   "note": ""
  },
  {
   "property": "C10",
   "status": "proved",
   "theorems": [
    "C10_reliability_independent_of_factorisation",
    "C10_computed_factor",
    "C10_same_u_same_x_refuted"
   ],
   "note": ""
  },
  {
   "property": "C11",
   "status": "proved",
   "theorems": [
    "C11_jacobian_is_derivative",
    "C11_inverse_jacobian_is_derivative",
    "C11_pulled_back_gradient"
   ],
   "note": ""
  },
  {
   "property": "C12",
   "status": "proved",
   "theorems": [
    "C12_created_iff",
    "C12_type_stored_or_ValueError",
    "C12_options_change_after_construction_has_no_effect"
   ],
   "note": ""
  },
  {
   "property": "C13",
   "status": "proved",
   "theorems": [
    "C13_cholesky_correct",
    "C13_cholesky_derivative",
    "C13_cholesky_unique"
   ],
   "note": ""
  },
  {
   "property": "C14",
   "status": "proved",
   "theorems": [
    "C14_dinv_algebra",
    "C14_dinv_is_derivative"
   ],
   "note": ""
  },
  {
   "property": "C15",
   "status": "proved",
   "theorems": [
    "C15_rotation_matrix",
    "C15_succeeds_if_last_relevant",
    "C15_raises_if_last_irrelevant",
    "C15_one_variable_raises",
    "C15_gram_schmidt_qr"
   ],
   "note": ""
  },
  {
   "property": "C16",
   "status": "proved",
   "theorems": [
    "C16_breitung_value",
    "C16_zero_curvature_is_form",
    "C16_antitone_in_curvature",
    "C16_positive_curvature_reduces",
    "C16_excessive_curvature_rejected",
    "C16_boundary_not_rejected",
    "C16_pf_at_most_one_refuted",
    "C16_hr_value",
    "C16_negative_beta_admissible_rejected",
    "C16_negative_beta_never_finite"
   ],
   "note": ""
  },
  {
   "property": "C17",
   "status": "proved",
   "theorems": [
    "C17_symmetric_agreement",
    "C17_pointfit_positive",
    "C17_sides_interchangeable",
    "C17_pointfit_rejects_iff"
   ],
   "note": ""
  },
  {
   "property": "C18",
   "status": "proved",
   "theorems": [
    "C18_newton_contract",
    "C18_linear_direction_exact",
    "C18_trial_distance"
   ],
   "note": ""
  },
  {
   "property": "C19",
   "status": "proved",
   "theorems": [
    "C19_ddm_pulls_back_at_the_point",
    "C19_ffd_pulls_back_at_shifted_point",
    "C19_harmless_for_constant_jacobians",
    "C19_correct_point_refuted"
   ],
   "note": ""
  },
  {
   "property": "C20",
   "status": "proved",
   "theorems": [
    "C20_mixed_hessian_raises",
    "C20_mixed_hessian_without_gradient"
   ],
   "note": ""
  },
  {
   "property": "C21",
   "status": "proved",
   "theorems": [
    "C21_terminates",
    "C21_converged_or_at_limit",
    "C21_nonpositive_limit_diverges"
   ],
   "note": ""
  },
  {
   "property": "C22",
   "status": "proved",
   "theorems": [
    "C22_result_consistency",
    "C22_defined_unless_gradient_vanishes"
   ],
   "note": ""
  },
  {
   "property": "C23",
   "status": "proved",
   "theorems": [
    "C23_automatic_step",
    "C23_fixed_step",
    "C23_penalty_bound",
    "C23_descent"
   ],
   "note": ""
  },
  {
   "property": "C24",
   "status": "proved",
   "theorems": [
    "C24_automatic_exact_from_origin",
    "C24_full_step_exact",
    "C24_converged_accuracy",
    "C24_automatic_converges",
    "C24_iterations_exist",
    "C24_linear_normal",
    "C24_linear_normal_beta"
   ],
   "note": ""
  },
  {
   "property": "C25",
   "status": "proved",
   "theorems": [
    "C25_direction_vanishes_iff_stationary"
   ],
   "note": ""
  },
  {
   "property": "C26",
   "status": "proved",
   "theorems": [
    "C26_labels_right_iff_constants_last",
    "C26_last_variable_missing",
    "C26_constant_gets_alpha"
   ],
   "note": ""
  },
  {
   "property": "C27",
   "status": "proved",
   "theorems": [
    "C27_start_on_surface_never_converges"
   ],
   "note": ""
  },
  {
   "property": "C28",
   "status": "proved",
   "theorems": [
    "C28_limit_state_contract",
    "C28_crude_estimate",
    "C28_beta",
    "C28_terminates",
    "C28_zero_block_diverges",
    "C28_block_size_irrelevant_one_variable",
    "C28_block_size_matters_refuted"
   ],
   "note": ""
  },
  {
   "property": "C29",
   "status": "proved",
   "theorems": [
    "C29_weight_is_likelihood_ratio",
    "C29_draw_is_shifted_scaled",
    "C29_Pf_is_mean_weight",
    "C29_unit_sampling_is_crude"
   ],
   "note": ""
  },
  {
   "property": "C30",
   "status": "proved",
   "theorems": [
    "C30_stopping_rule",
    "C30_all_or_none_uses_all_samples"
   ],
   "note": ""
  },
  {
   "property": "C31",
   "status": "proved",
   "theorems": [
    "C31_other_methods",
    "C31_no_failure"
   ],
   "note": ""
  },
  {
   "property": "C32",
   "status": "proved",
   "theorems": [
    "C32_records",
    "C32_second_run_appends",
    "C32_distribution_analysis"
   ],
   "note": ""
  },
  {
   "property": "C33",
   "status": "proved",
   "theorems": [
    "C33_print_flag"
   ],
   "note": ""
  },
  {
   "property": "C34",
   "status": "proved",
   "theorems": [
    "C34_level_invariants",
    "C34_never_raises"
   ],
   "note": ""
  },
  {
   "property": "C35",
   "status": "proved",
   "theorems": [
    "C35_p0_checked",
    "C35_never_zero",
    "C35_always_a_seed",
    "C35_percentile"
   ],
   "note": ""
  },
  {
   "property": "C36",
   "status": "proved",
   "theorems": [
    "C36_level",
    "C36_chain_lengths",
    "C36_total_evaluations"
   ],
   "note": ""
  },
  {
   "property": "C37",
   "status": "proved",
   "theorems": [
    "C37_diverges_without_failures"
   ],
   "note": ""
  },
  {
   "property": "C38",
   "status": "proved",
   "theorems": [
    "C38_component_invariance",
    "C38_reversible_step",
    "C38_acceptance_probability",
    "C38_detailed_balance",
    "C38_proposal_symmetric",
    "C38_joint_proposal"
   ],
   "note": ""
  },
  {
   "property": "C39",
   "status": "proved",
   "theorems": [
    "C39_geometry",
    "C39_parameter_range",
    "C39_estimate"
   ],
   "note": ""
  },
  {
   "property": "C40",
   "status": "proved",
   "theorems": [
    "C40_bracket",
    "C40_bracket_contains_root",
    "C40_no_crossing",
    "C40_nan_gap_refuted"
   ],
   "note": ""
  },
  {
   "property": "C41",
   "status": "proved",
   "theorems": [
    "C41_structure",
    "C41_uncorrelated_identity",
    "C41_lower_triangle_only",
    "C41_raises_iff",
    "C41_reproduces_correlation",
    "C41_tables_agree",
    "C41_table_monotone"
   ],
   "note": ""
  },
  {
   "property": "C42",
   "status": "proved",
   "theorems": [
    "C42_density",
    "C42_density_derivative",
    "C42_integral_derivative",
    "C42_exchange_symmetric",
    "C42_is_product_rule"
   ],
   "note": ""
  },
  {
   "property": "C43",
   "status": "proved",
   "theorems": [
    "C43_implicit_derivative_first",
    "C43_implicit_derivative_second"
   ],
   "note": ""
  },
  {
   "property": "C44",
   "status": "proved",
   "theorems": [
    "C44_lengths",
    "C44_symmetric",
    "C44_odd_integrand_zero",
    "C44_centre_branch_unreachable",
    "C44_odd_rule_centre"
   ],
   "note": ""
  },
  {
   "property": "C45",
   "status": "proved",
   "theorems": [
    "C45_bookkeeping",
    "C45_options_never_used"
   ],
   "note": ""
  },
  {
   "property": "C46",
   "status": "proved",
   "theorems": [
    "C46_symmetric_zero_diagonal",
    "C46_correlation_derivative",
    "C46_svd_refuted"
   ],
   "note": ""
  },
  {
   "property": "C47",
   "status": "proved",
   "theorems": [
    "C47_normal_dF",
    "C47_lognormal_dF",
    "C47_lognormal_dF_after_updates"
   ],
   "note": ""
  },
  {
   "property": "C48",
   "status": "proved",
   "theorems": [
    "C48_closed_form_round_trip",
    "C48_lognormal_reconstruction",
    "C48_uniform_reconstruction",
    "C48_gumbel_round_trip_up_to_constant",
    "C48_gamma_chisquare",
    "C48_solver_based",
    "C48_gevmax_round_trip"
   ],
   "note": ""
  },
  {
   "property": "C49",
   "status": "proved",
   "theorems": [
    "C49_construction_raises_iff",
    "C49_cdf",
    "C49_ppf",
    "C49_moments",
    "C49_set_zero_probability_unchecked",
    "C49_pdf",
    "C49_jacobian"
   ],
   "note": ""
  },
  {
   "property": "C50",
   "status": "proved",
   "theorems": [
    "C50_construction_raises_iff",
    "C50_maximum_cdf_is_power",
    "C50_pdf_is_derivative",
    "C50_parent_of_maximum",
    "C50_monotone_in_N",
    "C50_ppf_and_maps"
   ],
   "note": ""
  },
  {
   "property": "C51",
   "status": "proved",
   "theorems": [
    "C51_gevmin_is_mirrored",
    "C51_reported_mean"
   ],
   "note": ""
  },
  {
   "property": "C52",
   "status": "proved",
   "theorems": [
    "C52_normal_updates",
    "C52_lognormal_updates",
    "C52_uniform_updates",
    "C52_scipy_updates"
   ],
   "note": ""
  },
  {
   "property": "C53",
   "status": "proved",
   "theorems": [
    "C53_gevmax_maps",
    "C53_normal_maps",
    "C53_lognormal_maps",
    "C53_shiftedlognormal_maps",
    "C53_uniform_maps",
    "C53_scipy_maps",
    "C53_scipy_classes_maps"
   ],
   "note": ""
  },
  {
   "property": "C54",
   "status": "proved",
   "theorems": [
    "C54_construction",
    "C54_case_contents",
    "C54_labels",
    "C54_case_model",
    "C54_unknown_case",
    "C54_default_case"
   ],
   "note": ""
  },
  {
   "property": "C55",
   "status": "proved",
   "theorems": [
    "C55_reindexed_correlation",
    "C55_symmetry_and_diagonal",
    "C55_duplicate_labels_raise"
   ],
   "note": ""
  },
  {
   "property": "C56",
   "status": "proved",
   "theorems": [
    "C56_no_constants_raises",
    "C56_arguments"
   ],
   "note": ""
  },
  {
   "property": "C57",
   "status": "proved",
   "theorems": [
    "C57_coefficient_factors",
    "C57_gamma_constant",
    "C57_shared_leading_variable_refuted"
   ],
   "note": ""
  },
  {
   "property": "C58",
   "status": "proved",
   "theorems": [
    "C58_design_equations",
    "C58_case_order_refuted",
    "C58_square_system_needed",
    "C58_calibration_variable_must_be_z"
   ],
   "note": ""
  },
  {
   "property": "C59",
   "status": "proved",
   "theorems": [
    "C59_phi_min",
    "C59_psi_max",
    "C59_psi_max_dominates"
   ],
   "note": ""
  },
  {
   "property": "C60",
   "status": "proved",
   "theorems": [
    "C60_alpha_loop",
    "C60_zero_max_iter_diverges",
    "C60_stored_designs",
    "C60_design_point_table",
    "C60_converged_start_raises"
   ],
   "note": ""
  },
  {
   "property": "C61",
   "status": "proved",
   "theorems": [
    "C61_design_parameter",
    "C61_unit_constant_needed"
   ],
   "note": ""
  },
  {
   "property": "C62",
   "status": "proved",
   "theorems": [
    "C62_design_equation",
    "C62_design_monotone",
    "C62_design_inverse_phi",
    "C62_setters",
    "C62_limit_state",
    "C62_submit_raises",
    "C62_grid"
   ],
   "note": ""
  },
  {
   "property": "C63",
   "status": "proved",
   "theorems": [
    "C63_plot_iff",
    "C63_analyse",
    "C63_plot_stale"
   ],
   "note": ""
  },
  {
   "property": "C64",
   "status": "proved",
   "theorems": [
    "C64_flag_iff_started",
    "C64_failed_run_claims_valid_refuted",
    "C64_form_shows_last_completed",
    "C64_sorm_flag",
    "C64_sorm_unknown_fit"
   ],
   "note": ""
  },
  {
   "property": "C65",
   "status": "proved",
   "theorems": [
    "C65_starting_point"
   ],
   "note": ""
  },
  {
   "property": "C66",
   "status": "proved",
   "theorems": [
    "C66_cdf_is_distribution",
    "C66_ppf_inverts_cdf"
   ],
   "note": ""
  },
  {
   "property": "C67",
   "status": "proved",
   "theorems": [
    "C67_hessian_exact_on_quadratics",
    "C67_paraboloid_curvatures"
   ],
   "note": ""
  },
  {
   "property": "C68",
   "status": "proved",
   "theorems": [
    "C68_form_function_calls"
   ],
   "note": ""
  },
  {
   "property": "C69",
   "status": "proved",
   "theorems": [
    "C69_zero_is_failure_for_subset_only"
   ],
   "note": ""
  },
  {
   "property": "C70",
   "status": "proved",
   "theorems": [
    "C70_affine_exact"
   ],
   "note": ""
  },
  {
   "property": "C71",
   "status": "proved",
   "theorems": [
    "C71_exceptions_swallowed"
   ],
   "note": ""
  },
  {
   "property": "C72",
   "status": "proved",
   "theorems": [
    "C72_recursion_is_legendre",
    "C72_derivatives_exact",
    "C72_start_points",
    "C72_root_fixed",
    "C72_weight_expansion",
    "C72_derivative_predictor",
    "C72_value_predictor_refuted",
    "C72_value_predictor_witness",
    "C72_one_point_rule"
   ],
   "note": ""
  },
  {
   "property": "C73",
   "status": "proved",
   "theorems": [
    "C73_affine_invariant",
    "C73_normal_pair_universal",
    "C73_odd_for_symmetric_marginal"
   ],
   "note": ""
  },
  {
   "property": "C74",
   "status": "proved",
   "theorems": [
    "C74_marginal_derivative"
   ],
   "note": ""
  },
  {
   "property": "C75",
   "status": "proved",
   "theorems": [
    "C75_shiftedlognormal_dF_refuted",
    "C75_unshifted_dF"
   ],
   "note": ""
  },
  {
   "property": "C76",
   "status": "proved",
   "theorems": [
    "C76_envelope_design_conservative"
   ],
   "note": ""
  },
  {
   "property": "C77",
   "status": "proved",
   "theorems": [
    "C77_region",
    "C77_line_is_last_ratio",
    "C77_smallest_ratio_refuted"
   ],
   "note": ""
  },
  {
   "property": "C78",
   "status": "proved",
   "theorems": [
    "C78_curvefit_excessive_curvature",
    "C78_curvefit_shows",
    "C78_pointfit_shows"
   ],
   "note": ""
  },
  {
   "property": "C79",
   "status": "proved",
   "theorems": [
    "C79_scipy_objects",
    "C79_families",
    "C79_gamma_exists",
    "C79_classes",
    "C79_normal",
    "C79_lognormal",
    "C79_lognormal_updates",
    "C79_shiftedlognormal",
    "C79_uniform",
    "C79_uniform_updates_refuted",
    "C79_zero_inflated",
    "C79_gevmin_refuted"
   ],
   "note": ""
  },
  {
   "property": "C80",
   "status": "proved",
   "theorems": [
    "C80_subset_simulation",
    "C80_line_sampling"
   ],
   "note": ""
  },
  {
   "property": "C81",
   "status": "proved",
   "theorems": [
    "C81_values",
    "C81_raises",
    "C81_copy_arguments",
    "C81_accuracy",
    "C81_location_scale_classes",
    "C81_normal_lognormal",
    "C81_shape_classes",
    "C81_constructor_defaults",
    "C81_gev",
    "C81_gumbel",
    "C81_updates_lost_refuted"
   ],
   "note": ""
  },
  {
   "property": "C82",
   "status": "proved",
   "theorems": [
    "C82_reported_cdf_sensitivities",
    "C82_copies",
    "C82_numerical_branch_right"
   ],
   "note": ""
  },
  {
   "property": "C83",
   "status": "proved",
   "theorems": [
    "C83_composites_unsupported",
    "C83_numerical_sensitivities_raise"
   ],
   "note": ""
  },
  {
   "property": "C84",
   "status": "proved",
   "theorems": [
    "C84_evaluation",
    "C84_form_fixed_step",
    "C84_automatic_step_refuted"
   ],
   "note": ""
  },
  {
   "property": "C85",
   "status": "proved",
   "theorems": [
    "C85_only_signs_matter",
    "C85_units"
   ],
   "note": ""
  },
  {
   "property": "C86",
   "status": "proved",
   "theorems": [
    "C86_units"
   ],
   "note": ""
  },
  {
   "property": "C87",
   "status": "proved",
   "theorems": [
    "C87_curve_fit",
    "C87_point_fit_small_units",
    "C87_point_fit_invariance_refuted",
    "C87_point_fit_scaled_tolerance"
   ],
   "note": ""
  },
  {
   "property": "C88",
   "status": "proved",
   "theorems": [
    "C88_line_sampling",
    "C88_units"
   ],
   "note": ""
  },
  {
   "property": "C89",
   "status": "proved",
   "theorems": [
    "C89_moment_derivatives",
    "C89_gev_shape",
    "C89_gevmax_shape",
    "C89_gevmax_gumbel_refuted"
   ],
   "note": ""
  },
  {
   "property": "C90",
   "status": "proved",
   "theorems": [
    "C90_form_independent_of_factorisation"
   ],
   "note": ""
  },
  {
   "property": "C91",
   "status": "proved",
   "theorems": [
    "C91_form_independent_of_variable_order"
   ],
   "note": ""
  },
  {
   "property": "C92",
   "status": "proved",
   "theorems": [
    "C92_run_composition",
    "C92_linear_normal_full_step",
    "C92_linear_normal_exact_options",
    "C92_linear_normal_default_options",
    "C92_independent_normals",
    "C92_preparation_failures"
   ],
   "note": ""
  },
  {
   "property": "C93",
   "status": "proved",
   "theorems": [
    "C93_history_independent",
    "C93_repeated_runs",
    "C93_reported_calls_refuted"
   ],
   "note": ""
  },
  {
   "property": "C94",
   "status": "proved",
   "theorems": [
    "C94_same_samples",
    "C94_dominance",
    "C94_systems",
    "C94_complement",
    "C94_dominance_early_stop_refuted"
   ],
   "note": ""
  },
  {
   "property": "C95",
   "status": "proved",
   "theorems": [
    "C95_form_units",
    "C95_simulation_units",
    "C95_location_scale_classes",
    "C95_bounded_classes",
    "C95_units_refuted"
   ],
   "note": ""
  },
  {
   "property": "C96",
   "status": "proved",
   "theorems": [
    "C96_closed_form_exact",
    "C96_default_options"
   ],
   "note": ""
  },
  {
   "property": "C97",
   "status": "proved",
   "theorems": [
    "C97_fresh_analyses",
    "C97_linear_normal",
    "C97_converges"
   ],
   "note": ""
  },
  {
   "property": "C98",
   "status": "proved",
   "theorems": [
    "C98_linear_normal",
    "C98_last_variable_irrelevant"
   ],
   "note": ""
  },
  {
   "property": "C99",
   "status": "proved",
   "theorems": [
    "C99_paraboloid"
   ],
   "note": ""
  },
  {
   "property": "C100",
   "status": "proved",
   "theorems": [
    "C100_run_composition",
    "C100_linear_normal",
    "C100_variable_added",
    "C100_first_run_after_adding",
    "C100_nan_direction",
    "C100_constant_limit_state",
    "C100_grown_model_refuted"
   ],
   "note": ""
  },
  {
   "property": "C101",
   "status": "proved",
   "theorems": [
    "C101_run_composition",
    "C101_estimate",
    "C101_linear_normal",
    "C101_importance_linear",
    "C101_variable_added",
    "C101_constant_limit_state",
    "C101_importance_example",
    "C101_importance_above_one_refuted"
   ],
   "note": ""
  },
  {
   "property": "C102",
   "status": "proved",
   "theorems": [
    "C102_run_composition",
    "C102_estimate",
    "C102_linear_normal",
    "C102_constant_limit_state",
    "C102_failed_run_mixes",
    "C102_refused_runs",
    "C102_grown_model"
   ],
   "note": ""
  },
  {
   "property": "C103",
   "status": "proved",
   "theorems": [
    "C103_foreign_form",
    "C103_zero_probability_refuted"
   ],
   "note": ""
  },
  {
   "property": "C104",
   "status": "proved",
   "theorems": [
    "C104_loglinear_exact",
    "C104_loglinear_tolerance",
    "C104_lognormal_pair"
   ],
   "note": ""
  },
  {
   "property": "C105",
   "status": "proved",
   "theorems": [
    "C105_case_by_hand",
    "C105_missing_label",
    "C105_unknown_override_ignored",
    "C105_linear_normal_case"
   ],
   "note": ""
  },
  {
   "property": "C106",
   "status": "proved",
   "theorems": [
    "C106_table",
    "C106_variable_named_marginal_refuted",
    "C106_methods_agree"
   ],
   "note": ""
  },
  {
   "property": "C107",
   "status": "proved",
   "theorems": [
    "C107_record",
    "C107_simulation_stdv",
    "C107_figures",
    "C107_constructor",
    "C107_bins",
    "C107_other_generator"
   ],
   "note": ""
  },
  {
   "property": "C108",
   "status": "proved",
   "theorems": [
    "C108_projection_is_newton",
    "C108_alpha_converges",
    "C108_optimize_exact",
    "C108_factors_close_design_equation"
   ],
   "note": ""
  },
  {
   "property": "C109",
   "status": "proved",
   "theorems": [
    "C109_indices_exact",
    "C109_index_increases",
    "C109_code_meets_target",
    "C109_positive_correlation_refuted"
   ],
   "note": ""
  },
  {
   "property": "C110",
   "status": "proved",
   "theorems": [
    "C110_distribution_is_live",
    "C110_update",
    "C110_shared_history",
    "C110_last_values",
    "C110_moments",
    "C110_start_points",
    "C110_constructors",
    "C110_other_calls",
    "C110_moments_stale_refuted",
    "C110_update_not_idempotent_refuted"
   ],
   "note": ""
  },
  {
   "property": "C111",
   "status": "proved",
   "theorems": [
    "C111_analysis",
    "C111_linear_normal",
    "C111_importance_linear",
    "C111_importance_example",
    "C111_unbiased",
    "C111_crude_variance",
    "C111_early_stop_refuted"
   ],
   "note": ""
  },
  {
   "property": "C112",
   "status": "proved",
   "theorems": [
    "C112_tangent_bound",
    "C112_convex_domain",
    "C112_form_normal",
    "C112_linear_exact",
    "C112_form_example"
   ],
   "note": ""
  },
  {
   "property": "C113",
   "status": "proved",
   "theorems": [
    "C113_any_direction",
    "C113_transform_changed",
    "C113_wrong_side_refuted"
   ],
   "note": ""
  },
  {
   "property": "C114",
   "status": "proved",
   "theorems": [
    "C114_no_interference",
    "C114_options",
    "C114_models",
    "C114_limit_states",
    "C114_analysis",
    "C114_run",
    "C114_form_run",
    "C114_mc_run",
    "C114_print",
    "C114_print_importance"
   ],
   "note": ""
  },
  {
   "property": "C115",
   "status": "proved",
   "theorems": [
    "C115_probability",
    "C115_point_fit",
    "C115_curve_fit",
    "C115_breitung",
    "C115_breitung_unsafe_refuted",
    "C115_run"
   ],
   "note": ""
  },
  {
   "property": "C116",
   "status": "proved",
   "theorems": [
    "C116_last_completed",
    "C116_after_completed_run",
    "C116_same_analysis",
    "C116_failed_run",
    "C116_failed_rerun",
    "C116_mixture_refuted"
   ],
   "note": ""
  },
  {
   "property": "C117",
   "status": "proved",
   "theorems": [
    "C117_sampled_points",
    "C117_bias",
    "C117_lines",
    "C117_unbiased",
    "C117_last_axis",
    "C117_two_sided_refuted",
    "C117_run"
   ],
   "note": ""
  },
  {
   "property": "C118",
   "status": "proved",
   "theorems": [
    "C118_arithmetic",
    "C118_accuracy",
    "C118_same_run",
    "C118_range",
    "C118_all_failed",
    "C118_exact_model",
    "C118_exact_run",
    "C118_default_options_refuted"
   ],
   "note": ""
  },
  {
   "property": "C119",
   "status": "proved",
   "theorems": [
    "C119_last_step_twice",
    "C119_pass_order",
    "C119_point_order",
    "C119_two_passes_refuted"
   ],
   "note": ""
  },
  {
   "property": "C120",
   "status": "proved",
   "theorems": [
    "C120_arguments",
    "C120_cells",
    "C120_errors",
    "C120_other_calibration_variable_refuted"
   ],
   "note": ""
  },
  {
   "property": "C121",
   "status": "proved",
   "theorems": [
    "C121_setCorrelation_copies",
    "C121_writes_are_shared",
    "C121_assign_and_add",
    "C121_assigned_array_refuted"
   ],
   "note": ""
  },
  {
   "property": "C122",
   "status": "proved",
   "theorems": [
    "C122_roots",
    "C122_exact",
    "C122_degree_sharp",
    "C122_weights",
    "C122_rule_error"
   ],
   "note": ""
  },
  {
   "property": "C123",
   "status": "proved",
   "theorems": [
    "C123_gradient_error",
    "C123_quadratic"
   ],
   "note": ""
  },
  {
   "property": "C124",
   "status": "proved",
   "theorems": [
    "C124_newton",
    "C124_convex",
    "C124_cycle_refuted"
   ],
   "note": ""
  },
  {
   "property": "C125",
   "status": "proved",
   "theorems": [
    "C125_gamma",
    "C125_gamma_normal"
   ],
   "note": ""
  },
  {
   "property": "C126",
   "status": "proved",
   "theorems": [
    "C126_set_max",
    "C126_design_flags",
    "C126_coefficient_run",
    "C126_methods"
   ],
   "note": ""
  },
  {
   "property": "C127",
   "status": "proved",
   "theorems": [
    "C127_newton_any_start",
    "C127_function_of_loglinear",
    "C127_product",
    "C127_overshoot_refuted"
   ],
   "note": ""
  },
  {
   "property": "C128",
   "status": "proved",
   "theorems": [
    "C128_mixed_curvature_refuted",
    "C128_point_fit_not_above"
   ],
   "note": ""
  },
  {
   "property": "C129",
   "status": "proved",
   "theorems": [
    "C129_point_fit_depends_refuted",
    "C129_curve_fit_invariant"
   ],
   "note": ""
  },
  {
   "property": "C130",
   "status": "proved",
   "theorems": [
    "C130_complex_curvatures_refuted",
    "C130_two_variables_error",
    "C130_curve_fit_matrix"
   ],
   "note": ""
  },
  {
   "property": "C131",
   "status": "proved",
   "theorems": [
    "C131_attributes",
    "C131_show",
    "C131_run_alone",
    "C131_results_belong_together_refuted",
    "C131_kappa_pf_after_curve_fit_refuted",
    "C131_detailed_output",
    "C131_detail_own_model",
    "C131_summary_but_no_detail",
    "C131_such_curvatures_exist",
    "C131_sessions"
   ],
   "note": ""
  },
  {
   "property": "C132",
   "status": "proved",
   "theorems": [
    "C132_iterates",
    "C132_from_origin",
    "C132_other_steps",
    "C132_step_two_refuted",
    "C132_linear_normal"
   ],
   "note": ""
  },
  {
   "property": "C133",
   "status": "proved",
   "theorems": [
    "C133_failures_binomial",
    "C133_accuracy",
    "C133_nothing_found",
    "C133_default_options",
    "C133_importance_linear",
    "C133_analysis",
    "C133_linear_normal",
    "C133_analysis_distribution",
    "C133_linear_distribution",
    "C133_first_block",
    "C133_default_first_block"
   ],
   "note": ""
  }
 ]
}