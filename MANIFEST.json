{
 "claims": [
  {
   "property": "C01",
   "status": "proved",
   "theorems": [
    "C01_no_root_is_lost",
    "C01_externals_exist"
   ],
   "note": "axis sizes <= 7 (default mode) / 10^15 (exact mode), as in the property; C13 shows that some limit is needed. C01_externals_exist: one choice of the external routines meets the assumed contracts in every dimension."
  },
  {
   "property": "C02",
   "status": "proved",
   "theorems": [
    "C02_solve_loses_no_root"
   ],
   "note": "Model: CombinedModel.v. The approximator is a parameter; its contract (closeOn) is a hypothesis over the boxes actually searched. Axis sizes limited as in sizesOK."
  },
  {
   "property": "C03",
   "status": "proved",
   "theorems": [
    "C03_roots_lie_in_their_boxes"
   ],
   "note": ""
  },
  {
   "property": "C04",
   "status": "proved",
   "theorems": [
    "C04_constant_check_discards_only_rootfree_boxes"
   ],
   "note": ""
  },
  {
   "property": "C05",
   "status": "proved",
   "theorems": [
    "C05_quadratic_check_2D_sound"
   ],
   "note": ""
  },
  {
   "property": "C06",
   "status": "proved",
   "theorems": [
    "C06_quadratic_check_3D_sound"
   ],
   "note": ""
  },
  {
   "property": "C07",
   "status": "proved",
   "theorems": [
    "C07_quadratic_check_nd_sound"
   ],
   "note": "numpy matrix_rank and solve are parameters with the contract sym_solver_ok, which gauss_ok shows satisfiable in every dimension; see C55 for what happens when the rank test is thresholded"
  },
  {
   "property": "C08",
   "status": "proved",
   "theorems": [
    "C08_nonstrict_tolerance_refuted",
    "C08_solver_loses_root_refuted"
   ],
   "note": ""
  },
  {
   "property": "C09",
   "status": "proved",
   "theorems": [
    "C09_linear_reduction_keeps_every_root",
    "C09_svd_exists"
   ],
   "note": "Over the reals; np.linalg.svd is a parameter assumed to return a singular value decomposition (C09_svd_exists: every square matrix has one). finalStep=False (the final step zeroes the errors on purpose)."
  },
  {
   "property": "C10",
   "status": "proved",
   "theorems": [
    "C10_linear_reduction_returns_a_subbox"
   ],
   "note": ""
  },
  {
   "property": "C11",
   "status": "proved",
   "theorems": [
    "C11_transform_is_composition",
    "C11_nothing_dropped_for_moderate_alpha",
    "C11_array_accesses_in_bounds"
   ],
   "note": ""
  },
  {
   "property": "C12",
   "status": "proved",
   "theorems": [
    "C12_dropped_tail_bound",
    "C12_charged_error_covers_small_axes"
   ],
   "note": ""
  },
  {
   "property": "C13",
   "status": "proved",
   "theorems": [
    "C13_charged_error_is_no_bound_refuted"
   ],
   "note": "the documented claim is false of the code; the theorem exhibits a counterexample"
  },
  {
   "property": "C14",
   "status": "proved",
   "theorems": [
    "C14_only_one_axis_changes",
    "C14_composes_in_one_coordinate",
    "C14_composes_within_bound",
    "C14_whole_system",
    "C14_identity_and_constant_axes"
   ],
   "note": ""
  },
  {
   "property": "C15",
   "status": "proved",
   "theorems": [
    "C15_split_shares_endpoints",
    "C15_split_leaves_no_gap"
   ],
   "note": ""
  },
  {
   "property": "C16",
   "status": "proved",
   "theorems": [
    "C16_children_match_their_boxes"
   ],
   "note": ""
  },
  {
   "property": "C17",
   "status": "proved",
   "theorems": [
    "C17_subdivision_dimensions",
    "C17_some_dimension_is_split",
    "C17_which_dimensions_are_split"
   ],
   "note": ""
  },
  {
   "property": "C18",
   "status": "proved",
   "theorems": [
    "C18_trimming_accounts_for_its_error"
   ],
   "note": ""
  },
  {
   "property": "C19",
   "status": "proved",
   "theorems": [
    "C19_interval_is_composed_transforms"
   ],
   "note": ""
  },
  {
   "property": "C20",
   "status": "proved",
   "theorems": [
    "C20_objects_behave_as_values",
    "C20_copies_are_independent"
   ],
   "note": ""
  },
  {
   "property": "C21",
   "status": "proved",
   "theorems": [
    "C21_top_interval_is_original_refuted"
   ],
   "note": ""
  },
  {
   "property": "C22",
   "status": "proved",
   "theorems": [
    "C22_TwoSum_is_error_free",
    "C22_no_overflow"
   ],
   "note": "Stated on primitive binary64 floats; 'no overflow' is 'the second result is finite', with a separate theorem that it holds up to 2^1000."
  },
  {
   "property": "C23",
   "status": "proved",
   "theorems": [
    "C23_Split_is_error_free",
    "C23_TwoProd_is_error_free",
    "C23_TwoProdWithSplit_is_error_free",
    "C23_no_overflow"
   ],
   "note": "Stated on primitive binary64 floats."
  },
  {
   "property": "C24",
   "status": "proved",
   "theorems": [
    "C24_combining_terminates",
    "C24_combining_loses_nothing",
    "C24_boxes_left_alone_are_disjoint"
   ],
   "note": ""
  },
  {
   "property": "C25",
   "status": "proved",
   "theorems": [
    "C25_combined_boxes_are_disjoint_refuted"
   ],
   "note": ""
  },
  {
   "property": "C26",
   "status": "proved",
   "theorems": [
    "C26_final_step_reports_the_box",
    "C26_final_step_at_most_one",
    "C26_final_step_flags"
   ],
   "note": ""
  },
  {
   "property": "C27",
   "status": "proved",
   "theorems": [
    "C27_one_root_per_box_without_duplicates",
    "C27_one_root_per_box_refuted"
   ],
   "note": ""
  },
  {
   "property": "C28",
   "status": "proved",
   "theorems": [
    "C28_warnings_are_exact"
   ],
   "note": ""
  },
  {
   "property": "C29",
   "status": "proved",
   "theorems": [
    "C29_invalid_arguments_raise",
    "C29_valid_arguments_are_accepted",
    "C29_scalars_are_broadcast"
   ],
   "note": "The literal \"only those\" is false of the code: a recursive call can raise ValueError for valid arguments (C30); proved: that is the only other source."
  },
  {
   "property": "C30",
   "status": "proved",
   "theorems": [
    "C30_split_point_inside_iff",
    "C30_returning_calls_search_inside",
    "C30_split_stays_in_box_refuted"
   ],
   "note": ""
  },
  {
   "property": "C31",
   "status": "proved",
   "theorems": [
    "C31_unit_box_is_exact",
    "C31_nearly_unit_box_refuted"
   ],
   "note": ""
  },
  {
   "property": "C32",
   "status": "proved",
   "theorems": [
    "C32_transform_is_the_affine_map_onto",
    "C32_transform_monotone_in_any_rounding",
    "C32_transform_keeps_the_ends_refuted"
   ],
   "note": "Over R, in any monotone rounding, and a binary64 counterexample for the lower end."
  },
  {
   "property": "C33",
   "status": "proved",
   "theorems": [
    "C33_interpolates_at_every_grid_point",
    "C33_reproduces_every_polynomial_of_these_degrees"
   ],
   "note": "A degree-0 axis is sampled with degree 1; f must not depend on it."
  },
  {
   "property": "C34",
   "status": "proved",
   "theorems": [
    "C34_leaves_its_argument_alone_refuted",
    "C34_zero_degrees_become_one"
   ],
   "note": "The plain claim is refuted; what happens instead is proved."
  },
  {
   "property": "C35",
   "status": "proved",
   "theorems": [
    "C35_error_estimate_is_the_documented_sum",
    "C35_error_estimate_nonnegative_and_monotone",
    "C35_error_estimate_bounds_the_neglected_coefficients"
   ],
   "note": "Closed form as a sum over sets of dimensions, sign, monotonicity, bound on the neglected coefficients."
  },
  {
   "property": "C36",
   "status": "proved",
   "theorems": [
    "C36_reported_error_is_nonnegative_refuted",
    "C36_solve_keeps_the_root_refuted"
   ],
   "note": "Refuted for a whole family c*x, 0<|c|<2^-51, and solve() then returns no root."
  },
  {
   "property": "C37",
   "status": "proved",
   "theorems": [
    "C37_degree_selection_keeps_every_significant_coefficient",
    "C37_rate_reaches_epsilon"
   ],
   "note": ""
  },
  {
   "property": "C38",
   "status": "proved",
   "theorems": [
    "C38_started_converging_means_the_last_five_are_small",
    "C38_has_converged_means_all_differences_are_small"
   ],
   "note": ""
  },
  {
   "property": "C39",
   "status": "proved",
   "theorems": [
    "C39_independent_coordinate_is_reported_constant",
    "C39_reported_constant_means_constant_refuted",
    "C39_solve_keeps_the_root_refuted"
   ],
   "note": "Positive half for all functions; converse refuted, with solve() losing the root 1/2."
  },
  {
   "property": "C40",
   "status": "proved",
   "theorems": [
    "C40_MultiCheb_call",
    "C40_MultiPower_call"
   ],
   "note": "over the reals"
  },
  {
   "property": "C41",
   "status": "proved",
   "theorems": [
    "C41_MultiCheb_add",
    "C41_MultiCheb_sub",
    "C41_MultiPower_add",
    "C41_MultiPower_sub",
    "C41_MultiPower_mul"
   ],
   "note": "over the reals; operands with different numbers of axes raise in the model (numpy broadcasts in some such cases)"
  },
  {
   "property": "C42",
   "status": "proved",
   "theorems": [
    "C42_cleaning_preserves_the_polynomial"
   ],
   "note": ""
  },
  {
   "property": "C43",
   "status": "proved",
   "theorems": [
    "C43_to_cheb_is_exact"
   ],
   "note": ""
  },
  {
   "property": "C44",
   "status": "proved",
   "theorems": [
    "C44_equality_is_closeness",
    "C44_equality_is_reflexive",
    "C44_equality_symmetric_refuted",
    "C44_equality_transitive_refuted",
    "C44_same_function_equal_refuted"
   ],
   "note": ""
  },
  {
   "property": "C45",
   "status": "proved",
   "theorems": [
    "C45_MultiCheb_gradient",
    "C45_MultiPower_gradient",
    "C45_grad_rejects_wrong_length_refuted"
   ],
   "note": "numpy's chebder and polyder are modelled line by line"
  },
  {
   "property": "C46",
   "status": "proved",
   "theorems": [
    "C46_fixed_vars_enumerates_faces"
   ],
   "note": ""
  },
  {
   "property": "C47",
   "status": "proved",
   "theorems": [
    "C47_linear_terms_are_linear_coefficients"
   ],
   "note": "For every number type."
  },
  {
   "property": "C48",
   "status": "proved",
   "theorems": [
    "C48_balance",
    "C48_intervals_and_methods_in_step",
    "C48_balance_after_polish_refuted",
    "C48_every_root_accounted_for",
    "C48_boundary_roots_survive",
    "C48_every_root_kept_refuted",
    "C48_no_root_twice_refuted",
    "C48_potential_roots_kept",
    "C48_intervals_match_roots",
    "C48_intervals_match_roots_always_refuted",
    "C48_polish_intervals"
   ],
   "note": "The balance is proved for histories without get_polish_intervals and refuted with it, as the property says."
  },
  {
   "property": "C49",
   "status": "proved",
   "theorems": [
    "C49_lt_is_grevlex",
    "C49_other_orders",
    "C49_strict_total_order",
    "C49_comparisons_agree",
    "C49_multiplication_keeps_order",
    "C49_one_is_smallest",
    "C49_no_infinite_descent",
    "C49_order_on_mixed_lengths_refuted"
   ],
   "note": "For terms in the same number of variables; the order is refuted on terms of different lengths."
  },
  {
   "property": "C50",
   "status": "proved",
   "theorems": [
    "C50_mon_combos_lists_degree_at_most",
    "C50_mon_combosHighest_lists_degree_exactly",
    "C50_counts",
    "C50_argument_changed_only_in_one_variable",
    "C50_any_start_list_refuted"
   ],
   "note": ""
  },
  {
   "property": "C51",
   "status": "proved",
   "theorems": [
    "C51_both_memoisers_agree",
    "C51_transparent",
    "C51_first_value_is_repeated",
    "C51_called_once_per_key",
    "C51_transparent_for_every_function_refuted",
    "C51_results_are_fresh_refuted"
   ],
   "note": "Transparency needs a function that does not tell equal keys apart; the claim for every function is refuted."
  },
  {
   "property": "C52",
   "status": "proved",
   "theorems": [
    "C52_condition_number_never_widens"
   ],
   "note": ""
  },
  {
   "property": "C53",
   "status": "proved",
   "theorems": [
    "C53_unchanged_interval_keeps_every_root"
   ],
   "note": ""
  },
  {
   "property": "C54",
   "status": "proved",
   "theorems": [
    "C54_final_interval_for_other_top_boxes_refuted"
   ],
   "note": ""
  },
  {
   "property": "C55",
   "status": "proved",
   "theorems": [
    "C55_rank_threshold_unsound_refuted"
   ],
   "note": ""
  },
  {
   "property": "C56",
   "status": "proved",
   "theorems": [
    "C56_set_order_up_to_eight",
    "C56_children_in_nine_dimensions_refuted"
   ],
   "note": ""
  },
  {
   "property": "C57",
   "status": "proved",
   "theorems": [
    "C57_subdividing_a_point_raises"
   ],
   "note": "the solver-level run is an executed example over exact rationals"
  },
  {
   "property": "C58",
   "status": "proved",
   "theorems": [
    "C58_evaluate_grid"
   ],
   "note": ""
  },
  {
   "property": "C59",
   "status": "proved",
   "theorems": [
    "C59_points_in_boxes_in_search_box",
    "C59_no_points_iff_no_boxes"
   ],
   "note": "Model: CombinedModel.v. The approximator is a parameter; its contract (closeOn) is a hypothesis over the boxes actually searched. Axis sizes limited as in sizesOK."
  },
  {
   "property": "C60",
   "status": "proved",
   "theorems": [
    "C60_returned_boxes_are_small"
   ],
   "note": "Model: CombinedModel.v. The approximator is a parameter; its contract (closeOn) is a hypothesis over the boxes actually searched. Axis sizes limited as in sizesOK."
  },
  {
   "property": "C61",
   "status": "proved",
   "theorems": [
    "C61_reported_error_bounds_the_error_refuted",
    "C61_solve_finds_the_roots_refuted"
   ],
   "note": "Refuted by T_33, which the two grids cannot tell from x; solve() loses 32 of 33 roots."
  },
  {
   "property": "C62",
   "status": "proved",
   "theorems": [
    "C62_interpolation_error_is_twice_the_tail",
    "C62_reported_error_bounds_half_the_error",
    "C62_reported_error_bounds_the_error_refuted",
    "C62_approximation_meets_the_contract_of_solve"
   ],
   "note": "Bound 2*tail for every function given by a finite Chebyshev series; 2*e under the assumed decay; the factor 2 is necessary."
  },
  {
   "property": "C63",
   "status": "proved",
   "theorems": [
    "C63_terminates_on_polynomials",
    "C63_terminates_on_the_zero_function_refuted",
    "C63_terminates_on_nonzero_polynomials_refuted",
    "C63_solve_terminates_refuted"
   ],
   "note": "Proved for polynomial objects with a nonzero value at the upper corner; refuted for the zero function and for a nonzero polynomial in two variables."
  },
  {
   "property": "C64",
   "status": "proved",
   "theorems": [
    "C64_argument_errors"
   ],
   "note": ""
  },
  {
   "property": "C65",
   "status": "proved",
   "theorems": [
    "C65_result_is_a_series_in_as_many_variables"
   ],
   "note": ""
  },
  {
   "property": "C66",
   "status": "proved",
   "theorems": [
    "C66_interior_results_are_strictly_inside",
    "C66_interior_results_do_not_touch_neighbours"
   ],
   "note": "Over the reals; hypothesis `searching` is the invariant the solver maintains for the intervals it passes on."
  },
  {
   "property": "C67",
   "status": "proved",
   "theorems": [
    "C67_power_zeros",
    "C67_multiplicity_at_origin",
    "C67_zero_last_coefficient_refuted"
   ],
   "note": "exact eigenvalue routines assumed as contracts; shown to exist"
  },
  {
   "property": "C68",
   "status": "proved",
   "theorems": [
    "C68_chebyshev_zeros"
   ],
   "note": "exact eigenvalue routines assumed as contracts; shown to exist"
  },
  {
   "property": "C69",
   "status": "proved",
   "theorems": [
    "C69_division_matrix_zeros",
    "C69_zero_at_origin_refuted",
    "C69_constant_refuted"
   ],
   "note": "exact eigenvalue routines assumed as contracts; shown to exist"
  },
  {
   "property": "C70",
   "status": "proved",
   "theorems": [
    "C70_matrix_choice",
    "C70_integer_coefficients_refuted",
    "C70_zero_last_chebyshev_coefficient"
   ],
   "note": ""
  },
  {
   "property": "C71",
   "status": "proved",
   "theorems": [
    "C71_constant_term_check_sound",
    "C71_check_interval"
   ],
   "note": ""
  },
  {
   "property": "C72",
   "status": "proved",
   "theorems": [
    "C72_thrown_subintervals_have_no_zero"
   ],
   "note": "rank test and linear solver as contracts, met by Gaussian elimination"
  },
  {
   "property": "C73",
   "status": "proved",
   "theorems": [
    "C73_cubes_have_no_zero",
    "C73_four_variables_refuted"
   ],
   "note": "rank test and linear solver as contracts, met by Gaussian elimination"
  },
  {
   "property": "C74",
   "status": "proved",
   "theorems": [
    "C74_bounding_interval_keeps_every_common_zero",
    "C74_exact_series_lose_the_zero_refuted"
   ],
   "note": "linear solver as a contract, met by Gaussian elimination"
  },
  {
   "property": "C75",
   "status": "proved",
   "theorems": [
    "C75_subintervals_cover_every_common_zero"
   ],
   "note": "linear solver and rank test as contracts, met by Gaussian elimination; four or more variables with checks: see C73"
  },
  {
   "property": "C76",
   "status": "proved",
   "theorems": [
    "C76_volume_balance",
    "C76_volume_balance_of_a_search"
   ],
   "note": ""
  },
  {
   "property": "C77",
   "status": "proved",
   "theorems": [
    "C77_calls_do_not_influence_each_other"
   ],
   "note": ""
  },
  {
   "property": "C78",
   "status": "proved",
   "theorems": [
    "C78_roots_at_infinity",
    "C78_constant_refuted",
    "C78_small_coefficient_refuted",
    "C78_degree_above_the_array_refuted",
    "C78_homogeneous_refuted"
   ],
   "note": "eigenvalue routines as contracts, met in every dimension (exact_eigenvalue_routines_exist)"
  },
  {
   "property": "C79",
   "status": "proved",
   "theorems": [
    "C79_tests_exchanged_coordinates",
    "C79_symmetric_second_polynomial",
    "C79_common_root_missed_refuted",
    "C79_common_root_invented_refuted",
    "C79_return_root"
   ],
   "note": "eigenvalue routines as contracts"
  },
  {
   "property": "C80",
   "status": "proved",
   "theorems": [
    "C80_chebyshev_product",
    "C80_power_product",
    "C80_new_numpy_refuted"
   ],
   "note": ""
  },
  {
   "property": "C81",
   "status": "proved",
   "theorems": [
    "C81_root_is_the_only_zero",
    "C81_empty_means_no_zero",
    "C81_too_many_roots_refuted",
    "C81_short_first_axis_refuted",
    "C81_short_last_axis_refuted"
   ],
   "note": ""
  },
  {
   "property": "C82",
   "status": "proved",
   "theorems": [
    "C82_reduced_echelon_form",
    "C82_square_refuted",
    "C82_zero_row_refuted"
   ],
   "note": ""
  },
  {
   "property": "C83",
   "status": "proved",
   "theorems": [
    "C83_same_solutions",
    "C83_inconsistency_hidden_refuted",
    "C83_overdetermined_refuted",
    "C83_new_numpy_refuted",
    "C83_nullspace"
   ],
   "note": ""
  },
  {
   "property": "C84",
   "status": "proved",
   "theorems": [
    "C84_solver_never_returns",
    "C84_solve_never_returns"
   ],
   "note": ""
  },
  {
   "property": "C85",
   "status": "proved",
   "theorems": [
    "C85_mons_ordered",
    "C85_permutation_array_multiplies_by_a_variable",
    "C85_permutations_multiply",
    "C85_only_such_arrays_are_stored",
    "C85_too_high_degree_cut_off_refuted",
    "C85_degree_zero_refuted",
    "C85_memoisation_is_transparent",
    "C85_memoisation_of_further_arguments_refuted"
   ],
   "note": ""
  },
  {
   "property": "C86",
   "status": "proved",
   "theorems": [
    "C86_contains_exactly_the_points",
    "C86_size_is_the_volume",
    "C86_overlap_is_a_common_point",
    "C86_is_point"
   ],
   "note": ""
  },
  {
   "property": "C87",
   "status": "proved",
   "theorems": [
    "C87_covers_every_zero_in_the_cube",
    "C87_consists_of_zeros",
    "C87_always_answers",
    "C87_tiny_coefficients_refuted",
    "C87_projection_map_in_three_variables",
    "C87_projection_map_covers_refuted"
   ],
   "note": "One variable is left out (integer truncation of the array). The last two theorems concern the map T of project_down."
  },
  {
   "property": "C88",
   "status": "proved",
   "theorems": [
    "C88_returns_the_interpolant",
    "C88_stored_values_change_nothing",
    "C88_stops_at_once_when_the_guess_is_good",
    "C88_polynomials_are_recovered",
    "C88_error_bounds_the_distance_of_the_two_approximations",
    "C88_error_bounds_the_distance_to_the_function_refuted",
    "C88_reported_degrees_refuted",
    "C88_rejected_arguments",
    "C88_stored_values_in_one_variable",
    "C88_stored_values_in_two_variables_refuted",
    "C88_polynomial_object_in_several_variables_refuted"
   ],
   "note": "Over the reals, with the discrete Fourier transform by its definition; C88_stored_values_change_nothing holds for any numbers."
  },
  {
   "property": "C89",
   "status": "proved",
   "theorems": [
    "C89_runs_newtons_method",
    "C89_residual_is_second_order",
    "C89_simple_zero_is_returned",
    "C89_degree_one_systems_are_solved",
    "C89_result_is_a_zero_refuted",
    "C89_sample_of_points",
    "C89_sample_returns_unless_a_draw_raises",
    "C89_sample_of_degree_one",
    "C89_sample_of_zeros_refuted",
    "C89_rejected_arguments"
   ],
   "note": "Over the reals, for any np.linalg.solve that answers correctly (solverOK); exactSolve_ok shows one."
  },
  {
   "property": "C90",
   "status": "proved",
   "theorems": [
    "C90_entries",
    "C90_value_in_reversed_variables",
    "C90_value_refuted",
    "C90_like_terms_refuted",
    "C90_repeated_variable_refuted",
    "C90_negative_power_refuted"
   ],
   "note": "C90_entries holds for any number type; float is a parameter, int is written out for ASCII strings."
  },
  {
   "property": "C91",
   "status": "proved",
   "theorems": [
    "C91_rounds",
    "C91_tolDict",
    "C91_rejected",
    "C91_plural_names_refuted",
    "C91_nested_values_refuted"
   ],
   "note": "Names that replace the counters (numTol, numTols, currTol) are excluded by goodNames."
  },
  {
   "property": "C92",
   "status": "proved",
   "theorems": [
    "C92_householder",
    "C92_householder_of_zero",
    "C92_condition_number",
    "C92_infinite_condition_number",
    "C92_zero_vector",
    "C92_vector_condition_number",
    "C92_all_condition_numbers"
   ],
   "note": "Exact complex arithmetic; the contracts qrOK, triOK, svdOK of the routines of scipy are hypotheses, met in C92_contracts for 2x2 matrices."
  },
  {
   "property": "C93",
   "status": "proved",
   "theorems": [
    "C93_every_row_once",
    "C93_independent_and_dependent_rows",
    "C93_small_rows_refuted"
   ],
   "note": "Exact arithmetic; scipy's qr(pivoting=True) enters with the contract pivotedQR."
  },
  {
   "property": "C94",
   "status": "proved",
   "theorems": [
    "C94_quadratic_check_is_exact",
    "C94_subinterval_check_is_exact"
   ],
   "note": "Exact arithmetic. In four or more variables on boxes with different sides the sub-interval check is wrong (C73_four_variables_refuted)."
  },
  {
   "property": "C95",
   "status": "proved",
   "theorems": [
    "C95_linear_check_is_exact"
   ],
   "note": "Exact arithmetic."
  },
  {
   "property": "C96",
   "status": "proved",
   "theorems": [
    "C96_any_summation_order",
    "C96_constant_check_is_safe_with_a_margin",
    "C96_solve_loses_zeros_refuted"
   ],
   "note": "Binary64 arithmetic (Coq's primitive floats and their specification axioms, Flocq). The model's np.sum adds from left to right, as numpy does for fewer than eight entries; C96_any_summation_order holds for any order."
  },
  {
   "property": "C97",
   "status": "proved",
   "theorems": [
    "C97_same_roots_in_order",
    "C97_canonical_order",
    "C97_ties_refuted",
    "C97_generator_reset"
   ],
   "note": "Exact arithmetic. argsort and the random generator are parameters."
  },
  {
   "property": "C98",
   "status": "proved",
   "theorems": [
    "C98_row_swap_sorts_the_rows",
    "C98_row_swap_echelon",
    "C98_polys_sorted_by_terms"
   ],
   "note": ""
  },
  {
   "property": "C99",
   "status": "proved",
   "theorems": [
    "C99_dimensions_matched",
    "C99_argument_unusable_refuted",
    "C99_raises_only_without_polynomials"
   ],
   "note": "Exact arithmetic."
  },
  {
   "property": "C100",
   "status": "proved",
   "theorems": [
    "C100_small_entries_are_cleared"
   ],
   "note": "Exact arithmetic."
  },
  {
   "property": "C101",
   "status": "proved",
   "theorems": [
    "C101_divides_means_divides"
   ],
   "note": ""
  },
  {
   "property": "C102",
   "status": "proved",
   "theorems": [
    "C102_the_rows_are_the_multiples",
    "C102_chebyshev_needs_the_old_indexing",
    "C102_the_power_basis_runs_under_both"
   ],
   "note": "Exact arithmetic. argsort is a parameter."
  },
  {
   "property": "C103",
   "status": "proved",
   "theorems": [
    "C103_common_zeros_are_joint_eigenvalues",
    "C103_no_exception",
    "C103_gives_up"
   ],
   "note": "Exact arithmetic. qr, pivoted qr, svd, solve_triangular and cond are parameters with contracts; someLapack_ok shows that they can be met in every dimension."
  },
  {
   "property": "C104",
   "status": "proved",
   "theorems": [
    "C104_joint_eigenvalues",
    "C104_all_common_zeros",
    "C104_linear_systems",
    "C104_no_zero_refuted",
    "C104_errors"
   ],
   "note": "Exact arithmetic. eig, schur, the rotation and the direction are parameters with contracts; someEig_ok and someSchur_ok show that the contracts can be met in every dimension. The claim that a system without zeros gives an empty array is false of the code (C104_no_zero_refuted)."
  },
  {
   "property": "C105",
   "status": "proved",
   "theorems": [
    "C105_monomials_of_one_degree",
    "C105_trimming_accounts_up_to_the_top_coefficient",
    "C105_reported_error_covers_the_trimming_refuted",
    "C105_linear_arrays_are_erased"
   ],
   "note": "Exact arithmetic. The claim that the reported error covers the change is false of the code (C105_reported_error_covers_the_trimming_refuted)."
  },
  {
   "property": "C106",
   "status": "proved",
   "theorems": [
    "C106_copy_after_every_history",
    "C106_copies_up_to_the_first_degree",
    "C106_copy_of_twice_the_degree_refuted",
    "C106_the_first_call_fixes_the_size"
   ],
   "note": "That every copy is the mirrored block is false of the code (C106_copy_of_twice_the_degree_refuted)."
  },
  {
   "property": "C107",
   "status": "proved",
   "theorems": [
    "C107_interpolates",
    "C107_the_error_estimate",
    "C107_error_bounds_the_distance_to_the_function_refuted",
    "C107_first_approximation_depends_on_uninitialised_memory",
    "C107_one_variable"
   ],
   "note": "Exact arithmetic, exact cosines. That the error bounds the distance to the function is false of the code for functions that are not polynomials of degree 2g (C107_error_bounds_the_distance_to_the_function_refuted)."
  },
  {
   "property": "C108",
   "status": "proved",
   "theorems": [
    "C108_search",
    "C108_polynomials_up_to_the_degree",
    "C108_every_answer_is_a_zero_refuted",
    "C108_no_zero_is_lost_refuted"
   ],
   "note": "Exact arithmetic, exact eigenvalues (contract exactEig), no polishing rounds. Two natural claims are false of the code and refuted."
  },
  {
   "property": "C109",
   "status": "proved",
   "theorems": [
    "C109_the_search_ends",
    "C109_what_is_found"
   ],
   "note": "Exact arithmetic, no polishing rounds; the linear algebra and the Macaulay solver are arbitrary functions. MultiCheb at this commit does not take the argument lead_term, so line 811 raises; the theorem covers both cases."
  },
  {
   "property": "C110",
   "status": "proved",
   "theorems": [
    "C110_linear_systems"
   ],
   "note": "Exact arithmetic, no polishing rounds. Default degrees 20 and 9 in a new process are outside the hypotheses: there the first approximation reads uninitialised memory (C107)."
  },
  {
   "property": "C111",
   "status": "proved",
   "theorems": [
    "C111_what_a_solved_box_means",
    "C111_returned_roots_are_zeros_refuted"
   ],
   "note": "Exact arithmetic, no polishing rounds. The claims that fail of the code are stated as refuted."
  },
  {
   "property": "C112",
   "status": "proved",
   "theorems": [
    "C112_common_zeros_are_chains",
    "C112_common_zeros",
    "C112_one_polynomial",
    "C112_answers_near_all_polynomials_refuted",
    "C112_several_variables",
    "C112_no_zero_in_the_box_refuted"
   ],
   "note": "Exact arithmetic; polynomials of the same dimension. The claims that fail of the code are stated as refuted."
  },
  {
   "property": "C113",
   "status": "proved",
   "theorems": [
    "C113_approximation_is_exact",
    "C113_approximation_returns",
    "C113_solve_loses_no_root"
   ],
   "note": "For exact arithmetic (R). The two test points, the degree search, the averaging over the other variables and the error formula are all inside the proof; the numerical externals of the subdivision solver stay under their contract externalsOK. The hypothesis on the searched boxes is a hypothesis on the call's own record of them."
  },
  {
   "property": "C114",
   "status": "proved",
   "theorems": [
    "C114_solver_finds_the_zero",
    "C114_solver_finds_nothing_else",
    "C114_solve_finds_the_zero",
    "C114_default_call"
   ],
   "note": "Exact arithmetic (R). Total correctness: the run returns for every large enough recursion bound and its result is described completely. The zero outside [-1,1] by less than the error is not covered (the code may or may not report a box there). Numerical externals under their contract externalsOK 1."
  },
  {
   "property": "C115",
   "status": "proved",
   "theorems": [
    "C115_any_affine_function",
    "C115_no_zero_no_root"
   ],
   "note": "Exact arithmetic (R); the approximator is the modelled one (approxOf), not a contract. Not covered: a zero outside the interval at which the function is below 1e-18 at the nearer end, and functions nearly constant at the tolerance 1e-10. Numerical externals of the solver under their contract externalsOK 1. acc: the arity test of the Python callable."
  },
  {
   "property": "C116",
   "status": "proved",
   "theorems": [
    "C116_units_do_not_matter"
   ],
   "note": "Exact arithmetic (R). Factors are positive powers of two (any integer exponent, one per equation); other factors are not covered: the solver divides the rows by powers of two only. Numerical externals under their contract externalsOK."
  },
  {
   "property": "C117",
   "status": "proved",
   "theorems": [
    "C117_solver_returns_nothing",
    "C117_solve_returns_nothing"
   ],
   "note": "Exact arithmetic (R). The second theorem is about solve() with any approximator; what the approximator returned for the functions is a hypothesis (C113, C115 give cases where it is known). Quadratic part in solve(): up to three variables, as in the code."
  },
  {
   "property": "C118",
   "status": "proved",
   "theorems": [
    "C118_order_does_not_matter",
    "C118_signs_do_not_matter",
    "C118_solve_order_does_not_matter"
   ],
   "note": "Exact arithmetic (R); rounding in float sums can depend on the order. The theorem about solve() takes the approximator as a parameter that, on each box, raises or returns a coefficient array."
  },
  {
   "property": "C119",
   "status": "proved",
   "theorems": [
    "C119_reflection_arrays",
    "C119_multipliers"
   ],
   "note": "For the arguments all_permutations_cheb passes (multiplier in one variable, all monomials of degree at most D - 1, dictionary over degree at most D). all_permutations_cheb itself is C120."
  },
  {
   "property": "C120",
   "status": "proved",
   "theorems": [
    "C120_chebyshev_multiplication_arrays"
   ],
   "note": "For matrixDegree >= 1 (for 0 the code indexes an empty array and fails). current_degree is not used by the code."
  }
 ]
}
