{
 "claims": [
  {
   "property": "C01",
   "status": "proved",
   "theorems": [
    "l0_prox_best_sparse_approximation",
    "l0_prox_is_prox_of_value",
    "l0_prox_keeps_largest"
   ],
   "note": ""
  },
  {
   "property": "C02",
   "status": "proved",
   "theorems": [
    "l0_prox_must_include",
    "l0_prox_keeps_largest"
   ],
   "note": ""
  },
  {
   "property": "C03",
   "status": "proved",
   "theorems": [
    "l0lme_prox_budgets_and_hierarchy"
   ],
   "note": "Also proves that each half is a closest point under its budget (the random-effect half given the fixed-effect half)."
  },
  {
   "property": "C04",
   "status": "proved",
   "theorems": [
    "l1_prox_exact",
    "l1_prox_exact_weighted"
   ],
   "note": ""
  },
  {
   "property": "C05",
   "status": "partial",
   "theorems": [
    "l1_prox_minimises_value_partial",
    "l1_prox_minimises_value_refuted"
   ],
   "note": "The code violates the full statement: once weights are attached, value drops lam (regularizers.py:435-437). Refuted for every lam other than 1; proved without weights and for lam = 1."
  },
  {
   "property": "C06",
   "status": "partial",
   "theorems": [
    "cad_prox_exact_iff_partial",
    "cad_prox_exact_iff_unweighted_partial",
    "cad_prox_minimises_value_refuted"
   ],
   "note": "The code violates the full statement: just above rho the identity branch is not optimal. Proved: for any non-negative weights prox is exact if and only if every penalised coordinate lies in an explicit region, which depends on its weight; refuted for every rho > 0 and alpha*lam > 0."
  },
  {
   "property": "C07",
   "status": "partial",
   "theorems": [
    "scad_prox_minimises_value_partial",
    "scad_prox_minimises_value_unweighted_partial",
    "scad_prox_minimises_value_refuted",
    "scad_prox_always_finite_refuted"
   ],
   "note": "The code violates the full statement when alpha*lam*w >= rho-1. Proved (with uniqueness) for alpha*lam*w < rho-1; refuted for every alpha*lam > rho-1; division by zero shown at alpha*lam = rho-1, which the default parameters reach."
  },
  {
   "property": "C08",
   "status": "proved",
   "theorems": [
    "elastic_prox_exact",
    "elastic_prox_minimises_value",
    "elastic_net_l1_exact"
   ],
   "note": ""
  },
  {
   "property": "C09",
   "status": "proved",
   "theorems": [
    "positive_quadrant_variances_nonneg",
    "positive_quadrant_nonneg",
    "positive_quadrant_prox_exact"
   ],
   "note": "Stronger than stated: the inner penalty need not be even or coordinatewise."
  },
  {
   "property": "C10",
   "status": "proved",
   "theorems": [
    "prox_shrinks_and_keeps_signs",
    "prox_zero_stays_zero"
   ],
   "note": ""
  },
  {
   "property": "C11",
   "status": "proved",
   "theorems": [
    "zero_weight_coordinate_unchanged",
    "zero_weight_coordinate_not_charged"
   ],
   "note": ""
  },
  {
   "property": "C12",
   "status": "proved",
   "theorems": [
    "pgd_terminates",
    "line_search_terminates",
    "pgd_iterations_bounded_and_reported"
   ],
   "note": "For every oracle (also one with state) and every regularizer whose own calls return."
  },
  {
   "property": "C13",
   "status": "proved",
   "theorems": [
    "pgd_converged_flag",
    "pgd_stopped_early_is_converged"
   ],
   "note": ""
  },
  {
   "property": "C14",
   "status": "proved",
   "theorems": [
    "line_search_step_descends",
    "pgd_line_search_monotone"
   ],
   "note": "A line search that falls to 1e-14 without being accepted is excluded, as in the statement."
  },
  {
   "property": "C15",
   "status": "proved",
   "theorems": [
    "pgd_result_is_prox_output"
   ],
   "note": ""
  },
  {
   "property": "C16",
   "status": "partial",
   "theorems": [
    "pgd_loss_trace",
    "pgd_values_trace",
    "pgd_logging_does_not_change_result",
    "pgd_set_of_keys_refuted"
   ],
   "note": "Proved for a tuple of distinct keys; with a set of keys, the documented type, the solver raises TypeError when it stores 'converged'."
  },
  {
   "property": "C17",
   "status": "partial",
   "theorems": [
    "logger_init",
    "logger_log_only_declared",
    "logger_add_get",
    "logger_append_partial",
    "logger_append_values",
    "logger_add_to_set_refuted",
    "logger_append_unknown_key_refuted"
   ],
   "note": "The code violates two parts of the statement: add on a set of keys is a TypeError, append on an unknown key is a KeyError instead of starting from 0."
  },
  {
   "property": "C18",
   "status": "partial",
   "theorems": [
    "practical_stops_truthfully_partial",
    "practical_converged_flag_refuted",
    "fake_pgd_always_converged"
   ],
   "note": "The code violates the statement: FakePGDSolver stores True unconditionally. Refuted by a run that exhausts max_iter without meeting its tolerance; proved that a run which stops before max_iter did meet it."
  },
  {
   "property": "C19",
   "status": "proved",
   "theorems": [
    "linear_gradient_hessian_exact",
    "linear_loss_is_least_squares"
   ],
   "note": "With any ready prior; for every wf problem."
  },
  {
   "property": "C20",
   "status": "proved",
   "theorems": [
    "linear_line_search_always_accepted",
    "linear_l1_fit_no_worse_than_start"
   ],
   "note": ""
  },
  {
   "property": "C21",
   "status": "proved",
   "theorems": [
    "sr3_value_is_partial_minimum"
   ],
   "note": "np.linalg.inv is a function with the contract that it returns a symmetric inverse of H."
  },
  {
   "property": "C22",
   "status": "proved",
   "theorems": [
    "practical_equals_fixed_step_pgd"
   ],
   "note": ""
  },
  {
   "property": "C23",
   "status": "proved",
   "theorems": [
    "sr3_fixed_step_descends",
    "sr3_default_step"
   ],
   "note": ""
  },
  {
   "property": "C24",
   "status": "partial",
   "theorems": [
    "custom_c_partial",
    "custom_c_refuted"
   ],
   "note": "The code violates the statement: `if not c` on an array raises ValueError for every matrix with more than one entry and replaces a 1x1 zero matrix by the identity."
  },
  {
   "property": "C25",
   "status": "partial",
   "theorems": [
    "must_include_weights_partial",
    "must_include_fit_refuted"
   ],
   "note": "The code violates the statement: from_dataframe builds the weights, but fit_problem does not pass them on; refuted by a fit whose must-include coefficient is shrunk."
  },
  {
   "property": "C26",
   "status": "proved",
   "theorems": [
    "linear_information_criteria"
   ],
   "note": ""
  },
  {
   "property": "C27",
   "status": "partial",
   "theorems": [
    "gauss_prior_partial",
    "gauss_prior_derivatives_partial",
    "gauss_prior_density_refuted"
   ],
   "note": "The code violates the statement: it divides by std instead of std^2. Everything else in the statement is proved of what it does compute."
  },
  {
   "property": "C28",
   "status": "partial",
   "theorems": [
    "gauss_prior_history_partial",
    "gauss_lme_history_partial",
    "priors_reinstantiate_refuted"
   ],
   "note": "The code violates the statement: GaussianPriorLME cannot be instantiated after forget and no linear model accepts a Gaussian prior. Proved for GaussianPrior with any history and GaussianPriorLME with any history without forget."
  },
  {
   "property": "C29",
   "status": "proved",
   "theorems": [
    "from_x_y_round_trip",
    "to_x_y_without_answers"
   ],
   "note": "Stated for exact tables; without targets to_x_y raises, as documented by the code."
  },
  {
   "property": "C30",
   "status": "proved",
   "theorems": [
    "grouping_is_partition"
   ],
   "note": ""
  },
  {
   "property": "C31",
   "status": "proved",
   "theorems": [
    "from_x_y_accepts_iff",
    "from_x_y_accepts_names",
    "from_x_y_rejects"
   ],
   "note": ""
  },
  {
   "property": "C32",
   "status": "partial",
   "theorems": [
    "weights_line_up_partial",
    "weights_line_up_refuted"
   ],
   "note": "The code violates the statement: one weight too many without an intercept, the random intercept looked up in the list of fixed effects, TypeError for random must-include names alone."
  },
  {
   "property": "C33",
   "status": "partial",
   "theorems": [
    "column_names_line_up_partial",
    "column_names_line_up_refuted",
    "generate_names_line_up_partial"
   ],
   "note": "The code violates the statement for from_x_y with an intercept: the name of the intercept is missing. Proved without intercept and for generate."
  },
  {
   "property": "C34",
   "status": "partial",
   "theorems": [
    "loop_sees_every_group_partial",
    "nested_loops_refuted"
   ],
   "note": "The code violates the statement: the position is stored on the problem, so nested or interleaved loops skip groups. Proved for loops whose body does not iterate over the same problem, from every earlier state."
  },
  {
   "property": "C35",
   "status": "proved",
   "theorems": [
    "from_dataframe_missing_column",
    "from_dataframe_selects"
   ],
   "note": "Column names of a dataframe are taken to be distinct."
  },
  {
   "property": "C36",
   "status": "partial",
   "theorems": [
    "generate_variances_partial",
    "generate_variances_refuted",
    "generate_coefficients_partial",
    "generate_coefficients_refuted",
    "generate_to_x_y_partial",
    "generate_to_x_y_refuted"
   ],
   "note": "The code violates the statement in three ways: per-object variances are sliced wrongly, coefficients are shifted with an intercept, and problems without random effects cannot be converted. The remaining cases are proved."
  },
  {
   "property": "C37",
   "status": "proved",
   "theorems": [
    "per_group_coefficients_predict"
   ],
   "note": ""
  },
  {
   "property": "C54",
   "status": "partial",
   "theorems": [
    "predict_rows_partial",
    "predict_succeeds_partial",
    "predict_rows_refuted"
   ],
   "note": "The code violates the statement: predictions come back in group order. Proved that they are a group-sorted permutation of the right ones, and aligned for rows sorted by group."
  },
  {
   "property": "C55",
   "status": "partial",
   "theorems": [
    "predict_succeeds_partial",
    "predict_new_group_refuted"
   ],
   "note": "The code violates the statement: np.where returns a one-element tuple, so the branch for new groups is dead and a ValueError is raised whenever there are random effects."
  },
  {
   "property": "C56",
   "status": "partial",
   "theorems": [
    "score_is_r_squared_partial",
    "score_misaligned_refuted"
   ],
   "note": "The code violates the statement for rows not sorted by group."
  },
  {
   "property": "C67",
   "status": "proved",
   "theorems": [
    "linear_predict_exact"
   ],
   "note": ""
  },
  {
   "property": "C68",
   "status": "proved",
   "theorems": [
    "linear_generate_is_linear"
   ],
   "note": "obs_std a scalar; the draws are arguments."
  },
  {
   "property": "C39",
   "status": "proved",
   "theorems": [
    "loss_is_likelihood",
    "not_admissible_raises"
   ],
   "note": ""
  },
  {
   "property": "C40",
   "status": "proved",
   "theorems": [
    "gradients_are_derivatives"
   ],
   "note": "Exact arithmetic; derivatives are those of the standard library (derivable_pt_lim)."
  },
  {
   "property": "C41",
   "status": "partial",
   "theorems": [
    "hessians_are_derivatives_partial",
    "newton_matrices_psd",
    "hessians_are_derivatives_refuted"
   ],
   "note": "The code violates the statement for a prior with one column that numpy broadcasts over more coefficients: its term is added to all entries of the Hessian. Proved for every prior with a column for each coefficient, and without a prior. Exact arithmetic."
  },
  {
   "property": "C47",
   "status": "proved",
   "theorems": [
    "sr3_loss_adds",
    "sr3_derivatives",
    "sr3_zero_is_plain"
   ],
   "note": ""
  },
  {
   "property": "C42",
   "status": "partial",
   "theorems": [
    "optimal_beta_minimises_partial",
    "sr3_optimal_beta_minimises_partial",
    "optimal_beta_prior_refuted"
   ],
   "note": "The code violates the statement when the prior weighs the fixed effects: optimal_beta ignores it. Proved for every other prior: unique minimiser, or LinAlgError for a singular normal matrix."
  },
  {
   "property": "C43",
   "status": "proved",
   "theorems": [
    "random_effects_are_blup"
   ],
   "note": ""
  },
  {
   "property": "C44",
   "status": "partial",
   "theorems": [
    "covariance_beta_partial",
    "covariance_random_effects_refuted",
    "covariance_y_refuted"
   ],
   "note": "The code violates the statement: a negative variance of the random effects and a non-symmetric covariance of the response. Proved for covariance_beta."
  },
  {
   "property": "C51",
   "status": "partial",
   "theorems": [
    "criteria_count_partial",
    "conditional_criterion_partial",
    "criteria_count_refuted"
   ],
   "note": "The code violates the statement for the default tolerance 0, which counts every coefficient. Proved for positive tolerances below all non-zero coefficients."
  },
  {
   "property": "C52",
   "status": "proved",
   "theorems": [
    "sr3_criteria"
   ],
   "note": ""
  },
  {
   "property": "C53",
   "status": "proved",
   "theorems": [
    "hat_matrix_fits",
    "degrees_of_freedom"
   ],
   "note": ""
  },
  {
   "property": "C66",
   "status": "proved",
   "theorems": [
    "flip_probabilities"
   ],
   "note": "The normal cdf is an argument; only monotonicity, symmetry and non-negativity are used."
  },
  {
   "property": "C69",
   "status": "proved",
   "theorems": [
    "effective_observations"
   ],
   "note": ""
  },
  {
   "property": "C45",
   "status": "proved",
   "theorems": [
    "packing_roundtrip",
    "joint_calls_unpack"
   ],
   "note": ""
  },
  {
   "property": "C46",
   "status": "proved",
   "theorems": [
    "index_map_pairs"
   ],
   "note": ""
  },
  {
   "property": "C48",
   "status": "partial",
   "theorems": [
    "interior_point_terminates",
    "interior_point_stops",
    "interior_point_positive_partial",
    "interior_point_nonneg_partial",
    "interior_point_positive_refuted",
    "relaxed_variances_nonneg"
   ],
   "note": "Strict positivity fails when a starting variance is zero. Proved: termination within the limit, strict positivity from positive starts, non-negativity from non-negative ones, non-negative relaxed variances."
  },
  {
   "property": "C49",
   "status": "partial",
   "theorems": [
    "practical_without_random_effects_refuted",
    "value_function_without_random_effects_partial"
   ],
   "note": "The code violates the statement: without random effects find_optimal_parameters returns its argument. Proved: the value function and its gradient are right there."
  },
  {
   "property": "C50",
   "status": "proved",
   "theorems": [
    "variance_descent_feasible",
    "variance_interior_point_feasible"
   ],
   "note": ""
  },
  {
   "property": "C70",
   "status": "partial",
   "theorems": [
    "zero_variances_trapped_refuted",
    "interior_point_positive_partial"
   ],
   "note": "The code violates the statement: zero starting variances are returned for all data. Positive starts stay positive."
  },
  {
   "property": "C71",
   "status": "proved",
   "theorems": [
    "interior_point_newton",
    "interior_point_stops"
   ],
   "note": ""
  },
  {
   "property": "C57",
   "status": "proved",
   "theorems": [
    "fitted_variances_nonneg",
    "fitted_variances_nonneg_table",
    "negative_elastic_eps_refuted"
   ],
   "note": "negative_elastic_eps_refuted shows that the range of elastic_eps in the statement is needed: the code does not check it."
  },
  {
   "property": "C58",
   "status": "partial",
   "theorems": [
    "l0_lme_budget_partial",
    "l0_lme_budget_refuted",
    "l0_linear_budget"
   ],
   "note": "The code violates the statement: a practical SR3 model may return its starting point. Proved: all linear models, and mixed models other than practical SR3; practical SR3 mixed models respect the budget or return the start."
  },
  {
   "property": "C59",
   "status": "partial",
   "theorems": [
    "lme_warm_start_refuted",
    "linear_warm_start_refuted",
    "lme_start_partial"
   ],
   "note": "The code violates the statement: warm_start never reads the previous coefficients. Proved: what the start is."
  },
  {
   "property": "C60",
   "status": "partial",
   "theorems": [
    "intercept_penalised_refuted",
    "intercept_unpenalised_partial"
   ],
   "note": "The code violates the statement: all constructors store weight 1 for the intercept. Only problems without stored weights get weight 0."
  },
  {
   "property": "C73",
   "status": "proved",
   "theorems": [
    "lme_line_search_no_worse"
   ],
   "note": ""
  },
  {
   "property": "C72",
   "status": "proved",
   "theorems": [
    "fitted_effects_are_blup"
   ],
   "note": ""
  },
  {
   "property": "C74",
   "status": "partial",
   "theorems": [
    "criterion_formula_partial",
    "criterion_counts_zeros_refuted",
    "criterion_with_intercept_refuted"
   ],
   "note": "The code violates the statement: zero coefficients are counted, and the criterion of a model fitted with an intercept cannot be evaluated on the training table. Proved: the formula with all coefficients counted."
  },
  {
   "property": "C75",
   "status": "partial",
   "theorems": [
    "generated_without_random_effects_refuted",
    "table_problems_evaluate_partial"
   ],
   "note": "The code violates the statement: a problem generated without random effects cannot be fitted by any model. Proved: problems made of tables can be evaluated."
  },
  {
   "property": "C76",
   "status": "partial",
   "theorems": [
    "sr3_flip_probabilities_refuted",
    "sr3_flip_probabilities_partial"
   ],
   "note": "The code violates the statement: the relaxation is part of the Hessian used. Proved: what is reported, and that it never exceeds the probabilities of the likelihood."
  },
  {
   "property": "C61",
   "status": "proved",
   "theorems": [
    "selection_is_best",
    "selection_returned",
    "candidates_of_grid"
   ],
   "note": ""
  },
  {
   "property": "C62",
   "status": "partial",
   "theorems": [
    "selected_names_partial",
    "selected_names_refuted"
   ],
   "note": "The code violates the statement: with an intercept every name is judged by the coefficient of the column before it. Proved without intercepts."
  },
  {
   "property": "C63",
   "status": "partial",
   "theorems": [
    "l0_grid_partial",
    "l0_grid_refuted"
   ],
   "note": "The code violates the statement: the full model is never a candidate, and with one fixed or one random effect the grid is empty and the selection fails. Proved: which pairs the grid has."
  },
  {
   "property": "C64",
   "status": "partial",
   "theorems": [
    "candidates_merged_partial",
    "preselected_exempt_partial",
    "preselected_exempt_refuted",
    "dictionaries_refuted"
   ],
   "note": "The code violates the statement: without an intercept the weights are shifted by one and the L1, CAD and SCAD selections fail; the caller's dictionary is changed. Proved: the merged candidates, the missing columns, and the weights when an intercept is a candidate."
  },
  {
   "property": "C38",
   "status": "partial",
   "theorems": [
    "cache_orderly_partial",
    "cached_evaluations_partial",
    "cache_repaired_partial",
    "cache_refuted"
   ],
   "note": "The code violates the statement: after a failed evaluation, after attaching another problem without forget, and after a change of the array held, old factors are used. Proved: histories without these three, and evaluations at other values or after forget."
  },
  {
   "property": "C65",
   "status": "partial",
   "theorems": [
    "regularizer_reinstantiated_partial",
    "regularizer_forgets_partial",
    "regularizer_forgets_refuted",
    "linear_oracles_forget",
    "cache_repaired_partial",
    "relaxed_oracle_forgets_partial",
    "relaxed_oracle_forgets_refuted",
    "priors_reinstantiate_refuted"
   ],
   "note": "The code violates the statement: wrappers do not pass forget on, open L0 budgets keep their first value, the SR3 mixed-model oracle keeps its warm start and increased parameters, and a Gaussian prior cannot be attached again. Proved: all other regularizers, the linear oracles, the plain mixed-model oracle, and the SR3 oracle without warm start."
  },
  {
   "property": "C77",
   "status": "proved",
   "theorems": [
    "fit_then_predict"
   ],
   "note": "Composition of fit, the stored effects and predict."
  },
  {
   "property": "C78",
   "status": "proved",
   "theorems": [
    "pgd_convex_rate",
    "linear_l1_fit_near_best",
    "sr3_l1_fit_near_best",
    "practical_l1_fit_near_best"
   ],
   "note": ""
  },
  {
   "property": "C79",
   "status": "proved",
   "theorems": [
    "pgd_converged_near_optimal",
    "linear_l1_fit_near_best",
    "sr3_l1_fit_near_best"
   ],
   "note": ""
  },
  {
   "property": "C80",
   "status": "proved",
   "theorems": [
    "linear_criterion",
    "linear_criterion_matches_log"
   ],
   "note": "For SR3 models the inversion of a'a + I is a hypothesis, np.linalg.inv being an argument of the model."
  },
  {
   "property": "C81",
   "status": "proved",
   "theorems": [
    "evaluations_ignore_row_order",
    "fit_ignores_row_order",
    "criterion_ignores_row_order"
   ],
   "note": ""
  },
  {
   "property": "C82",
   "status": "partial",
   "theorems": [
    "covariance_beta_ignores_row_order_partial",
    "covariance_random_effects_row_order_refuted"
   ],
   "note": "The code violates the statement: covariance_random_effects depends on the order of the rows. Proved: the covariance of the fixed effects does not."
  },
  {
   "property": "C83",
   "status": "proved",
   "theorems": [
    "converged_is_stationary",
    "lme_converged_is_stationary",
    "lme_converged_exactly"
   ],
   "note": "For mixed models with at least one fixed effect; that the gradient is the derivative of the likelihood is C40."
  },
  {
   "property": "C84",
   "status": "proved",
   "theorems": [
    "logged_criteria",
    "logged_criteria_formulas"
   ],
   "note": ""
  },
  {
   "property": "C85",
   "status": "partial",
   "theorems": [
    "reported_criterion_partial",
    "reported_criterion_refuted"
   ],
   "note": "The code violates the statement: get_information_criterion counts all coefficients and variances, zero or not, where fit counts those above sqrt(tol). Proved: the two agree without intercepts and prior when all fitted values are at least sqrt(tol)."
  },
  {
   "property": "C86",
   "status": "proved",
   "theorems": [
    "l1_prox_rounded",
    "l1_prox_overflow",
    "l1_prox_error"
   ],
   "note": "Model/Float64.v, on Flocq's binary64 with rounding to nearest even."
  },
  {
   "property": "C87",
   "status": "partial",
   "theorems": [
    "prox_toward_zero_partial",
    "prox_toward_zero_refuted"
   ],
   "note": "The code violates the statement for SCAD: where rho - 1 equals alpha*lam*w up to rounding, a positive number gives a negative one. Proved for all the others and their combinations; NaN is possible (see the example)."
  },
  {
   "property": "C88",
   "status": "partial",
   "theorems": [
    "flagged_not_negative_partial",
    "solver_not_negative_partial",
    "flagged_not_negative_refuted"
   ],
   "note": "The code violates the statement for SCAD inside the positive quadrant. Proved for all the others and their combinations."
  },
  {
   "property": "C89",
   "status": "proved",
   "theorems": [
    "cad_prox_rounded",
    "scad_prox_rounded",
    "elastic_positive_rounded"
   ],
   "note": ""
  },
  {
   "property": "C90",
   "status": "partial",
   "theorems": [
    "float_terminates_partial",
    "float_terminates_refuted"
   ],
   "note": "The code violates the statement for fixed_step_len=inf with line search: halving infinity never ends. Proved for all other step lengths, NaN included."
  },
  {
   "property": "C91",
   "status": "partial",
   "theorems": [
    "float_converged_partial",
    "float_converged_refuted"
   ],
   "note": "The code violates the statement: a comparison with NaN ends the loop, so a diverging fit with fixed steps reports converged=True with NaN coefficients. Proved when the length of the last move and tol are not NaN."
  },
  {
   "property": "C92",
   "status": "partial",
   "theorems": [
    "options_stored",
    "options_used_partial",
    "options_used_refuted",
    "options_of_fit"
   ],
   "note": "The code violates the statement: practical mixed models ignore tol_solver, max_iter_solver, stepping and fixed_step_len, and a step length of 0 counts as unset. Proved for all other options of all classes."
  },
  {
   "property": "C93",
   "status": "partial",
   "theorems": [
    "unknown_option_refuted",
    "unknown_option_partial"
   ],
   "note": "The code violates the statement: all constructors accept any keyword and drop it. Proved: set_params rejects it."
  },
  {
   "property": "C94",
   "status": "proved",
   "theorems": [
    "clone_keeps_options",
    "set_params_as_constructed"
   ],
   "note": ""
  },
  {
   "property": "C95",
   "status": "partial",
   "theorems": [
    "defaults_usable_partial",
    "defaults_usable_refuted"
   ],
   "note": "The code violates the statement: LinearL0Model and LinearL0ModelSR3 with the default nnz=None cannot log the loss. Proved: every class can be constructed and instantiated with its defaults."
  },
  {
   "property": "C96",
   "status": "proved",
   "theorems": [
    "derivatives_follow_units",
    "optimal_beta_follows_units"
   ],
   "note": ""
  },
  {
   "property": "C97",
   "status": "partial",
   "theorems": [
    "random_effects_follow_units_partial",
    "random_effects_follow_units_refuted",
    "covariance_random_effects_units_refuted"
   ],
   "note": "The code violates the statement: effects whose variance is below 1e-10 in the unit at hand are set to 0, and covariance_random_effects mixes powers of an inverse Cholesky factor. Proved: effects, fitted values and conditional loss convert when the variances above 1e-10 are the same in both units."
  },
  {
   "property": "C98",
   "status": "partial",
   "theorems": [
    "criteria_follow_units_partial",
    "criteria_follow_units_refuted"
   ],
   "note": "The code violates the statement: parameters are counted against an absolute tolerance, so a change of units can reverse the order of two models. Proved: the criteria change by a constant when the counts (and, for the conditional criterion, the estimated effects) are the same in both units."
  },
  {
   "property": "C99",
   "status": "proved",
   "theorems": [
    "evaluations_ignore_group_order",
    "fit_ignores_group_names",
    "criterion_ignores_group_names"
   ],
   "note": ""
  },
  {
   "property": "C100",
   "status": "proved",
   "theorems": [
    "interior_point_log",
    "interior_point_log_values",
    "fit_logs_interior_point"
   ],
   "note": ""
  },
  {
   "property": "C101",
   "status": "proved",
   "theorems": [
    "good_stop_is_optimal",
    "fit_good_stop_is_optimal"
   ],
   "note": ""
  },
  {
   "property": "C102",
   "status": "partial",
   "theorems": [
    "condition_numbers_refuted",
    "condition_numbers_one_group_partial",
    "condition_numbers_upper_partial",
    "condition_numbers_infinite_partial",
    "get_ic_names"
   ],
   "note": "The code violates the statement: the singular values of x'x are the squares of those of x, and those of all groups are pooled. A group with X = diag(1, 2) gives 4 instead of 2; two one-observation groups whose stacked X is the identity give infinity instead of 1. True: for one group the answer is the squared condition number; for more groups a finite answer is an upper bound of the squared condition number of the stacked matrix; it is infinite exactly when some single group has dependent columns. np.linalg.svd is a parameter required to return the nonnegative diagonal of an orthogonal diagonalisation. get_ic is modelled and shown to be the named criterion."
  },
  {
   "property": "C103",
   "status": "partial",
   "theorems": [
    "to_dataframe_intercept_refuted",
    "to_dataframe_names_refuted",
    "to_dataframe_round_trip_partial",
    "to_dataframe_columns_partial"
   ],
   "note": "The code violates the statement: for every problem with an intercept no call of from_dataframe on the frame gives the intercept back (there is no such column), and two fixed effects become two columns of the same name. True: without intercepts and with every role used at most once the round trip returns the same data; the frame always has the labels as names, with the targets as a last column."
  },
  {
   "property": "C104",
   "status": "partial",
   "theorems": [
    "fixed_step_never_converges_refuted",
    "pgd_converges_convex_partial",
    "pgd_converges_fixed_partial",
    "linear_l1_converges_partial",
    "sr3_l1_converges_partial",
    "sr3_l0_converges_partial"
   ],
   "note": "The code violates the statement when a fixed step is longer than the curvature permits: with the default fixed step 0.05 one observation a = 10 makes the iterates 1, -4, 16, ... for ever. True, with an explicit number of iterations: convex penalties on a function of bounded curvature that is bounded below, with line search or with a fixed step at most 1/L; other penalties with an exact prox and a fixed step below 1/L; and so the linear L1, SR3 L1 and (identity c, step 1/el) SR3 L0 models. Line search with a non-convex penalty is not covered."
  },
  {
   "property": "C105",
   "status": "partial",
   "theorems": [
    "lme_loss_bounded_refuted",
    "lme_loss_bounded_partial",
    "lme_floor_reached_partial",
    "lme_variances_bounded_partial",
    "lme_converges_partial"
   ],
   "note": "The code violates the statement: from_x_y only requires observation variances to be non-zero, and with the variance -1 the objective tends to minus infinity as gamma decreases to 1. True for positive observation variances and convex priors: the floor holds (and is reached by an exact fit), each variance t of a random effect costs at least the sum over groups of ln(1 + t z'V^-1 z)/2, and for line-search fits whose searches were not exhausted (steps above 1e-14) this bounds the fitted variances and, with an explicit max_iter, gives converged=True."
  },
  {
   "property": "C106",
   "status": "partial",
   "theorems": [
    "splits_depend_on_groups",
    "splits_train_every_group_partial",
    "splits_train_every_group_refuted"
   ],
   "note": "The code violates the statement for test sizes above one half, which nothing excludes: with two rows in one group, seven in another and 7/9 of the rows for the test, sklearn's rounding leaves the first group without training rows in every split, and predict then fails on the test rows for every model with random effects. True for test sizes up to one half (the default is 1/4, the README uses 1/2). sklearn's promises (sizes, disjointness, at least two rows per stratum, largest remainders) are hypotheses. The docstring of split also announces tuples (X_train, y_train, X_test, y_test); the code returns pairs of index arrays, and so does the model."
  },
  {
   "property": "C107",
   "status": "partial",
   "theorems": [
    "per_group_coefficients_formats",
    "effects_matrix_partial",
    "effects_matrix_refuted"
   ],
   "note": "The code violates the statement in random_effects_to_matrix: applied to the random effects of a fitted model it unpacks each row as if it were a tuple, so for two effects per group it returns the vector of the second effects without an error, and otherwise raises ValueError. Its docstring only promises tuples, for which the theorem holds. get_per_group_coefficients treats both formats alike."
  },
  {
   "property": "C108",
   "status": "partial",
   "theorems": [
    "fit_reorders_features_partial",
    "predictions_reorder_features",
    "fit_reorders_features_refuted"
   ],
   "note": "True for every penalty but L0 (SR3 models under the contract of np.linalg.inv). Refuted for L0: with two equal features, one of which is kept, exchanging them does not change the data and so not the fit, but the fit is not its own exchange. This holds for every tie rule of argsort."
  },
  {
   "property": "C109",
   "status": "partial",
   "theorems": [
    "fit_flips_signs_partial",
    "fit_flips_signs_refuted"
   ],
   "note": "True when the start is given (warm_start) and has its signs changed as well. Refuted for the default start, which is a vector of ones: a run that converges gives 1, 1 for one observation 2 of features 1, 1 and converges to 2, 0 when the second feature is multiplied by -1."
  },
  {
   "property": "C110",
   "status": "proved",
   "theorems": [
    "linear_fit_ignores_row_order"
   ],
   "note": "In exact arithmetic. SR3 models for el > 0 and under the contract of np.linalg.inv."
  },
  {
   "property": "C111",
   "status": "partial",
   "theorems": [
    "zero_is_best_iff",
    "linear_l1_removes_all_partial",
    "sr3_l1_removes_all_partial",
    "practical_l1_removes_all_partial",
    "linear_l1_stays_at_zero",
    "linear_l1_removes_all_refuted"
   ],
   "note": "The threshold is exact for the objective (zero_is_best_iff). The fit is exactly zero when the margin mu, the tolerance and the number of iterations fit together (tol <= step mu / 4, |start|^2 <= (step mu)^2 (max_iter - 1)). Without this the claim is false: with all default options and lam = 1e-5 a fit to the target 0 stops after one iteration at 0.9999945 and reports convergence. For SR3 models the threshold is that of the relaxed problem. In exact arithmetic."
  },
  {
   "property": "C112",
   "status": "partial",
   "theorems": [
    "run_continues",
    "run_stops_early",
    "linear_fit_continues_partial",
    "practical_continues",
    "practical_fit_continues",
    "lme_fit_continues_partial",
    "linear_fit_continues_refuted"
   ],
   "note": "Holds whenever the long run really passes iteration n1. False in one case, characterised by run_stops_early: a run that meets the tolerance in its last allowed iteration reports converged=False, and a continued run moves on. The practical method of the linear models is covered by practical_continues and practical_fit_continues; there the log always says converged, so it does not tell an interrupted fit from a finished one. Mixed models solved by the practical method and relaxed mixed models that warm-start their inner method are not covered; a mixed model must be continued through its initial values (and without the EM initializer), because its warm_start option does not use the fitted coefficients."
  },
  {
   "property": "C113",
   "status": "proved",
   "theorems": [
    "packed_gradient",
    "sr3_packed_gradient",
    "sr3_packed_defaults",
    "sr3_packed_loss"
   ],
   "note": "The relaxed methods have None as default for the relaxed parameters; with the default they raise TypeError at every point (sr3_packed_defaults)."
  },
  {
   "property": "C114",
   "status": "partial",
   "theorems": [
    "practical_same_penalty_refuted",
    "standard_step_partial",
    "practical_step_partial",
    "stronger_model_partial",
    "same_penalty_ell_one"
   ],
   "note": "Refuted: FakePGDSolver projects with step 1 whatever ell and fixed_step_len are, PGDSolver with 1/ell by default. On a problem with lam = ell = 40 the standard method returns the fixed effect 1 and the practical one 0, for all limits of the iterations (practical_same_penalty_refuted). Partial: both project the parameters found by the interior-point method, the practical method with lam and elastic_eps multiplied by ell; for ell = 1 they project alike."
  },
  {
   "property": "C115",
   "status": "proved",
   "theorems": [
    "pgd_distance",
    "linear_l1_fit_distance",
    "sr3_l1_fit_distance",
    "practical_l1_fit_distance"
   ],
   "note": "mu is any lower bound of the eigenvalues of a'a, sm of the steps; SR3 has the curvature mu el / (mu + el). The distance is bounded by tol (2 / (sm mu) + 1/2): with nearly dependent columns converged=True says little. In exact arithmetic."
  },
  {
   "property": "C116",
   "status": "proved",
   "theorems": [
    "linear_l1_fit_selects",
    "sr3_l1_fit_selects",
    "practical_l1_fit_selects"
   ],
   "note": "The margins are strict complementarity: the gradient at a zero coefficient stays below the penalty by dz, and a coefficient that is not zero is at least dn. Without enough accuracy the selection can be wrong although converged=True: see linear_l1_removes_all_refuted (C111). In exact arithmetic."
  },
  {
   "property": "C117",
   "status": "partial",
   "theorems": [
    "em_initializer_partial",
    "em_step_descends",
    "em_initializer_is_em_refuted"
   ],
   "note": "False for the code: it averages the squares of the predicted effects and leaves out their variances given the observations, so every variance is too small, and the likelihood can fall. True: the coefficients maximise the likelihood at the given variances, the difference from an EM step is exactly the average of the variances left out, and the step raises the joint density of observations and effects. For plain models; an SR3 model uses the relaxed best coefficients instead. In exact arithmetic."
  },
  {
   "property": "C118",
   "status": "partial",
   "theorems": [
    "lme_prior_partial",
    "oracle_prior_partial",
    "table_prior_partial",
    "prior_with_intercept_refuted"
   ],
   "note": "False for the code: with an intercept the documented prior raises AssertionError, because the names of a table's fixed effects leave the intercept out. A prior without it raises ValueError in the oracle, or, when the table has one fixed effect, is accepted and pulls the intercept to the mean as well. True: without intercepts an accepted prior acts on the named effects only, and every other dictionary is refused. The terms are those of C27, which divide by the deviation instead of its square. In exact arithmetic."
  },
  {
   "property": "C119",
   "status": "partial",
   "theorems": [
    "linear_loss_is_likelihood_partial",
    "declared_noise_ignored",
    "linear_loss_is_likelihood_refuted"
   ],
   "note": "False for the code: obs_std is stored and never read, so the loss, its derivatives, the criteria and every fit are the same for all declared variances. True when all declared variances are equal, or none are declared: the loss is then a positive multiple of the negative log-likelihood plus a constant. In exact arithmetic."
  },
  {
   "property": "C120",
   "status": "proved",
   "theorems": [
    "relaxed_value_below_loss",
    "relaxed_value_grows",
    "relaxed_minimiser_near_best",
    "sr3_l1_fit_near_plain_best"
   ],
   "note": "In exact arithmetic, for the contract of the matrix inverse, with the identity as c. The error of a fit also contains that of the solver, as in C79; a is tol/sm, so tol has to shrink with 1/el for the fit to approach the best coefficients."
  },
  {
   "property": "C121",
   "status": "partial",
   "theorems": [
    "lme_loss_ignores_feature_order_partial",
    "lme_derivatives_reorder_features_partial",
    "lme_estimates_reorder_features_partial",
    "lme_criteria_ignore_feature_order_partial",
    "lme_fit_reorders_columns_partial",
    "lme_fit_reorders_columns_relaxed_partial",
    "lme_predictions_ignore_feature_order_partial",
    "lme_fit_reorders_columns_refuted"
   ],
   "note": "False for L0 models: of two equal features one is kept, and which one depends on argsort. The theorems about fits are for models without L0 penalty, with relaxation in the practical mode only for a log without the variances of the interior point method; the theorems about evaluations have no such restriction. In exact arithmetic."
  },
  {
   "property": "C122",
   "status": "proved",
   "theorems": [
    "lme_gradient_at_zero",
    "lme_l1_stays_at_zero",
    "lme_l1_zero_is_justified",
    "lme_l1_removes_all"
   ],
   "note": "In exact arithmetic, for the model without relaxation. The weight of an intercept is 0 by default, so with an intercept the conditions need weights given by the user or a zero score. The last statement is for a step given by the user: the default step 1/(lam+1) shrinks with the penalty."
  },
  {
   "property": "C123",
   "status": "partial",
   "theorems": [
    "lme_fit_flips_signs_partial",
    "lme_fit_flips_signs_relaxed_partial",
    "lme_predictions_flip",
    "lme_score_flips",
    "lme_fit_flips_signs_refuted"
   ],
   "note": "False without a given start: the default start has all coefficients 1, which is not symmetric. The theorem about fits without relaxation is for a given start or the starting step EM, that about relaxed models for a given start and, in the practical mode, a log without the coefficients of the interior point method; both are for at least one random feature; the normal distribution function enters through its symmetry. In exact arithmetic."
  },
  {
   "property": "C124",
   "status": "partial",
   "theorems": [
    "missing_oracle_partial",
    "complete_call_partial",
    "missing_logger_partial",
    "missing_regularizer_partial",
    "missing_arguments_refuted"
   ],
   "note": "False for regularizers and loggers: PGDSolver needs both and fails with AttributeError, FakePGDSolver wants a regularizer (ValueError) and fails without a logger after all the work is done. Proved when exactly a call with missing arguments can return."
  },
  {
   "property": "C125",
   "status": "proved",
   "theorems": [
    "lme_zero_variances_loss",
    "lme_zero_variances_gradients",
    "lme_zero_variances_estimate",
    "lme_zero_variances_linear",
    "lme_zero_variances_criteria",
    "lme_zero_variance_ignored",
    "sr3_zero_variance_ignored",
    "sr3_zero_variances_estimate"
   ],
   "note": "In exact arithmetic, with positive observation variances for the statements about all variances zero. The gradient in the variances does depend on the data of effects with zero variance, as it must."
  }
 ]
}