{
 "claims": [
  {
   "property": "C01",
   "status": "proved",
   "theorems": [
    "C01_probabilities_are_logit",
    "C01_probabilities_proper"
   ],
   "note": "Every market, nesting structure (rho<1 per group) and epsilon scale; exact arithmetic."
  },
  {
   "property": "C02",
   "status": "proved",
   "theorems": [
    "C02_safe_rescaling_exact"
   ],
   "note": "Every choice set, including eliminated products, limited availability and no outside good."
  },
  {
   "property": "C03",
   "status": "proved",
   "theorems": [
    "C03_closed_form_inverts"
   ],
   "note": "Logit and nested logit, per-group rho<1, any positive epsilon scale."
  },
  {
   "property": "C04",
   "status": "proved",
   "theorems": [
    "C04_fixed_point_iff_shares_match",
    "C04_shares_are_averaged_probabilities",
    "C04_clipping_reported"
   ],
   "note": "Linear and safe_linear contractions (the only reachable ones, see C07), with or without share bounds."
  },
  {
   "property": "C05",
   "status": "proved",
   "theorems": [
    "C05_delta_unique"
   ],
   "note": "Also proved with nesting for rho in [0,1) and for every epsilon scale."
  },
  {
   "property": "C06",
   "status": "partial",
   "theorems": [
    "C06_contraction_nonexpansive",
    "C06_contraction_monotone",
    "C06_small_epsilon_refuted"
   ],
   "note": "REFUTED in general: C06_small_epsilon_refuted shows expansion for epsilon_scale=1/4. Proved for epsilon_scale>=1 (the default is 1), with or without nesting (0<=rho<1)."
  },
  {
   "property": "C07",
   "status": "partial",
   "theorems": [
    "C07_fp_type_refuted",
    "C07_accepted_types",
    "C07_always_linear",
    "C07_linear_honoured",
    "C07_nonlinear_equivalent",
    "C07_safe_nonlinear_nested_refuted"
   ],
   "note": "REFUTED: 'linear' in fp_type is also true of 'nonlinear' and 'safe_nonlinear', so the nonlinear branch is unreachable (market.py 543). Proved: the two linear types are honoured, every accepted type runs the linear branch, and the dead nonlinear code is equivalent except in its safe nested variant (refuted)."
  },
  {
   "property": "C08",
   "status": "proved",
   "theorems": [
    "C08_elimination_is_absence",
    "C08_remaining_gain",
    "C08_no_outside_sums_to_one"
   ],
   "note": "Elimination equals absence; remaining goods and the outside option weakly gain for 0<=rho<1."
  },
  {
   "property": "C09",
   "status": "proved",
   "theorems": [
    "C09_simple_budget",
    "C09_simple_convergence_truthful",
    "C09_simple_stops_first_time",
    "C09_accepted_options",
    "C09_return_keeps_values"
   ],
   "note": "Any contraction, any tolerance; the simple iteration routine (iteration.py simple_iterator)."
  },
  {
   "property": "C10",
   "status": "proved",
   "theorems": [
    "C10_simple_nonfinite",
    "C10_squarem_nonfinite",
    "C10_scipy_nonfinite"
   ],
   "note": "Simple and SQUAREM report non-convergence on a non-finite norm or value; the SciPy wrapper for any decision-tree solver."
  },
  {
   "property": "C11",
   "status": "partial",
   "theorems": [
    "C11_squarem_budget",
    "C11_squarem_convergence_truthful",
    "C11_squarem_step_bounds",
    "C11_step_factor_refuted",
    "C11_accepted_options"
   ],
   "note": "REFUTED for step_factor < 1 (accepted by the configuration): C11_step_factor_refuted lets the step exceed step_max. Proved for step_factor >= 1 (default 4): budget, truthful convergence, step bounds."
  },
  {
   "property": "C12",
   "status": "proved",
   "theorems": [
    "C12_costs_rationalise_prices",
    "C12_costs_markup_equation",
    "C12_approximate_prices_roundtrip"
   ],
   "note": "Any ownership, any formulation; linear solver exact (an oracle hypothesis)."
  },
  {
   "property": "C13",
   "status": "partial",
   "theorems": [
    "C13_fixed_point_iff_bertrand",
    "C13_termination_is_profit_gradient",
    "C13_asymmetric_ownership_refuted",
    "C13_diagonal_ownership_refuted"
   ],
   "note": "REFUTED for ownership matrices that are asymmetric or whose diagonal is not one: zeta uses the transpose of ownership and assumes a unit diagonal (C13_asymmetric_ownership_refuted, C13_diagonal_ownership_refuted). Proved under symmetric ownership with unit diagonal and nonzero lambda."
  },
  {
   "property": "C14",
   "status": "proved",
   "theorems": [
    "C14_jacobian_is_derivative"
   ],
   "note": "Any differentiable formulation of X1 and X2, nesting, any epsilon scale."
  },
  {
   "property": "C15",
   "status": "partial",
   "theorems": [
    "C15_nonconvergence_refuted",
    "C15_realizations_report"
   ],
   "note": "REFUTED: safely_compute_prices tests the truth of a SolverStats object, which is always true, so non-convergence is never reported. Proved for the realisation path, which tests stats.converged."
  },
  {
   "property": "C16",
   "status": "partial",
   "theorems": [
    "C16_rows_sum_to_one",
    "C16_matches_definition",
    "C16_definition_refuted"
   ],
   "note": "REFUTED when the Jacobian is asymmetric: rows are used where the documented definition needs columns. Proved: rows sum to one; equal to the definition when all marginal utilities coincide."
  },
  {
   "property": "C17",
   "status": "partial",
   "theorems": [
    "C17_surplus_is_expected_maximum",
    "C17_price_derivative_is_share",
    "C17_delta_derivative_is_probability",
    "C17_elimination_lowers_surplus",
    "C17_epsilon_scale_refuted",
    "C17_derivative_at_given_prices_refuted"
   ],
   "note": "REFUTED for epsilon_scale != 1 (C17_epsilon_scale_refuted: utilities inside the log-sum are not divided by the scale) and, with nonlinear prices, for the documented evaluation point of the price derivative (C17_derivative_at_given_prices_refuted). Proved for epsilon_scale = 1 without income effects: exact log-sum, Roy's identity, monotone in the choice set."
  },
  {
   "property": "C18",
   "status": "partial",
   "theorems": [
    "C18_hhi_of_inside_shares",
    "C18_hhi_bounds",
    "C18_hhi_order",
    "C18_hhi_merger",
    "C18_documented_formula_refuted"
   ],
   "note": "REFUTED as documented (C18_documented_formula_refuted: the code divides by the sum of inside shares). Proved for shares of inside sales: definition, bounds, order, mergers."
  },
  {
   "property": "C19",
   "status": "partial",
   "theorems": [
    "C19_product_rows",
    "C19_market_rows",
    "C19_single_market",
    "C19_product_rows_refuted"
   ],
   "note": "REFUTED when every market has one product and rows are not sorted by market (C19_product_rows_refuted): product-level outputs are then stacked in sorted market order. Proved otherwise."
  },
  {
   "property": "C20",
   "status": "proved",
   "theorems": [
    "C20_objective_evaluation",
    "C20_stacked_outputs",
    "C20_market_indices_disjoint"
   ],
   "note": ""
  },
  {
   "property": "C21",
   "status": "partial",
   "theorems": [
    "C21_seed_refuted"
   ],
   "note": "REFUTED (C21_seed_refuted): the generator's state is threaded through markets in arrival order. C51_draws_and_weights holds for every order."
  },
  {
   "property": "C22",
   "status": "proved",
   "theorems": [
    "C22_group_statistics",
    "C22_expand",
    "C22_get_indices"
   ],
   "note": ""
  },
  {
   "property": "C23",
   "status": "proved",
   "theorems": [
    "C23_expand_compress",
    "C23_compress_expand",
    "C23_positions",
    "C23_fixed",
    "C23_distinct",
    "C23_values"
   ],
   "note": ""
  },
  {
   "property": "C24",
   "status": "proved",
   "theorems": [
    "C24_unfixed",
    "C24_partition",
    "C24_zero",
    "C24_equal_bounds",
    "C24_rejected",
    "C24_within",
    "C24_not_nan",
    "C24_specified",
    "C24_unbounded"
   ],
   "note": ""
  },
  {
   "property": "C25",
   "status": "partial",
   "theorems": [
    "C25_reverted",
    "C25_recorded",
    "C25_finite",
    "C25_finite_objective",
    "C25_finite_derivatives",
    "C25_gradient_free_refuted"
   ],
   "note": "REFUTED in part: after an evaluation without a gradient, the stored Jacobian of xi is NaN, so a later evaluation with a gradient reverts bad elements to NaN (C25_gradient_free_refuted). Proved: exact reversion, one error per quantity, finiteness of delta, costs, micro moments and the objective over all histories, and of derivatives when all evaluations compute them."
  },
  {
   "property": "C26",
   "status": "partial",
   "theorems": [
    "C26_error_behavior",
    "C26_records_kept",
    "C26_records_kept_refuted"
   ],
   "note": "REFUTED in part: with 'revert', an objective that could not be computed is the array of the last evaluation, which is multiplied in place, so that evaluation's recorded objective changes (C26_records_kept_refuted). Proved: values for each behaviour, and records are kept otherwise."
  },
  {
   "property": "C27",
   "status": "proved",
   "theorems": [
    "C27_history_independent",
    "C27_first",
    "C27_last"
   ],
   "note": ""
  },
  {
   "property": "C28",
   "status": "proved",
   "theorems": [
    "C28_gradient",
    "C28_objective",
    "C28_asymmetric_refuted"
   ],
   "note": "For symmetric weighting matrices, which pyblp enforces; C28_asymmetric_refuted shows that this is needed."
  },
  {
   "property": "C29",
   "status": "proved",
   "theorems": [
    "C29_first_order",
    "C29_residuals",
    "C29_jacobian"
   ],
   "note": "Generic over real fields, for stacked equations of any number; linear solves are exact inverses."
  },
  {
   "property": "C30",
   "status": "proved",
   "theorems": [
    "C30_symmetric",
    "C30_weights",
    "C30_parameters",
    "C30_own_clusters",
    "C30_one_cluster",
    "C30_centering",
    "C30_optimal"
   ],
   "note": "Positive semidefiniteness, symmetry and special cases proved; one-cluster and centering identities added."
  },
  {
   "property": "C31",
   "status": "partial",
   "theorems": [
    "C31_report",
    "C31_reported",
    "C31_refuted",
    "C31_exact_partial",
    "C31_uncaught"
   ],
   "note": "REFUTED: the loop over methods resets the replacement message to None when a pseudo-inverse or diagonal inverse succeeds (algebra.py 166-170), so replacements are silent. C31_report characterises what is reported; C31_exact_partial is what holds; C31_uncaught shows that a zero diagonal raises."
  },
  {
   "property": "C32",
   "status": "proved",
   "theorems": [
    "C32_vech",
    "C32_elimination",
    "C32_duplication",
    "C32_commutation",
    "C32_conversions",
    "C32_jacobian",
    "C32_delta_method",
    "C32_extracted"
   ],
   "note": "The Moore-Penrose inverse used by elimination and duplication matrices is an oracle with the four Penrose conditions; the averaging matrix is shown to satisfy them."
  },
  {
   "property": "C33",
   "status": "partial",
   "theorems": [
    "C33_balanced",
    "C33_divisible",
    "C33_rejected",
    "C33_refuted"
   ],
   "note": "REFUTED: with J = 7 and F = 5 firm 1 has one product and firm 2 has two, so excess products do not go to firms with smaller IDs as documented. Everything else is proved (counts differ by at most one, first firm has the most, exact when divisible)."
  },
  {
   "property": "C34",
   "status": "proved",
   "theorems": [
    "C34_ownership",
    "C34_default"
   ],
   "note": ""
  },
  {
   "property": "C35",
   "status": "proved",
   "theorems": [
    "C35_instruments",
    "C35_reordered"
   ],
   "note": ""
  },
  {
   "property": "C36",
   "status": "partial",
   "theorems": [
    "C36_documented_partial",
    "C36_local_products",
    "C36_refuted"
   ],
   "note": "REFUTED for the local version with interactions: the code uses x_j - x_k where the documentation says x_k - x_j, so these instruments have the opposite sign (C36_local_products). Other versions are exactly as documented."
  },
  {
   "property": "C37",
   "status": "partial",
   "theorems": [
    "C37_no_overwriting",
    "C37_read_back",
    "C37_read_back_refuted"
   ],
   "note": "REFUTED as stated: columns never overwrite one another (C37_no_overwriting), but a two-column field x next to a field x2 is read back with an extra column. Proved under the guard that no field is named after the first unused index (C37_read_back)."
  },
  {
   "property": "C38",
   "status": "partial",
   "theorems": [
    "C38_blocks",
    "C38_halton",
    "C38_refuted"
   ],
   "note": "REFUTED for scrambled Halton sequences, the default: each market's block draws its own digit permutations, so blocks are not segments of one sequence and two markets can share nodes (C38_refuted). C38_blocks proves block structure, sizes and weights; C38_halton proves that blocks use consecutive integers, and one sequence without scrambling."
  },
  {
   "property": "C39",
   "status": "proved",
   "theorems": [
    "C39_points",
    "C39_bases"
   ],
   "note": ""
  },
  {
   "property": "C40",
   "status": "proved",
   "theorems": [
    "C40_strata"
   ],
   "note": ""
  },
  {
   "property": "C41",
   "status": "proved",
   "theorems": [
    "C41_product",
    "C41_odd",
    "C41_sequences",
    "C41_sparse",
    "C41_distinct"
   ],
   "note": "Also proves that sparse grids integrate as the combination of products of whole-line rules, with weights summing to one and distinct sorted nodes."
  },
  {
   "property": "C42",
   "status": "proved",
   "theorems": [
    "C42_answers",
    "C42_values",
    "C42_counts",
    "C42_knitro",
    "C42_overwritten"
   ],
   "note": "Gradients are passed to routines by reference: C42_overwritten shows that a routine that overwrites its gradient in place is handed the overwritten one when it asks again for the same point; C42_answers is for routines that only read gradients."
  },
  {
   "property": "C43",
   "status": "partial",
   "theorems": [
    "C43_refuted",
    "C43_rows",
    "C43_whole_partial",
    "C43_accepted"
   ],
   "note": "REFUTED (C43_refuted): because of operator precedence in the check of lag_indices (primitives.py 200), indices beyond the last row, missing and fractional indices are accepted. C43_whole_partial: what is accepted if indices are whole numbers at most N-1."
  },
  {
   "property": "C44",
   "status": "partial",
   "theorems": [
    "C44_refuted",
    "C44_demographics_partial",
    "C44_sorted_partial",
    "C44_loaded"
   ],
   "note": "REFUTED (C44_refuted): with an integration configuration, agent data that are not sorted by market or, without demographics, have other numbers of rows than nodes end up in other markets' rows. C44_demographics_partial and C44_sorted_partial prove alignment under guards; C44_loaded without integration."
  },
  {
   "property": "C45",
   "status": "partial",
   "theorems": [
    "C45_scores_partial",
    "C45_others_partial",
    "C45_refuted_order",
    "C45_refuted_others"
   ],
   "note": "REFUTED: unsorted micro_ids pass the vacuous sort check and scores come back in ID order; denominators only sum over markets present in micro_data, so leaving out observations changes other scores. Proved under sorted IDs and data covering the dataset's markets."
  },
  {
   "property": "C46",
   "status": "partial",
   "theorems": [
    "C46_chunks",
    "C46_agents",
    "C46_values",
    "C46_denominators_partial",
    "C46_refuted"
   ],
   "note": "REFUTED for Jacobians of denominators: weights that are constant within chunks but not across agents give a zero denominator Jacobian. Numerators, denominators, values, covariances and kept weights are proved equal for all numbers of chunks."
  },
  {
   "property": "C47",
   "status": "proved",
   "theorems": [
    "C47_documented",
    "C47_joint",
    "C47_ratios"
   ],
   "note": ""
  },
  {
   "property": "C48",
   "status": "partial",
   "theorems": [
    "C48_serial_after_program",
    "C48_exit_drops_pool",
    "C48_one_process",
    "C48_rejected",
    "C48_nested_refuted"
   ],
   "note": "REFUTED for nested contexts: a one-process context inside a pool leaves that pool in use, and leaving an inner pool leaves the outer body without one. Proved: any program started without a pool ends without one, exits with two or more processes drop the pool for every exception point, one process starts no pool, invalid arguments change nothing."
  },
  {
   "property": "C49",
   "status": "partial",
   "theorems": [
    "C49_normal_demand_draws",
    "C49_normal_demand_draws_iff",
    "C49_normal_demand_draws_refuted",
    "C49_normal_joint_draws",
    "C49_empirical_draws",
    "C49_empirical_joint"
   ],
   "note": "REFUTED without a supply side (C49_normal_demand_draws_refuted): draws have the squared variance; proved with a supply side and for empirical draws."
  },
  {
   "property": "C50",
   "status": "proved",
   "theorems": [
    "C50_steps",
    "C50_cumulative_sums",
    "C50_cumulative_converged",
    "C50_cumulative_fixed_points",
    "C50_columns"
   ],
   "note": ""
  },
  {
   "property": "C51",
   "status": "proved",
   "theorems": [
    "C51_draws_and_weights",
    "C51_raises",
    "C51_effective_draws"
   ],
   "note": ""
  },
  {
   "property": "C52",
   "status": "partial",
   "theorems": [
    "C52_started_partial",
    "C52_stationary_partial",
    "C52_refuted"
   ],
   "note": "REFUTED (C52_refuted): lags in a circle pass the validation, but errors of these rows remain independent draws. For rows that go back to an initial period C52_started_partial and C52_stationary_partial prove the autoregression, termination and stationarity."
  },
  {
   "property": "C53",
   "status": "proved",
   "theorems": [
    "C53_replaced"
   ],
   "note": "For one row of data; delta and costs of the market-level computation are inputs, columns are functions of the variables that their formulation names."
  },
  {
   "property": "C54",
   "status": "proved",
   "theorems": [
    "C54_hansen",
    "C54_distance",
    "C54_lagrange_multiplier",
    "C54_wald"
   ],
   "note": ""
  },
  {
   "property": "C55",
   "status": "proved",
   "theorems": [
    "C55_first_differences",
    "C55_second_differences"
   ],
   "note": ""
  },
  {
   "property": "C56",
   "status": "proved",
   "theorems": [
    "C56_exact_name",
    "C56_stacked",
    "C56_update",
    "C56_titled_update_rejected"
   ],
   "note": ""
  },
  {
   "property": "C57",
   "status": "proved",
   "theorems": [
    "C57_projected_gradient"
   ],
   "note": "Bounds of each parameter in theta differ (C24)."
  },
  {
   "property": "C58",
   "status": "proved",
   "theorems": [
    "C58_long_run_rows_sum_to_one",
    "C58_long_run_nonnegative",
    "C58_long_run_meaning"
   ],
   "note": "Row sums for any observed shares; nonnegativity when the model reproduces observed shares and 0<=rho<1; each entry is the gain in the market without the product."
  },
  {
   "property": "C59",
   "status": "partial",
   "theorems": [
    "C59_elasticities_exact",
    "C59_delta_elasticities_exact",
    "C59_delta_elasticities_refuted"
   ],
   "note": "REFUTED for the mean utility (name=None) with epsilon_scale other than one. Proved for variables always and for the mean utility with epsilon_scale=1."
  },
  {
   "property": "C60",
   "status": "partial",
   "theorems": [
    "C60_passthrough_common_coefficient",
    "C60_passthrough_single_product_firms",
    "C60_passthrough_refuted"
   ],
   "note": "REFUTED in general (C60_passthrough_refuted: ownership times the untransposed Jacobian and Hessian). Proved when each agent's marginal utility of price is common to all products, and for single-product firms."
  },
  {
   "property": "C61",
   "status": "proved",
   "theorems": [
    "C61_hessian_is_second_derivative"
   ],
   "note": "Formulations are assumed twice differentiable with the symbolic derivatives of the model (sympy is not modelled)."
  },
  {
   "property": "C62",
   "status": "partial",
   "theorems": [
    "C62_shares_by_xi",
    "C62_probabilities_by_xi",
    "C62_conditionals_by_xi",
    "C62_contraction_jacobian",
    "C62_contraction_jacobian_refuted"
   ],
   "note": "REFUTED for the contraction Jacobian when the epsilon scale is not one (the factor 1/epsilon_scale is missing). Proved for the xi Jacobian and tensors in general and for the contraction when the scale is one."
  },
  {
   "property": "C63",
   "status": "proved",
   "theorems": [
    "C63_sigma_pi_tangents",
    "C63_rho_tangents",
    "C63_beta_tangents"
   ],
   "note": "sigma, pi, rho and beta; linear, log-normal and logit-normal coefficients."
  },
  {
   "property": "C64",
   "status": "proved",
   "theorems": [
    "C64_xi_by_theta",
    "C64_total_tangents",
    "C64_rho",
    "C64_rho_given_derivatives",
    "C64_xi_by_beta",
    "C64_eta_by_theta",
    "C64_eta_by_rho",
    "C64_eta_by_beta",
    "C64_omega_by_gamma",
    "C64_xi_by_gamma",
    "C64_matching_unique",
    "C64_omega_by_theta"
   ],
   "note": "Differentiability is proved (an implicit function theorem for strictly diagonally dominant systems), not assumed; existence and uniqueness of the mean utilities in C64_matching_unique. The solver is an oracle that is exact when it reports no replacement; the kept inverse is a left inverse. For a nesting parameter of exactly zero differentiability is a hypothesis (C64_rho_given_derivatives)."
  },
  {
   "property": "C65",
   "status": "proved",
   "theorems": [
    "C65_profit_hessian",
    "C65_profit_jacobian"
   ],
   "note": ""
  },
  {
   "property": "C66",
   "status": "proved",
   "theorems": [
    "C66_aggregate_elasticity_limit"
   ],
   "note": "The limit at observed shares that the model reproduces; any differentiable formulation."
  },
  {
   "property": "C67",
   "status": "partial",
   "theorems": [
    "C67_concentrated_gradient",
    "C67_converted",
    "C67_any_weights_refuted"
   ],
   "note": "REFUTED for weighting matrices that link micro moments with others (C67_any_weights_refuted). Proved for block diagonal ones, and that converted Jacobians are exact for all."
  },
  {
   "property": "C68",
   "status": "proved",
   "theorems": [
    "C68_joint_instruments",
    "C68_expectations",
    "C68_demand_instruments"
   ],
   "note": ""
  },
  {
   "property": "C69",
   "status": "proved",
   "theorems": [
    "C69_within",
    "C69_fixed"
   ],
   "note": "Bounds of concentrated-out linear parameters are not validated by the code, so lb <= ub is assumed for them; draws are assumed not to be NaN."
  },
  {
   "property": "C70",
   "status": "partial",
   "theorems": [
    "C70_vectors",
    "C70_matrices",
    "C70_gamma_refuted",
    "C70_gamma_follows_beta"
   ],
   "note": "REFUTED for gamma: format_gamma looks up fixed elements of beta, so a fixed element of gamma gets a standard error and an estimated one can be blank (C70_gamma_refuted, C70_gamma_follows_beta). Proved for sigma, pi, rho, phi and beta."
  },
  {
   "property": "C71",
   "status": "partial",
   "theorems": [
    "C71_jacobian",
    "C71_theta_partial",
    "C71_refuted"
   ],
   "note": "REFUTED with covariance moments: results use Jacobians already converted by IV.estimate, so covariances of linear parameters are wrong (C71_refuted); theta blocks are right (C71_theta_partial). Without covariance moments the Jacobian is exact (C71_jacobian)."
  },
  {
   "property": "C72",
   "status": "partial",
   "theorems": [
    "C72_sensitivity",
    "C72_refuted"
   ],
   "note": "REFUTED for unadjusted standard errors after one step: sensitivity uses a weighting matrix that was not used for estimation. Proved in all other cases."
  },
  {
   "property": "C73",
   "status": "partial",
   "theorems": [
    "C73_differences",
    "C73_errors",
    "C73_fixed_effects",
    "C73_columns",
    "C73_recovers",
    "C73_gradient_partial",
    "C73_refuted"
   ],
   "note": "REFUTED for fixed effects on the other side: demand-side fixed effects are accepted together with supply-side moments in innovations, and Jacobians are then not absorbed, so that the gradient is wrong (C73_refuted). Without absorbed fixed effects the gradient is the derivative, under exact inverses near the point; covariance and micro moments are not combined with innovations."
  },
  {
   "property": "C74",
   "status": "proved",
   "theorems": [
    "C74_moments",
    "C74_structure",
    "C74_product_weights"
   ],
   "note": ""
  },
  {
   "property": "C75",
   "status": "proved",
   "theorems": [
    "C75_shares"
   ],
   "note": ""
  },
  {
   "property": "C76",
   "status": "proved",
   "theorems": [
    "C76_duplicates"
   ],
   "note": ""
  },
  {
   "property": "C77",
   "status": "partial",
   "theorems": [
    "C77_parts_partial",
    "C77_refuted_negative",
    "C77_refuted_groups"
   ],
   "note": "REFUTED for negative integration weights (truncated to zero) and for groups of eliminated products (first choice weighted by its group's share). Proved for nonnegative weights when only the first choice is eliminated."
  },
  {
   "property": "C78",
   "status": "partial",
   "theorems": [
    "C78_jacobian_partial",
    "C78_tangent",
    "C78_refuted"
   ],
   "note": "REFUTED with groups of eliminated products (weights truncated, tangents not) and with more than one chunk (see C46). Proved with one chunk and single-product elimination."
  },
  {
   "property": "C79",
   "status": "proved",
   "theorems": [
    "C79_covariance",
    "C79_documented_partial",
    "C79_symmetric",
    "C79_semidefinite"
   ],
   "note": "The documented weights are recovered under the conditions of C77; the rest holds for any weights with a nonzero denominator."
  },
  {
   "property": "C80",
   "status": "proved",
   "theorems": [
    "C80_delta_exists",
    "C80_outside_share_necessary"
   ],
   "note": "Existence for every epsilon_scale and nesting parameters in [0, 1); uniqueness is C05."
  },
  {
   "property": "C81",
   "status": "partial",
   "theorems": [
    "C81_iterates_converge",
    "C81_simple_routine_converges",
    "C81_simple_routine_accurate",
    "C81_small_epsilon_refuted"
   ],
   "note": "REFUTED for epsilon_scale < 1 (C81_small_epsilon_refuted): iterates may alternate between two values forever. Proved for epsilon_scale >= 1, with or without bounds on shares; acceleration (SQUAREM) is not covered."
  },
  {
   "property": "C82",
   "status": "partial",
   "theorems": [
    "C82_column_is_design",
    "C82_override_is_new_data",
    "C82_stored_names",
    "C82_shared_variable_refuted"
   ],
   "note": "REFUTED for terms in which a variable is both numerical and categorical; proved for all other terms."
  },
  {
   "property": "C83",
   "status": "proved",
   "theorems": [
    "C83_derivatives",
    "C83_expression_derivatives",
    "C83_cache_transparent"
   ],
   "note": ""
  },
  {
   "property": "C84",
   "status": "partial",
   "theorems": [
    "C84_marker_validation",
    "C84_single_variable_refuted"
   ],
   "note": "REFUTED as documented (C accepts more than a single variable); the exact condition that the code checks is proved."
  },
  {
   "property": "C85",
   "status": "proved",
   "theorems": [
    "C85_tokens",
    "C85_interpreted_names"
   ],
   "note": ""
  },
  {
   "property": "C86",
   "status": "proved",
   "theorems": [
    "C86_markups_nonsingular",
    "C86_substitutes",
    "C86_costs_unique"
   ],
   "note": ""
  },
  {
   "property": "C87",
   "status": "partial",
   "theorems": [
    "C87_xi_recovered",
    "C87_omega_recovered",
    "C87_constant_costs_refuted"
   ],
   "note": "REFUTED for costs that depend on shares and are held constant; recovery is proved otherwise, for prices that are exact fixed points and solves without reported errors."
  },
  {
   "property": "C88",
   "status": "proved",
   "theorems": [
    "C88_profit_gradients",
    "C88_profit_hessians",
    "C88_zero_gradients_iff_fixed"
   ],
   "note": ""
  },
  {
   "property": "C89",
   "status": "proved",
   "theorems": [
    "C89_squarem_trajectory",
    "C89_squarem_exact_on_uniform_rate"
   ],
   "note": ""
  },
  {
   "property": "C90",
   "status": "partial",
   "theorems": [
    "C90_accepted_shapes",
    "C90_selected_markets",
    "C90_round_trip",
    "C90_single_round_trip",
    "C90_diagonals",
    "C90_single_diagonal",
    "C90_diagonal_means",
    "C90_built_ownership",
    "C90_round_trip_refuted"
   ],
   "note": "REFUTED when every market has one product and rows are not sorted by market (C90_round_trip_refuted, a consequence of C19). Proved otherwise; shapes, single markets and ownership are proved without this guard."
  },
  {
   "property": "C91",
   "status": "partial",
   "theorems": [
    "C91_product_rows",
    "C91_market_rows",
    "C91_single_market",
    "C91_round_trip",
    "C91_product_rows_refuted"
   ],
   "note": "REFUTED when every market has one product and rows are not sorted by market (C91_product_rows_refuted, as in C19). Proved otherwise."
  },
  {
   "property": "C92",
   "status": "proved",
   "theorems": [
    "C92_taste_tangents",
    "C92_nesting_tangents"
   ],
   "note": "All choice sets that leave something to choose; the case without any product is excluded because probabilities are then not numbers"
  },
  {
   "property": "C93",
   "status": "partial",
   "theorems": [
    "C93_distribution",
    "C93_population",
    "C93_product_refuted"
   ],
   "note": "REFUTED as far as the documented product formula is concerned (C93_product_refuted: with nesting it is not what any population that explains the probabilities does). The code's own formula is right (C93_population) and gives a distribution (C93_distribution)"
  },
  {
   "property": "C94",
   "status": "proved",
   "theorems": [
    "C94_cells",
    "C94_taste_jacobian",
    "C94_nesting_jacobian"
   ],
   "note": "One chunk of agents (chunks are C46); no groups of eliminated products for the survey theorems (groups are C77, C78); C94_cells covers groups too"
  },
  {
   "property": "C95",
   "status": "proved",
   "theorems": [
    "C95_law",
    "C95_rejects",
    "C95_mean"
   ],
   "note": "Exact arithmetic; numpy's legacy RandomState.choice is modelled as a search in cumulative sums for a uniform draw; chunks are the subject of C46."
  },
  {
   "property": "C96",
   "status": "partial",
   "theorems": [
    "C96_same_seed_refuted",
    "C96_all_markets",
    "C96_any_order"
   ],
   "note": "REFUTED: markets of a dataset are kept in a Python set, whose order decides which draw selects which choice. Proved without market_ids, and the law does not depend on the order."
  },
  {
   "property": "C97",
   "status": "proved",
   "theorems": [
    "C97_accepts",
    "C97_evaluates",
    "C97_parts",
    "C97_moment",
    "C97_default"
   ],
   "note": "Instances are compared by identity; user functions of moments are arbitrary functions."
  },
  {
   "property": "C98",
   "status": "partial",
   "theorems": [
    "C98_negative_refuted",
    "C98_accepted",
    "C98_nonnegative",
    "C98_simulated",
    "C98_simulated_second"
   ],
   "note": "REFUTED: negative indices are accepted and count from the end. Proved for nonnegative indices and for simulated data, with the exact range of accepted indices."
  },
  {
   "property": "C99",
   "status": "proved",
   "theorems": [
    "C99_mean_zero",
    "C99_information",
    "C99_log_likelihood"
   ],
   "note": "Without integration in compute_agent_scores (one row per agent); all agents in one chunk; the scores of compute_micro_scores are C47."
  },
  {
   "property": "C100",
   "status": "partial",
   "theorems": [
    "C100_detects",
    "C100_distances",
    "C100_one_zero_refuted",
    "C100_culprit_refuted",
    "C100_single_row_refuted"
   ],
   "note": "REFUTED: setting one tolerance to zero disables the check, a named column need not be collinear, and with one row there may be no warning. C100_detects: with positive tolerances linearly dependent columns always lead to a warning (more rows than one); C100_distances: what unnamed and named columns mean."
  },
  {
   "property": "C101",
   "status": "proved",
   "theorems": [
    "C101_accepts",
    "C101_within",
    "C101_exact",
    "C101_infinite_tolerances",
    "C101_correlation"
   ],
   "note": "Exact arithmetic; the singular value decomposition is any one that satisfies its defining equations."
  },
  {
   "property": "C102",
   "status": "partial",
   "theorems": [
    "C102_exact",
    "C102_complete",
    "C102_sound",
    "C102_taken",
    "C102_markups",
    "C102_markups_refuted"
   ],
   "note": "REFUTED for NumPy 1, which does not restore callbacks: C102_taken and C102_markups_refuted. C102_exact and C102_complete: proved for NumPy 2, or if no error is raised after a nested call; C102_sound: always."
  },
  {
   "property": "C103",
   "status": "partial",
   "theorems": [
    "C103_stationary",
    "C103_explosive",
    "C103_none",
    "C103_unit_root_refuted"
   ],
   "note": "REFUTED for unit roots: C103_unit_root_refuted. C103_stationary: what has a stationary distribution is accepted; C103_explosive: a modulus above one plus the tolerance is rejected; C103_none: there is no stationary distribution on or outside of the unit circle."
  },
  {
   "property": "C104",
   "status": "proved",
   "theorems": [
    "C104_two_stage",
    "C104_separate",
    "C104_exactly_identified"
   ],
   "note": "Inverses are exact. Moments in levels."
  },
  {
   "property": "C105",
   "status": "partial",
   "theorems": [
    "C105_one_step",
    "C105_two_steps",
    "C105_initial_update",
    "C105_refuted"
   ],
   "note": "REFUTED for W_type with an initial update: C105_refuted. C105_one_step, C105_two_steps and C105_initial_update: everything else that is claimed, and W_type has no effect on one-step GMM without an initial update."
  },
  {
   "property": "C106",
   "status": "proved",
   "theorems": [
    "C106_curvature",
    "C106_second_order",
    "C106_zero"
   ],
   "note": "Exact arithmetic."
  },
  {
   "property": "C107",
   "status": "proved",
   "theorems": [
    "C107_two_stage",
    "C107_gmm",
    "C107_fixed_effects",
    "C107_groups",
    "C107_two_way",
    "C107_residuals",
    "C107_one_way",
    "C107_gradient",
    "C107_slope_unique",
    "C107_unabsorbed_instruments"
   ],
   "note": "PyHDFE is a matrix A with the defining properties of residuals (what it removes is spanned by indicators, what it leaves is orthogonal to them), which exists and is unique for all indicators; with one set of fixed effects these properties are equivalent to subtracting group averages. One side of the problem with moments in levels; supply is the same. C107_unabsorbed_instruments shows that the condition on instruments is needed when add_exogenous is False."
  },
  {
   "property": "C108",
   "status": "proved",
   "theorems": [
    "C108_accepted",
    "C108_demand",
    "C108_supply",
    "C108_nothing_added",
    "C108_exogenous"
   ],
   "note": "Columns are expressions; fixed effects are not absorbed in this model (C107 is about that). C108_accepted is an equivalence."
  },
  {
   "property": "C109",
   "status": "partial",
   "theorems": [
    "C109_demand",
    "C109_supply",
    "C109_number",
    "C109_supply_refuted"
   ],
   "note": "REFUTED for supply-side characteristics that involve shares: all of X3 is added to instruments, so such a characteristic is its own instrument (C109_supply_refuted), although the documentation says only exogenous ones are. Proved without such characteristics, for the demand side, and for the number of instruments without a supply side."
  },
  {
   "property": "C110",
   "status": "partial",
   "theorems": [
    "C110_demand",
    "C110_supply",
    "C110_exogenous",
    "C110_own_data",
    "C110_replaced_refuted"
   ],
   "note": "REFUTED after replace_exogenous: instruments are built from data before replacement (C110_replaced_refuted). Proved after replace_endogenous (C110_own_data), with an exact characterization of the columns (C110_demand, C110_supply). Order of columns, which is alphabetical, is left out."
  },
  {
   "property": "C111",
   "status": "partial",
   "theorems": [
    "C111_prices",
    "C111_prices_are_contraction",
    "C111_delta",
    "C111_clipped_refuted",
    "C111_exponentiated_delta",
    "C111_conditionals"
   ],
   "note": "REFUTED where a simulated share is clipped at shares_bounds: the Jacobian of the linear contraction still divides by the clipped share instead of becoming that of the identity (C111_clipped_refuted; the scale of epsilon is C62_contraction_jacobian_refuted). C111_prices proves the price Jacobian, with and without share-dependent costs and whether or not derivatives are reused; C111_delta the linear contraction for shares strictly inside their bounds; C111_exponentiated_delta the nonlinear one (not under safe_nonlinear with nesting, C07)."
  },
  {
   "property": "C112",
   "status": "partial",
   "theorems": [
    "C112_resampling",
    "C112_failures",
    "C112_pairs",
    "C112_unbiased",
    "C112_zero",
    "C112_covariance_matrix",
    "C112_micro",
    "C112_scale_refuted",
    "C112_scale"
   ],
   "note": "REFUTED as to units: simulation covariances are those of mean moments but are not multiplied by N (docs/background.rst 202-205 agrees with the code), so that standard errors contain them divided by N; C112_scale says what is added instead. Errors in resampled evaluations are not modelled."
  },
  {
   "property": "C113",
   "status": "partial",
   "theorems": [
    "C113_symmetric",
    "C113_central",
    "C113_accuracy",
    "C113_quadratic",
    "C113_jacobians",
    "C113_jacobian_accuracy",
    "C113_raised",
    "C113_errors",
    "C113_reported_refuted",
    "C113_objective",
    "C113_objective_refuted"
   ],
   "note": "REFUTED for the clause on errors (C113_reported_refuted, C113_objective_refuted): errors at perturbed parameters are dropped unless raised, so a Hessian can be wrong without any error; a reverted objective is changed again in place. Symmetry, central differences, error bounds, exactness for quadratic objectives and Jacobians are proved."
  },
  {
   "property": "C114",
   "status": "proved",
   "theorems": [
    "C114_gradient",
    "C114_objectives_agree",
    "C114_covariance_gradient",
    "C114_innovations_gradient",
    "C114_autocorrelation_gradient"
   ],
   "note": "Exact solvers and inverses are hypotheses, and so is that the evaluations near theta report no problem (matched shares, no replaced solutions). No clipped shares or costs, all products available to all agents and no eliminated product IDs in micro data (C94 treats those). rho strictly between zero and one. Innovations without micro moments and absorbed fixed effects (see C73)."
  },
  {
   "property": "C115",
   "status": "partial",
   "theorems": [
    "C115_probabilities",
    "C115_one_market",
    "C115_shares",
    "C115_diagonals_partial",
    "C115_diagonals_refuted"
   ],
   "note": "REFUTED (C115_diagonals_refuted): extract_diagonals rejects stacked probabilities, which the documentation lists as an argument, unless the largest number of agents equals the largest number of products (C115_diagonals_partial). Everything else is proved: elements and padding (C115_probabilities, C115_one_market), shares (C115_shares)."
  },
  {
   "property": "C116",
   "status": "proved",
   "theorems": [
    "C116_single_product",
    "C116_revenue_equation",
    "C116_profits",
    "C116_positive_margins",
    "C116_elasticity_bound",
    "C116_cooperation_lowers_costs",
    "C116_mergers_raise_prices"
   ],
   "note": "Exact linear solver (approximately_invert that reports no replacement) as in C12 and C86; price aversion of all agents is the hypothesis for the comparative statics."
  },
  {
   "property": "C117",
   "status": "proved",
   "theorems": [
    "C117_rule_of_thumb",
    "C117_success",
    "C117_unbiased",
    "C117_shares",
    "C117_quadrature_candidates"
   ],
   "note": "Types of agents are finitely many and cutoffs are drawn from any law under which a cutoff is below an acceptance probability with that probability; choices without replacement are any equally likely choices that treat accepted agents alike. C117_quadrature_candidates is a limitation: candidates' integration weights are ignored, also by default."
  },
  {
   "property": "C118",
   "status": "proved",
   "theorems": [
    "C118_safe_probabilities",
    "C118_nested_probabilities",
    "C118_unsafe_moderate",
    "C118_unsafe_can_fail"
   ],
   "note": "Rounding, overflow and underflow are modelled with an abstract arithmetic that is then shown to include IEEE double precision (Flocq, in RoundWitness). Signed zeros are not modelled, exponentials are assumed to be monotone, and products in dot products are rounded. C118_unsafe_can_fail shows that fp_type='linear' lacks the property."
  },
  {
   "property": "C119",
   "status": "partial",
   "theorems": [
    "C119_eliminated_product_refuted",
    "C119_eliminated_outside_refuted",
    "C119_several_parameters_refuted",
    "C119_highest_remains"
   ],
   "note": "REFUTED in double precision, in three ways (a removed product has the highest utility; the outside option is removed and all utilities are low; nesting parameters differ). C119_highest_remains proves it if none of the options that were removed has the highest utility."
  },
  {
   "property": "C120",
   "status": "proved",
   "theorems": [
    "C120_contraction_finite",
    "C120_nested_contraction_finite",
    "C120_simple_iteration",
    "C120_nested_simple_iteration",
    "C120_without_bound_can_fail"
   ],
   "note": "Same arithmetic as C118; nesting with a single parameter. C120_without_bound_can_fail shows why the bound is needed."
  },
  {
   "property": "C121",
   "status": "proved",
   "theorems": [
    "C121_probability_accuracy",
    "C121_market_share_accuracy"
   ],
   "note": "Same arithmetic as C118 with relative errors of rounding and of exponentials of at most eps; without nesting."
  },
  {
   "property": "C122",
   "status": "partial",
   "theorems": [
    "C122_structural_errors",
    "C122_prices_used",
    "C122_data",
    "C122_shares",
    "C122_demand_jacobian",
    "C122_equilibrium_costs",
    "C122_supply_jacobian",
    "C122_given_prices_refuted",
    "C122_draws",
    "C122_price_sources",
    "C122_refusals",
    "C122_averages"
   ],
   "note": "REFUTED for log costs and prices that are given or fitted: costs that were drawn are used in the derivative of log costs instead of those that prices imply, C122_given_prices_refuted. Proved for linear costs and any source of prices, and for both kinds of costs at equilibrium prices to which the routine converged."
  },
  {
   "property": "C123",
   "status": "partial",
   "theorems": [
    "C123_constant_costs_ignored",
    "C123_costs_adjust_refuted",
    "C123_without_shares"
   ],
   "note": "REFUTED: equilibrium prices are computed only if shares are not in X3, so constant_costs has no effect at all (C123_constant_costs_ignored) and drawn costs do not adjust (C123_costs_adjust_refuted). Without shares in X3 there is nothing to adjust to (C123_without_shares)."
  },
  {
   "property": "C124",
   "status": "proved",
   "theorems": [
    "C124_demand",
    "C124_supply",
    "C124_constant_costs_differ",
    "C124_prices",
    "C124_refusals"
   ],
   "note": "Equilibrium prices are assumed to be exact fixed points; C124_constant_costs_differ shows that with shares in X3 and the default constant_costs=True, omega implied by bootstrapped data at bootstrapped shares is not the estimated one."
  },
  {
   "property": "C125",
   "status": "partial",
   "theorems": [
    "C125_fitted_prices",
    "C125_fixed_effects",
    "C125_unabsorbed_refuted"
   ],
   "note": "REFUTED for add_exogenous=False and instruments into which fixed effects were not absorbed (nothing checks this); proved otherwise, whichever solution of the normal equations is used."
  },
  {
   "property": "C126",
   "status": "proved",
   "theorems": [
    "C126_shares_reproduced",
    "C126_mean_utilities_accurate"
   ],
   "note": "About C118's model of floating point arithmetic; the routines' own arithmetic (differences, norms, SQUAREM's extrapolation) is exact. Nesting and upper bounds on shares are not covered."
  },
  {
   "property": "C127",
   "status": "proved",
   "theorems": [
    "C127_geometric_rate_nested",
    "C127_nested_rate_below_one",
    "C127_geometric_rate_scaled",
    "C127_geometric_rate",
    "C127_rate_below_one",
    "C127_rounded_convergence"
   ],
   "note": "Without rounding: with or without nesting, epsilon_scale at least one (for smaller ones see C06 and C81). With rounding errors: without nesting and with epsilon_scale = 1, simple iteration, the routine's own differences and norm exact; SQUAREM is not covered."
  },
  {
   "property": "C128",
   "status": "proved",
   "theorems": [
    "C128_one_equilibrium",
    "C128_iterates_converge",
    "C128_iterates_rise",
    "C128_simple_routine_converges",
    "C128_simple_routine_accurate"
   ],
   "note": "Costs do not depend on shares (constant_costs or no shares in X3). Columns of X1 that use prices are linear in them with slopes that do not vary across products; no random coefficients, no nesting. Exact arithmetic; non-finite values cannot occur. The routine is 'simple', the default."
  },
  {
   "property": "C129",
   "status": "proved",
   "theorems": [
    "C129_prices_rise",
    "C129_consumers_lose_rivals_gain",
    "C129_merger_simulation"
   ],
   "note": "As C128. Strict increases are proved for products whose firm acquired products of other firms. Profits of merging firms are not covered."
  },
  {
   "property": "C130",
   "status": "proved",
   "theorems": [
    "C130_probabilities",
    "C130_mean_utility_steps",
    "C130_mean_utilities",
    "C130_mean_utilities_squarem",
    "C130_default_norm",
    "C130_outputs",
    "C130_long_run_diversion",
    "C130_consumer_surplus",
    "C130_consumer_surplus_needs_common_derivatives",
    "C130_costs",
    "C130_equilibrium_prices",
    "C130_objective",
    "C130_cross_products"
   ],
   "note": "Linear utilities, as with the default rc_types; the objective is without micro moments and with markups that are determined. Norms other than the default one are covered if they do not depend on the order. A theorem shows that consumer surplus needs marginal utilities of income that are the same for all products."
  },
  {
   "property": "C131",
   "status": "proved",
   "theorems": [
    "C131_mean_utilities",
    "C131_outputs",
    "C131_representations",
    "C131_equivalence"
   ],
   "note": "Agents differ in random coefficients; agent-specific availability is the same for all of them."
  },
  {
   "property": "C132",
   "status": "proved",
   "theorems": [
    "C132_shares_elasticities",
    "C132_costs",
    "C132_markups_profits",
    "C132_consumer_surplus",
    "C132_equilibrium_prices",
    "C132_linear_prices",
    "C132_characteristics"
   ],
   "note": "Equilibrium prices need diagonal elements of Lambda that are not zero: zeros would be replaced by a constant that is not in units of the currency."
  },
  {
   "property": "C133",
   "status": "proved",
   "theorems": [
    "C133_parameters",
    "C133_residuals",
    "C133_initial_weights",
    "C133_updated_weights",
    "C133_objective",
    "C133_parameter_covariances",
    "C133_significance"
   ],
   "note": "Inverses are exact; R and Z are those after absorption of fixed effects. Diagonal combinations are changes of units."
  },
  {
   "property": "C134",
   "status": "proved",
   "theorems": [
    "C134_optimal_weights",
    "C134_additional_moments",
    "C134_optimal_instruments",
    "C134_exactly_identified"
   ],
   "note": "Covariances are the exact matrices that the functions compute given exact inverses (oracles, as in C29 and C30). Optimal instruments: expected Jacobians and covariances given instruments are sums over observations; that compute_optimal_instruments returns this formula is C68."
  },
  {
   "property": "C135",
   "status": "partial",
   "theorems": [
    "C135_tests_agree",
    "C135_fixed_parameters",
    "C135_lm_of_restricted_results_refuted"
   ],
   "note": "REFUTED for run_lm_test on results with fixed parameters (C135_lm_of_restricted_results_refuted): the statistic is identically zero there (C135_fixed_parameters). Proved: the distance and Wald statistics agree, and the LM statistic agrees with both when moments at restricted parameters are combined with Jacobians with respect to all parameters (parameters kept in theta and evaluated at restricted values)."
  },
  {
   "property": "C136",
   "status": "partial",
   "theorems": [
    "C136_standard",
    "C136_infinite",
    "C136_product_specific",
    "C136_product_specific_built",
    "C136_errors",
    "C136_utilities",
    "C136_other_indices",
    "C136_same_for_all",
    "C136_missing_values",
    "C136_missing_values_refuted"
   ],
   "note": "REFUTED for missing values of standard demographics (C136_missing_values_refuted; C136_missing_values says what happens for all data). Proved: standard and product-specific matrices, errors, infinite values, and which demographics matter for utilities."
  },
  {
   "property": "C137",
   "status": "proved",
   "theorems": [
    "C137_product_variables",
    "C137_sets",
    "C137_errors",
    "C137_shares",
    "C137_agent_variables"
   ],
   "note": "The generator is an oracle: a stream of uniform numbers and a position. Names are any type with a decidable equality and a total order. How multivariate normal draws for xi and omega use the stream after these is not modelled (what is done with them is in SimModel)."
  },
  {
   "property": "C138",
   "status": "proved",
   "theorems": [
    "C138_consumers",
    "C138_rivals",
    "C138_own_firm",
    "C138_everyone",
    "C138_profits"
   ],
   "note": "Proved for plain logit demand (no random coefficients or nests), the zeta-markup model of prices, and Bertrand equilibria as in C128; consumer surplus with epsilon_scale = 1"
  },
  {
   "property": "C139",
   "status": "proved",
   "theorems": [
    "C139_costs_below_prices",
    "C139_cooperation_lowers_costs",
    "C139_inverse_elasticities",
    "C139_inelastic",
    "C139_approximate_prices_rise"
   ],
   "note": "Proved with random coefficients and nesting (0 <= rho < 1); solvers are exact unless they report an error"
  },
  {
   "property": "C140",
   "status": "proved",
   "theorems": [
    "C140_one_price",
    "C140_many_prices",
    "C140_surplus_bounds",
    "C140_law_of_demand",
    "C140_surplus_falls"
   ],
   "note": "Exact arithmetic. The bounds assume that agents' weights are not negative, that prices enter utilities linearly with each agent's coefficient negative, and that epsilon_scale is one."
  },
  {
   "property": "C141",
   "status": "partial",
   "theorems": [
    "C141_simple_accepted",
    "C141_squarem_accepted",
    "C141_simple_used",
    "C141_squarem_used",
    "C141_unknown_iteration_options",
    "C141_nan_tolerances",
    "C141_jacobians",
    "C141_return_options",
    "C141_scipy_iteration",
    "C141_dictionaries",
    "C141_custom_methods",
    "C141_integration_accepted",
    "C141_integration_used",
    "C141_integration_options",
    "C141_integration_sizes",
    "C141_misspelled_refuted",
    "C141_optimization_accepted",
    "C141_optimization_used",
    "C141_knitro_used",
    "C141_keep_feasible_refuted"
   ],
   "note": "REFUTED: Integration accepts and ignores options that do not exist or that the specification does not use (C141_misspelled_refuted), and keep_feasible is documented to be True by default but nothing is passed (C141_keep_feasible_refuted). All else holds: which options are accepted and used by simple, squarem, return and optimization routines. Options of simple and squarem that do not exist are accepted but every solve is an error (C141_unknown_iteration_options); NaN tolerances are accepted and never met (C141_nan_tolerances)."
  },
  {
   "property": "C142",
   "status": "proved",
   "theorems": [
    "C142_formulas",
    "C142_ids",
    "C142_categorical",
    "C142_lengths",
    "C142_nested",
    "C142_collinear"
   ],
   "note": "Patsy's parsing into terms and factors is external. What is absorbed is a matrix with the defining properties of residuals on indicators, as in C107. Columns with a single row are broadcast (C142_lengths)."
  },
  {
   "property": "C143",
   "status": "proved",
   "theorems": [
    "C143_market_effects",
    "C143_monotone",
    "C143_smaller_market",
    "C143_logit_size",
    "C143_heterogeneity"
   ],
   "note": "C143_logit_size is about the closed form and C143_market_effects about any numbers that are added market by market, over any ordered field."
  },
  {
   "property": "C144",
   "status": "partial",
   "theorems": [
    "C144_profits",
    "C144_prices_maximize_profits",
    "C144_nash_is_stationary",
    "C144_one_nash_equilibrium",
    "C144_mergers_pay",
    "C144_heterogeneity_refuted"
   ],
   "note": "REFUTED for random coefficients: with two types of consumers, one of which is ten times as price sensitive, the price of a monopolist solves the first order condition (so it is a fixed point of the price iteration) and is better than nearby prices, but a much higher price for the other type earns more. Proved for plain logit markets (strictly best, unique, reached by iterating; mergers pay), and that Nash equilibria are stationary whatever demand."
  },
  {
   "property": "C145",
   "status": "partial",
   "theorems": [
    "C145_weights_accepted",
    "C145_values_accepted",
    "C145_shapes",
    "C145_numbers_refuted",
    "C145_units",
    "C145_linear",
    "C145_range",
    "C145_constant",
    "C145_populations",
    "C145_population_jacobians",
    "C145_other_markets"
   ],
   "note": "REFUTED in one respect: weights that are NaN or infinite pass the check for negative weights. Everything else is proved; Jacobians do not depend on representations of the population if micro computations are not done in chunks (compare C46) and no agent is left out."
  },
  {
   "property": "C146",
   "status": "proved",
   "theorems": [
    "C146_probabilities",
    "C146_shares",
    "C146_mean_utilities",
    "C146_identical_products",
    "C146_welfare",
    "C146_derivatives",
    "C146_prices"
   ],
   "note": "Holds for all demand models with or without nesting. Consumer surplus needs epsilon_scale = 1 (with another epsilon_scale its logsum is not divided by it, see C17) and the same price derivative of utility for the first product; the price contraction needs nonzero own derivatives, since the code replaces the reciprocal of zero by a constant. Copies are taken to have equal prices; clipping of shares is off."
  },
  {
   "property": "C147",
   "status": "partial",
   "theorems": [
    "C147_clusters",
    "C147_ownership",
    "C147_blp_instruments",
    "C147_differentiation_instruments",
    "C147_groups",
    "C147_probabilities_partial",
    "C147_one_market",
    "C147_probabilities_refuted"
   ],
   "note": "REFUTED for product data with one product in each market: rows of stacked results are then in the order of sorted market IDs (C147_probabilities_refuted, see C19), so that names matter. Otherwise (and always market by market) proved: ownership, instruments, groups, clusters, probabilities and shares."
  },
  {
   "property": "C148",
   "status": "proved",
   "theorems": [
    "C148_nests_probabilities",
    "C148_nests_delta",
    "C148_nests_outputs",
    "C148_nests_matter",
    "C148_zero_tastes",
    "C148_closed_form",
    "C148_scale"
   ],
   "note": "outputs are equal as real numbers; with nests that do not bind the safe formulas differ in rounding only. The closed form is compared for agents with zero mu"
  },
  {
   "property": "C149",
   "status": "proved",
   "theorems": [
    "C149_mean_utilities",
    "C149_outputs",
    "C149_rules",
    "C149_draws"
   ],
   "note": "symmetry is that of the distribution of nodes given demographics; tables of univariate rules are any with sound_tables (nonnegative nodes, a zero first if any), as for C41"
  },
  {
   "property": "C150",
   "status": "proved",
   "theorems": [
    "C150_estimates",
    "C150_mean_utilities",
    "C150_counterfactuals",
    "C150_lognormal"
   ],
   "note": "in exact arithmetic; relative tolerances, which refer to levels of mean utilities, are excluded (rtol is zero by default)"
  },
  {
   "property": "C151",
   "status": "proved",
   "theorems": [
    "C151_estimates",
    "C151_initial_weights",
    "C151_moment_covariances",
    "C151_objective",
    "C151_moment_jacobians",
    "C151_standard_errors"
   ],
   "note": "Copies are given by a bijection between new rows and pairs of an original row and a copy number, so new rows may be in any order. Matrices over any real field; inverses are hypotheses, as in C29. Mean utilities and costs are inputs here."
  },
  {
   "property": "C152",
   "status": "proved",
   "theorems": [
    "C152_rectangle",
    "C152_read",
    "C152_header",
    "C152_gap",
    "C152_progress",
    "C152_error"
   ],
   "note": "Strings are lists of characters. That labels above an empty line of a header are left out (C152_gap) is the code's loop, which stops at the first line without labels; no header in the code has such a line."
  },
  {
   "property": "C153",
   "status": "proved",
   "theorems": [
    "C153_numbers",
    "C153_order",
    "C153_widths",
    "C153_special",
    "C153_standard_errors",
    "C153_durations",
    "C153_progress"
   ],
   "note": "Numbers are reals, infinities or NaN, so minus zero is displayed as zero; that Python rounds correctly to decimal digits, with ties going to even ones, is modelled by Flocq's rounding in radix ten."
  },
  {
   "property": "C154",
   "status": "proved",
   "theorems": [
    "C154_values",
    "C154_errors",
    "C154_vectors",
    "C154_phi",
    "C154_estimates",
    "C154_theta",
    "C154_readable",
    "C154_read"
   ],
   "note": "Labels are any strings that are not empty and are on one line. Whether standard errors in tables of rho, beta and gamma are blank is C70."
  },
  {
   "property": "C155",
   "status": "partial",
   "theorems": [
    "C155_order",
    "C155_distinct",
    "C155_distinct_refuted",
    "C155_all_groups_refuted"
   ],
   "note": "REFUTED: C155_distinct_refuted: coefficients on the same variable in beta and gamma have the same label; C155_all_groups_refuted: the label of a rho for all groups is that of the first group. Proved: labels are in the order of theta, and labels of different elements of the same kind are different if labels of variables are distinct and have no spaces."
  },
  {
   "property": "C156",
   "status": "partial",
   "theorems": [
    "C156_improvements",
    "C156_total",
    "C156_reverted_refuted",
    "C156_cells",
    "C156_rows",
    "C156_errors"
   ],
   "note": "REFUTED as stated: with error_behavior='revert' and an error_punishment other than one, an objective that could not be computed is replaced by multiplying in place the array that the display keeps as the smallest objective, so that an improvement can be displayed for an objective that is greater than an earlier one. Proved: without reverted objectives, improvements are displayed exactly for objectives less than all before them, by how much they are, and add up to the difference between the first and the smallest; what cells under each label are; that rows with and without labels can be read with the same dashes; and which errors are displayed."
  },
  {
   "property": "C157",
   "status": "proved",
   "theorems": [
    "C157_derivatives",
    "C157_symmetric",
    "C157_outside",
    "C157_elasticities",
    "C157_plain_elasticities",
    "C157_diversion",
    "C157_long_run",
    "C157_markups",
    "C157_plain_markups",
    "C157_equilibrium",
    "C157_surplus"
   ],
   "note": "For models without random coefficients in which utility is linear in prices with a common coefficient (other variables enter delta as given). Nesting parameters may be negative. Long-run diversion in plain logit only; consumer surplus without availability and elimination, for epsilon_scale of one. Markups use an exact linear solver and ownership by firm IDs."
  },
  {
   "property": "C158",
   "status": "partial",
   "theorems": [
    "C158_refused",
    "C158_rows",
    "C158_errors",
    "C158_converged",
    "C158_keep_prices",
    "C158_perfect_competition",
    "C158_perfect_competition_refuted",
    "C158_costs",
    "C158_norms",
    "C158_exogenous"
   ],
   "note": "REFUTED in one part: with constant_costs=False and costs that depend on shares, Iteration('return') without prices gives prices that equal costs at the shares of the data and not at the simulated shares, so that returned prices differ from returned costs, contrary to the documented perfect competition (C158_perfect_competition_refuted). With constant costs or costs that do not use shares it holds (C158_perfect_competition); all other parts are proved."
  },
  {
   "property": "C159",
   "status": "proved",
   "theorems": [
    "C159_markups",
    "C159_exactly_one",
    "C159_fixed_point",
    "C159_costs",
    "C159_mergers",
    "C159_savings",
    "C159_consumers"
   ],
   "note": "For any costs. Existence by the least upper bound of markups that no firm wants to lower, uniqueness and comparisons at the product whose price falls most."
  },
  {
   "property": "C160",
   "status": "partial",
   "theorems": [
    "C160_given",
    "C160_values",
    "C160_owners",
    "C160_shares",
    "C160_approximate",
    "C160_prices",
    "C160_delta",
    "C160_prices_refuted",
    "C160_owners_refuted",
    "C160_hhi",
    "C160_hhi_refuted"
   ],
   "note": "REFUTED in three ways: with ownership matrices that are not symmetric, the first evaluation moves prices away from observed ones although costs are those that observed prices imply (C160_prices_refuted); with both firm IDs and ownership matrices in the data, passing the unchanged firm IDs discards the matrices (C160_owners_refuted); with ownership matrices but without firm IDs, compute_hhi returns zero (C160_hhi_refuted). The rest is proved: omitted arguments are data, observed prices are returned by approximate and equilibrium prices under symmetric ownership with a unit diagonal, by each modelled routine, whether or not costs are constant; observed mean utilities are returned by compute_delta."
  },
  {
   "property": "C161",
   "status": "proved",
   "theorems": [
    "C161_monomials",
    "C161_polynomials",
    "C161_odd",
    "C161_tastes",
    "C161_errors",
    "C161_package",
    "C161_level_one"
   ],
   "note": "Exact arithmetic. C161_monomials and C161_polynomials assume exact rules; C161_errors and C161_package carry the accuracy of the tables of the package (C74) over to grids. C161_level_one: level one has a single node at zero, so that sigma has no effect."
  },
  {
   "property": "C162",
   "status": "partial",
   "theorems": [
    "C162_probabilities",
    "C162_shares",
    "C162_large_scales",
    "C162_normalisation",
    "C162_mean_utilities",
    "C162_surplus",
    "C162_surplus_limit_refuted",
    "C162_surplus_normalisation_refuted"
   ],
   "note": "REFUTED for consumer surplus: it is proportional to epsilon_scale, so it tends to zero rather than to the surplus of the pure characteristics model (C162_surplus_limit_refuted), and depends on how preferences are normalised (C162_surplus_normalisation_refuted). Limits and error bounds of probabilities and shares, large scales, and invariance of everything else are proved; limits are for markets without nests."
  },
  {
   "property": "C163",
   "status": "partial",
   "theorems": [
    "C163_accepted",
    "C163_same_array_refuted",
    "C163_arguments",
    "C163_arguments_refuted",
    "C163_costs",
    "C163_log_costs",
    "C163_nonpositive_costs",
    "C163_jacobian",
    "C163_gamma",
    "C163_gamma_refuted",
    "C163_fixed_points",
    "C163_shares_below_bounds",
    "C163_shares_above_bounds"
   ],
   "note": "REFUTED in three respects: arrays with NaN given as bounds are overwritten (C163_arguments_refuted), one NaN array given for both bounds becomes (-inf, -inf) (C163_same_array_refuted), and derivatives of omega with respect to parameters in gamma are reported as zero when costs are clipped (C163_gamma_refuted). Everything else is proved, including that bounds excluding an observed share make convergence impossible."
  },
  {
   "property": "C164",
   "status": "proved",
   "theorems": [
    "C164_law_of_demand",
    "C164_strict",
    "C164_prices_from_shares",
    "C164_mean_utilities",
    "C164_jacobian",
    "C164_diversion",
    "C164_surplus",
    "C164_variation",
    "C164_same_rates_needed"
   ],
   "note": "Proved from tangents of the log-sum, without derivatives. Extends C140 to restricted choice sets, any scale and nesting parameters below one, and makes its inequality strict. C164_same_rates_needed gives a market where price effects differ across products and conclusions about prices fail."
  },
  {
   "property": "C165",
   "status": "partial",
   "theorems": [
    "C165_finite",
    "C165_all_remain",
    "C165_accurate",
    "C165_nested_finite",
    "C165_market_finite",
    "C165_eliminated_refuted",
    "C165_several_parameters_refuted"
   ],
   "note": "REFUTED for choice sets without the product with the highest utility and for several nesting parameters: in double precision, eliminating (or not having available) a product with a utility of 2000 next to one with a utility of zero gives a surplus of minus infinity instead of ln 2, and nesting parameters 127/128 and 0 give minus infinity for utilities 12 and 0 instead of more than 12 (C165_eliminated_refuted, C165_several_parameters_refuted). Proved: surpluses are finite, not negative and at least every rounded utility if the outside option or a remaining product has the highest utility (always so if nothing is removed); accuracy 5 eps (V + 4 J + 6) without nesting; finite and not negative with one nesting parameter; integration over agents keeps this."
  },
  {
   "property": "C166",
   "status": "partial",
   "theorems": [
    "C166_probabilities",
    "C166_surplus",
    "C166_exact",
    "C166_underflow_refuted"
   ],
   "note": "REFUTED as stated: the last sentence is false. With utilities of 1 and 0 of two products in groups of their own and rho = 1 - 1/2048, the second group's inclusive sum underflows in double precision and its probability is computed as 0 although it is at least 1/5 (C166_underflow_refuted). The rest is proved: C166_probabilities and C166_surplus give the bound for all markets with one nesting parameter and utilities of at most U (1 - rho), where what underflows is small relative to exp(-(2 U + J + 5)); C166_exact shows that exact probabilities are probabilities."
  },
  {
   "property": "C167",
   "status": "partial",
   "theorems": [
    "C167_lengths",
    "C167_simulation",
    "C167_norm",
    "C167_eigenvalues",
    "C167_norm_refuted",
    "C167_eigenvalues_refuted",
    "C167_summary",
    "C167_hessian",
    "C167_condition",
    "C167_cumulative",
    "C167_bootstrap"
   ],
   "note": "REFUTED as stated: firms whose profit gradient contains a NaN or infinite element, and firms whose Hessian's eigenvalues could not be computed, are silently left out of the displayed extremes, so a small norm and negative eigenvalues can be displayed although conditions were not verified (C167_norm_refuted, C167_eigenvalues_refuted). Proved: cells and labels (C167_lengths, C167_simulation, C167_summary, C167_cumulative, C167_bootstrap), and that displayed norms and eigenvalues are tight bounds if everything is finite, or each firm's eigenvalues all are or none are (C167_norm, C167_eigenvalues, C167_hessian), and when condition numbers are NaN (C167_condition)."
  },
  {
   "property": "C168",
   "status": "proved",
   "theorems": [
    "C168_merging_firms",
    "C168_other_firms",
    "C168_costs",
    "C168_tax"
   ],
   "note": "Proved for firms that merge (C168_merging_firms), other firms (C168_other_firms, for any number of mergers), cost changes (C168_costs) and taxes (C168_tax)."
  },
  {
   "property": "C169",
   "status": "proved",
   "theorems": [
    "C169_exact",
    "C169_surplus",
    "C169_changes",
    "C169_value",
    "C169_nests",
    "C169_heterogeneity"
   ],
   "note": "Surplus, changes, value of products, exact value and strict bound with partly eliminated nests, and Jensen's inequality for aggregate surplus. Hypotheses: utility has no income effects and the scale of preferences is one (C17 shows what happens otherwise); weights sum to one only for C169_heterogeneity."
  },
  {
   "property": "C170",
   "status": "partial",
   "theorems": [
    "C170_index",
    "C170_refused",
    "C170_eliminated",
    "C170_order",
    "C170_more",
    "C170_unknown_refuted",
    "C170_text_refuted",
    "C170_boolean_refuted",
    "C170_names",
    "C170_size",
    "C170_size_refuted",
    "C170_singular",
    "C170_draws"
   ],
   "note": "REFUTED in part: IDs that no product has are ignored silently (C170_unknown_refuted); a string eliminates all products whose IDs are parts of it, with a warning, and fails with numeric IDs (C170_text_refuted); True is accepted as an index (C170_boolean_refuted); extract_size of a mapping whose first field is a number is the number of fields (C170_size_refuted). The rest is proved."
  },
  {
   "property": "C171",
   "status": "proved",
   "theorems": [
    "C171_order",
    "C171_equal",
    "C171_scale",
    "C171_variance",
    "C171_squared",
    "C171_skewness",
    "C171_displayed",
    "C171_range"
   ],
   "note": "C51 bounds each number by one and the number of draws and C117 is about unbiasedness; here numbers are ordered, characterized and given a meaning, and the displayed summary is modelled before its cells are formatted (C152, C153)."
  },
  {
   "property": "C172",
   "status": "proved",
   "theorems": [
    "C172_dimensions",
    "C172_formulations",
    "C172_micro"
   ],
   "note": "Cells and labels before they are put into lines of text, which C152 is about; numbers of digits of values are C153's. Observed values are finite."
  },
  {
   "property": "C173",
   "status": "proved",
   "theorems": [
    "C173_rows",
    "C173_norm",
    "C173_total"
   ],
   "note": "Cells and labels before they are put into lines of text (C152). What is displayed for the nonlinear types reflects that C07 refutes that they are used."
  }
 ]
}