{
 "claims": [
  {
   "property": "C01",
   "status": "proved",
   "theorems": [
    "C01_inverse_of_link",
    "C01_link_of_inverse"
   ],
   "note": "Full statement for all five link classes (cloglog/logit: un-clipped band)."
  },
  {
   "property": "C02",
   "status": "proved",
   "theorems": [
    "C02_link_derivative",
    "C02_inverse_derivative",
    "C02_inverse_derivative2",
    "C02_inverse_derivative_reciprocal"
   ],
   "note": "All links; derivative in the sense of Coquelicot is_derive."
  },
  {
   "property": "C03",
   "status": "proved",
   "theorems": [
    "C03_monotone",
    "C03_range",
    "C03_warning"
   ],
   "note": "Monotonicity, range and the warning condition, for every finite eta."
  },
  {
   "property": "C04",
   "status": "proved",
   "theorems": [
    "C04_unit_deviance_nonneg",
    "C04_binomial_positive",
    "C04_binomial_minimal_at_y"
   ],
   "note": "All families; Binomial split into 0/1 responses and fractional responses (F2: unit deviance is not 0 at y=mu for fractional y)."
  },
  {
   "property": "C05",
   "status": "proved",
   "theorems": [
    "C05_unit_deviance_derivative"
   ],
   "note": ""
  },
  {
   "property": "C06",
   "status": "proved",
   "theorems": [
    "C06_unit_variance_derivative",
    "C06_variance_positive"
   ],
   "note": ""
  },
  {
   "property": "C07",
   "status": "proved",
   "theorems": [
    "C07_named_is_tweedie"
   ],
   "note": ""
  },
  {
   "property": "C08",
   "status": "partial",
   "theorems": [
    "C08_deviance_is_weighted_sum_partial",
    "C08_deviance_is_weighted_sum_refuted",
    "C08_deviance_gap",
    "C08_deviance_nonneg"
   ],
   "note": "The full claim is false of the code: tweedie_deviance kernel for p<0 drops the y<=0 cross term (C08_deviance_is_weighted_sum_refuted). Proved for every other family/power and for p<0 with non-negative y; C08_deviance_gap gives the exact shortfall for p<0 and says that the claim holds iff all rows below zero have weight zero."
  },
  {
   "property": "C09",
   "status": "proved",
   "theorems": [
    "C09_loglik_gap"
   ],
   "note": "NegativeBinomial requires y>0 (at y=0 the code evaluates 0*log 0 = nan)."
  },
  {
   "property": "C10",
   "status": "proved",
   "theorems": [
    "C10_gradient_rows_exact"
   ],
   "note": ""
  },
  {
   "property": "C11",
   "status": "proved",
   "theorems": [
    "C11_hessian_rows_exact",
    "C11_hessian_rows_fisher",
    "C11_hessian_rows_nonneg"
   ],
   "note": ""
  },
  {
   "property": "C12",
   "status": "proved",
   "theorems": [
    "C12_line_search_objective",
    "C12_exact_for_normal_and_invgauss"
   ],
   "note": ""
  },
  {
   "property": "C13",
   "status": "proved",
   "theorems": [
    "C13_observed_information",
    "C13_fisher_is_observed_at_mean",
    "C13_fisher_is_observed_canonical"
   ],
   "note": ""
  },
  {
   "property": "C14",
   "status": "proved",
   "theorems": [
    "C14_pearson_formula",
    "C14_nonneg",
    "C14_frequency_weights"
   ],
   "note": ""
  },
  {
   "property": "C15",
   "status": "proved",
   "theorems": [
    "C15_zero_weight_rows_inert",
    "C15_deviance",
    "C15_fit_unchanged",
    "C15_no_variation_check_refuted"
   ],
   "note": "Objective, gradient, Hessian, column statistics and deviance unconditionally; the whole fit when the two checks that look at all rows (no variation in y, overflow guard) do not fire (finding F17, refutation proved)."
  },
  {
   "property": "C16",
   "status": "proved",
   "theorems": [
    "C16_integer_weights_are_repetition",
    "C16_deviance_and_dispersion",
    "C16_fit_unchanged"
   ],
   "note": "Objective, gradient, Hessian, dispersion; and equality of the whole fit (hessian_approx = 0) for positive integer weights."
  },
  {
   "property": "C17",
   "status": "proved",
   "theorems": [
    "C17_weight_scale_irrelevant",
    "C17_fit_unchanged",
    "C17_normalised_weights"
   ],
   "note": "Also equality of the whole fit for any hessian_approx."
  },
  {
   "property": "C18",
   "status": "proved",
   "theorems": [
    "C18_guess_intercept_optimal_offset",
    "C18_guess_intercept_optimal_no_offset"
   ],
   "note": "Covers exactly the combinations the English statement lists; Binomial/logit with an offset is documented by glum as approximate."
  },
  {
   "property": "C19",
   "status": "partial",
   "theorems": [
    "C19_score_at_most_one",
    "C19_score_one_iff_perfect",
    "C19_constant_prediction_partial",
    "C19_constant_prediction_refuted",
    "C19_negative_power"
   ],
   "note": "The constant-prediction part is refuted for Tweedie p<0 with negative y (consequence of F1); proved for all other cases. C19_negative_power is the exact statement for p<0: the best constant prediction is the weighted mean of max(y,0), so the claim holds there if and only if no positively weighted y is negative."
  },
  {
   "property": "C20",
   "status": "proved",
   "theorems": [
    "C20_bounds_kept"
   ],
   "note": "For any matrix, penalties, order (cyclic/random, any seed), sweeps."
  },
  {
   "property": "C21",
   "status": "proved",
   "theorems": [
    "C21_visit_is_exact_minimiser",
    "C21_call_descends"
   ],
   "note": "Per-visit exact minimisation with quadratic margin, plus whole-call descent and gradient invariant."
  },
  {
   "property": "C22",
   "status": "proved",
   "theorems": [
    "C22_norm_zero_iff_kkt",
    "C22_suboptimality",
    "C22_inner_solver_converged"
   ],
   "note": "KKT equivalence, suboptimality bound norm*D (sup-distance D), and the inner solver stopping rule. The convex-differentiable part enters as the supporting-hyperplane condition, proved for glum objectives in C53."
  },
  {
   "property": "C23",
   "status": "proved",
   "theorems": [
    "C23_rand_int_valid",
    "C23_state_map_injective"
   ],
   "note": "Bit-exact; also injectivity of the state map."
  },
  {
   "property": "C24",
   "status": "proved",
   "theorems": [
    "C24_hessian_exact",
    "C24_hessian_exact_monotonic"
   ],
   "note": "For every reachable loop state, any inner solver; also for the monotonic solver whose P2 changes during the run."
  },
  {
   "property": "C25",
   "status": "proved",
   "theorems": [
    "C25_row_error_bounded"
   ],
   "note": "The bound is relative to the largest difference between a true row weight and the one used in the previous iteration (what the code compares)."
  },
  {
   "property": "C26",
   "status": "proved",
   "theorems": [
    "C26_active_set",
    "C26_dropped_stay_zero"
   ],
   "note": ""
  },
  {
   "property": "C27",
   "status": "proved",
   "theorems": [
    "C27_iteration_accounting",
    "C27_cd_always_returns"
   ],
   "note": "Over every inner solver (oracle); irls-cd never raises."
  },
  {
   "property": "C28",
   "status": "proved",
   "theorems": [
    "C28_least_squares_descends",
    "C28_trial_gradient",
    "C28_line_search",
    "C28_objective_descends"
   ],
   "note": "The tiny-loss threshold is eps*|obj| with the eps of the code; when it warns the step of size 2^-19 is nevertheless taken (finding F15). Descent for irls-cd and irls-ls under positive semi-definite P2."
  },
  {
   "property": "C29",
   "status": "proved",
   "theorems": [
    "C29_iterates_in_box",
    "C29_result_in_box"
   ],
   "note": "In the scale in which the solver works."
  },
  {
   "property": "C30",
   "status": "proved",
   "theorems": [
    "C30_closed_form_optimal",
    "C30_closed_form_unique",
    "C30_ridge_is_training_objective"
   ],
   "note": "scipy solve/lstsq enter as contracts (solve: solution of a symmetric system or LinAlgError; lstsq: minimal residual)."
  },
  {
   "property": "C31",
   "status": "proved",
   "theorems": [
    "C31_silent_success_feasible",
    "C31_penalty_weight",
    "C31_penalty_matrix",
    "C31_near_optimal"
   ],
   "note": "Also near-optimality of a silent run among feasible coefficients; penalty weight between lam_start and lam_max."
  },
  {
   "property": "C32",
   "status": "proved",
   "theorems": [
    "C32_rows_mean_monotone",
    "C32_rows_with_slack",
    "C32_accepts",
    "C32_column_names_roundtrip",
    "C32_factor_syntax",
    "C32_variables_to_factors",
    "C32_conflict_refuted",
    "C32_monotonic_fit"
   ],
   "note": "Constraint rows for every formula term, accepted/rejected cases, factor names and their parsing, and the fitted effect. Two variables of one factor with conflicting directions are refuted (finding F18)."
  },
  {
   "property": "C33",
   "status": "proved",
   "theorems": [
    "C33_predictions_unchanged",
    "C33_threshold",
    "C33_fit_linear_predictor",
    "C33_columns_standardized"
   ],
   "note": "tabmat standardize enters by its documented contract (weighted means and standard deviations)."
  },
  {
   "property": "C34",
   "status": "proved",
   "theorems": [
    "C34_penalty_preserved",
    "C34_objective_preserved"
   ],
   "note": "Also scale_predictors=True, where the penalty acts on coefficient times column scale."
  },
  {
   "property": "C35",
   "status": "proved",
   "theorems": [
    "C35_bounds_preserved",
    "C35_inequalities_preserved"
   ],
   "note": ""
  },
  {
   "property": "C36",
   "status": "proved",
   "theorems": [
    "C36_warm_start_roundtrip",
    "C36_warm_start_roundtrip_unscaled",
    "C36_warm_start_reproduces_predictions",
    "C36_constant_column_refuted",
    "C36_no_intercept_refuted"
   ],
   "note": "Round trip characterised in every case. The two refutations (constant column, F4; no intercept, F6) show the exceptions are real."
  },
  {
   "property": "C37",
   "status": "proved",
   "theorems": [
    "C37_p2_setup",
    "C37_shapes_and_p1",
    "C37_alpha_commutes"
   ],
   "note": ""
  },
  {
   "property": "C38",
   "status": "proved",
   "theorems": [
    "C38_penalties_expand",
    "C38_coefficient_blocks",
    "C38_other_lengths",
    "C38_ambiguous_refuted",
    "C38_matrix"
   ],
   "note": "A per-coefficient vector whose length coincides with the number of columns is read per column (finding F21, C38_ambiguous_refuted)."
  },
  {
   "property": "C39",
   "status": "proved",
   "theorems": [
    "C39_grid",
    "C39_rejects",
    "C39_path",
    "C39_ratio_refuted"
   ],
   "note": "The parameters min_alpha_ratio etc. are not validated by the code; C39_ratio_refuted shows the grid is not decreasing for ratio 1 (finding F20)."
  },
  {
   "property": "C40",
   "status": "proved",
   "theorems": [
    "C40_null_model_optimal",
    "C40_smaller_alpha",
    "C40_first_entry_null",
    "C40_unpenalised_refuted",
    "C40_offset_refuted"
   ],
   "note": "Optimality over all feasible coefficients for convex pairs; non-optimality below alpha_max unless the gradient vanishes (the code then substitutes a floor); the first path entry of irls-cd is the null model. The two hypotheses of the property (no offset, all P1 positive) are needed: C40_offset_refuted, C40_unpenalised_refuted."
  },
  {
   "property": "C41",
   "status": "proved",
   "theorems": [
    "C41_find",
    "C41_raises",
    "C41_stored",
    "C41_requests",
    "C41_by_index",
    "C41_by_alpha",
    "C41_by_alphas"
   ],
   "note": ""
  },
  {
   "property": "C42",
   "status": "proved",
   "theorems": [
    "C42_chain",
    "C42_defined",
    "C42_prefix",
    "C42_single",
    "C42_entries_near_optimal"
   ],
   "note": "Also near-optimality of each path entry of irls-cd."
  },
  {
   "property": "C43",
   "status": "proved",
   "theorems": [
    "C43_kfold",
    "C43_alphas",
    "C43_choice",
    "C43_ties",
    "C43_refit",
    "C43_weight_scale",
    "C43_zero_weight_fold_refuted",
    "C43_defined",
    "C43_fits_on_rows",
    "C43_auto_alphas",
    "C43_deviance_path",
    "C43_train_deviance",
    "C43_models_near_optimal",
    "C43_predict"
   ],
   "note": "For every list of splits with weight in each test set; KFold is modelled and proved to be a partition. C43_zero_weight_fold_refuted: a test fold without weight makes the averages NaN and the first grid point is taken silently (finding F24)."
  },
  {
   "property": "C44",
   "status": "proved",
   "theorems": [
    "C44_row_local",
    "C44_several_alphas",
    "C44_batches",
    "C44_reorder",
    "C44_weights_with_alphas_refuted",
    "C44_zero_weight_batch_refuted"
   ],
   "note": "Two exceptions are proved as refutations: weights with several alphas (F22) and an all-zero-weight batch (F23)."
  },
  {
   "property": "C45",
   "status": "proved",
   "theorems": [
    "C45_codes",
    "C45_encoding_independent",
    "C45_contribution",
    "C45_unseen_raises",
    "C45_training_frame"
   ],
   "note": ""
  },
  {
   "property": "C46",
   "status": "proved",
   "theorems": [
    "C46_statistic",
    "C46_nonneg",
    "C46_invariance",
    "C46_features",
    "C46_terms",
    "C46_formula",
    "C46_one_specification",
    "C46_single",
    "C46_R_needs_r_refuted"
   ],
   "note": "Exact characterisation (iff) of the returned statistic for R/r, features, terms, formula; invariance, non-negativity, single coefficient = t^2. Precondition of the by-name theorems: one name per coefficient. The chi-square p-value is external. C46_R_needs_r_refuted: default r does not work with R (F8)."
  },
  {
   "property": "C47",
   "status": "proved",
   "theorems": [
    "C47_robust",
    "C47_clustered",
    "C47_nonrobust",
    "C47_defined",
    "C47_dispersion",
    "C47_singletons",
    "C47_relabel",
    "C47_reparametrisation",
    "C47_labels_refuted",
    "C47_score_is_gradient",
    "C47_information_is_hessian",
    "C47_expected_information"
   ],
   "note": "Robust, clustered (codes 0..G-1) and non-robust matrices characterised by H V H = correction * meat resp. inverse information; symmetric and psd; singleton clusters, relabelling, dispersion scaling, reparametrisation; scores/information are gradient/Hessian of the log-likelihood. C47_labels_refuted: labels other than codes raise or are merged silently (F9)."
  },
  {
   "property": "C48",
   "status": "proved",
   "theorems": [
    "C48_row",
    "C48_nested"
   ],
   "note": "For any symmetric strictly increasing distribution function with quantile function (scipy.stats.norm is external); positive variance and 0<confidence<1 assumed."
  },
  {
   "property": "C49",
   "status": "partial",
   "theorems": [
    "C49_values",
    "C49_current_refuted",
    "C49_current_partial",
    "C49_first_query_decides"
   ],
   "note": "C49_values: the values of a first query. \"After any history the values belong to the most recent fit\" is false (C49_current_refuted, finding F10: the cache survives refits and ignores the data of later queries); C49_current_partial: true if nothing was queried before the fit; C49_first_query_decides: after any history the values are those of the first query that succeeded."
  },
  {
   "property": "C50",
   "status": "proved",
   "theorems": [
    "C50_bounds_and_offset",
    "C50_weights",
    "C50_inequalities",
    "C50_bounds_ordered",
    "C50_response_and_parameters"
   ],
   "note": "Exact acceptance conditions (iff) and returned values. Finiteness checks are vacuous over R."
  },
  {
   "property": "C51",
   "status": "partial",
   "theorems": [
    "C51_validation_exact",
    "C51_l1_never_ignored",
    "C51_l1_path_partial",
    "C51_l1_path_refuted",
    "C51_constraints_honoured",
    "C51_bounds_refuted",
    "C51_auto_rule",
    "C51_auto_succeeds",
    "C51_explicit",
    "C51_l1_ignored_iff",
    "C51_bounds_ignored_iff",
    "C51_array_refuted"
   ],
   "note": "Validation exact (iff), auto rule (iff per solver), auto succeeds, constraints and, for single fits, L1 never ignored. As stated the claim is false on paths/CV (C51_l1_path_refuted, F11; C51_l1_path_partial is the true part, C51_l1_ignored_iff and C51_bounds_ignored_iff say exactly when), for monotonic_constraints with bounds (C51_bounds_refuted, F19), and a numpy array of alphas or P1=None raises (C51_array_refuted, F27/F28)."
  },
  {
   "property": "C52",
   "status": "proved",
   "theorems": [
    "C52_family_names",
    "C52_other_names",
    "C52_parametrised",
    "C52_unknown_refuted",
    "C52_auto_link",
    "C52_auto_link_negative_power_refuted"
   ],
   "note": "All strings: tables, parametrised names, exact characterisation of what else is accepted; automatic links. Python float() is a parameter. C52_unknown_refuted: the pattern is searched anywhere, misspelt names pass (F29); C52_auto_link_negative_power_refuted: for Tweedie powers below 0 the automatic link leaves the range of the mean."
  },
  {
   "property": "C53",
   "status": "proved",
   "theorems": [
    "C53_objective_convex",
    "C53_stationary_is_global",
    "C53_unique_coefficients"
   ],
   "note": ""
  },
  {
   "property": "C54",
   "status": "proved",
   "theorems": [
    "C54_quasi_newton_gradient",
    "C54_score_is_gradient"
   ],
   "note": "At points where the mean function is not clipped."
  },
  {
   "property": "C55",
   "status": "proved",
   "theorems": [
    "C55_converged_fit_near_optimal",
    "C55_irls_cd_near_optimal"
   ],
   "note": "Uses C27, C29, C53."
  },
  {
   "property": "C56",
   "status": "proved",
   "theorems": [
    "C56_fit_near_optimal"
   ],
   "note": "End to end through standardisation, IRLS, coordinate descent and back, over the reals."
  },
  {
   "property": "C57",
   "status": "partial",
   "theorems": [
    "C57_fit_respects_bounds_partial",
    "C57_between_bounds_and_start",
    "C57_bounds_violated_refuted"
   ],
   "note": "False in general (finding F5: starts are clipped to user-scale bounds on the standardized scale; a concrete silent violation is proved). Proved for the default start with 0 within the bounds and for any start with sign bounds; for every start C57_between_bounds_and_start: each returned coefficient lies within its bounds or between a bound and its own start."
  },
  {
   "property": "C58",
   "status": "proved",
   "theorems": [
    "C58_row_order_irrelevant"
   ],
   "note": "By a simulation between the two runs of irls-cd."
  },
  {
   "property": "C59",
   "status": "proved",
   "theorems": [
    "C59_covariance_current",
    "C59_clip_refuted"
   ],
   "note": "All histories with failures at every step, except warm starts that clip coef_ in place: C59_clip_refuted (F25)."
  },
  {
   "property": "C60",
   "status": "proved",
   "theorems": [
    "C60_failed_fit",
    "C60_atomic_refuted"
   ],
   "note": "Estimates, covariance and criteria are kept; full atomicity is false: C60_atomic_refuted (F26: levels, model spec, names, link are already replaced)."
  },
  {
   "property": "C61",
   "status": "proved",
   "theorems": [
    "C61_refit_fresh",
    "C61_formula_refuted"
   ],
   "note": "Histories without formulas; with a formula fit before, the stale model spec is used: C61_formula_refuted (F12). Information criteria excluded (C49)."
  },
  {
   "property": "C62",
   "status": "proved",
   "theorems": [
    "C62_balance_any_solver",
    "C62_balance",
    "C62_intercept_equation",
    "C62_column_equation",
    "C62_level_balance"
   ],
   "note": "Model: fit_rows/fit_cd with irls-cd; step_size_tol=None (with a step-size stop a silent fit need not be balanced)."
  },
  {
   "property": "C63",
   "status": "proved",
   "theorems": [
    "C63_fits_agree",
    "C63_coefficients_agree"
   ],
   "note": "Bounds are in standardized units (std_close); irls-cd."
  },
  {
   "property": "C64",
   "status": "proved",
   "theorems": [
    "C64_tradeoff"
   ],
   "note": "Exact up to the stated gradient_tol slack; irls-cd."
  },
  {
   "property": "C65",
   "status": "proved",
   "theorems": [
    "C65_units"
   ],
   "note": "start_params=None, zero within bounds, standard deviations of original and transformed columns not below the threshold std_threshold used by the code."
  },
  {
   "property": "C66",
   "status": "proved",
   "theorems": [
    "C66_loglik",
    "C66_defined",
    "C66_poisson_moments",
    "C66_negbin_moments",
    "C66_binomial_moments"
   ],
   "note": "lgamma is any function with the Bohr-Mollerup properties (existence proved in L_Gamma). That the three continuous densities integrate to one is textbook knowledge and not proved."
  },
  {
   "property": "C67",
   "status": "proved",
   "theorems": [
    "C67_series",
    "C67_loglik"
   ],
   "note": "lgamma as in C66. The while loops are modelled with fuel; the theorem gives a fuel from which on the result no longer changes. Exact real arithmetic."
  },
  {
   "property": "C68",
   "status": "proved",
   "theorems": [
    "C68_exposure",
    "C68_fit"
   ],
   "note": "scale_predictors=False for the fit theorem; irls-cd; powers p >= 0."
  },
  {
   "property": "C69",
   "status": "proved",
   "theorems": [
    "C69_log_link_units",
    "C69_fit",
    "C69_normal_units"
   ],
   "note": "Objective-level equivariance for both link/family groups; fit-level theorem for the log link (irls-cd, scale_predictors=False, with intercept)."
  },
  {
   "property": "C70",
   "status": "proved",
   "theorems": [
    "C70_silent_near_optimal",
    "C70_monotonic_feasible"
   ],
   "note": "External optimisers by their documented contracts (S_FitAll.libs_sound, instantiated by exact routines in C70_nonvacuous); stops by reduction of the objective (lbfgs) or trust radius are excluded: those end silently without any optimality guarantee (F32). For scipy solvers with logit link no fitted probability clipped. irls-ls-monotonic: feasibility only."
  },
  {
   "property": "C71",
   "status": "proved",
   "theorems": [
    "C71_solvers_agree",
    "C71_coefficients_agree"
   ],
   "note": "Same contracts as C70."
  },
  {
   "property": "C72",
   "status": "proved",
   "theorems": [
    "C72_least_squares_one_iteration",
    "C72_lasso_one_iteration_refuted"
   ],
   "note": "C72_least_squares_one_iteration for irls-ls (linear solver sound, fitted values below large_number); C72_lasso_one_iteration_refuted: false for irls-cd with L1 (F31)."
  },
  {
   "property": "C73",
   "status": "proved",
   "theorems": [
    "C73_inputs_unchanged",
    "C73_results_new",
    "C73_path_values",
    "C73_values",
    "C73_cd_shares_only_unmoved",
    "C73_predict",
    "C73_reused_refuted"
   ],
   "note": "Heap of arrays with locations; the conversions may copy or alias (arbitrary choice per argument). Exception proved as refutation: C73_reused_refuted (F25)."
  },
  {
   "property": "C74",
   "status": "proved",
   "theorems": [
    "C74_any_schedule",
    "C74_ends",
    "C74_cv_table",
    "C74_threads_refuted"
   ],
   "note": "Jobs as small-step programs on attributes of self and arrays in memory; workers = batches with one copy of self, any interleaving. Threads on one self (parallel_backend(\"threading\")) race: C74_threads_refuted (F34). random_state given as an integer or None."
  },
  {
   "property": "C75",
   "status": "proved",
   "theorems": [
    "C75_no_race",
    "C75_ends",
    "C75_eta_mu_deviance",
    "C75_gradient_hessian",
    "C75_deviance",
    "C75_log_likelihood",
    "C75_active_rows"
   ],
   "note": "Loads and stores interleave sequentially consistently (justified by the race freedom that is proved too); OpenMP semantics of private and reduction variables is modelled as documented; sums of reals."
  },
  {
   "property": "C76",
   "status": "proved",
   "theorems": [
    "C76_accepted_iff",
    "C76_semidefinite_accepted",
    "C76_indefinite_refused",
    "C76_symmetric_part",
    "C76_large_sparse_refuted",
    "C76_contract_met"
   ],
   "note": "Contract of scipy.linalg.eigvalsh: all eigenvalues of a symmetric matrix (C76_contract_met: such a finite list exists). C76_large_sparse_refuted: a sparse P2 of order 2000 or more always raises (F36)."
  },
  {
   "property": "C77",
   "status": "proved",
   "theorems": [
    "C77_row_order",
    "C77_zero_weights",
    "C77_repetition",
    "C77_robust_repetition_refuted",
    "C77_cluster_zero_weight_refuted"
   ],
   "note": "The verdict of the conditioning check on X'X (unweighted) is taken to be the same for both data sets. Robust matrices do not treat weights as repetitions and zero-weight rows count as clusters: C77_robust_repetition_refuted, C77_cluster_zero_weight_refuted (F37)."
  },
  {
   "property": "C78",
   "status": "proved",
   "theorems": [
    "C78_round_trip",
    "C78_old_pickle",
    "C78_load_fails_iff",
    "C78_old_pickle_encodes"
   ],
   "note": "Pickle itself (a copy of __dict__) and pandas dtypes are external; attribute values the code does not look into are opaque."
  },
  {
   "property": "C79",
   "status": "proved",
   "theorems": [
    "C79_rows",
    "C79_objective_descends",
    "C79_counts",
    "C79_report",
    "C79_full_report",
    "C79_messages",
    "C79_monotonic",
    "C79_intercept_refuted"
   ],
   "note": "Run times, n_coef_updated and n_active_rows are not modelled. The column labelled \"intercept\" is the intercept for centred columns, not intercept_: C79_intercept_refuted (F38)."
  },
  {
   "property": "C80",
   "status": "proved",
   "theorems": [
    "C80_beats_null_models",
    "C80_training_score",
    "C80_zero_coefficients",
    "C80_along_alphas",
    "C80_offset_refuted"
   ],
   "note": "The score with an offset uses a null model without it and can be arbitrarily negative: C80_offset_refuted (F39)."
  },
  {
   "property": "C81",
   "status": "proved",
   "theorems": [
    "C81_close_to_optimum",
    "C81_distance",
    "C81_recoding",
    "C81_drop_level",
    "C81_least_squares"
   ],
   "note": "For penalised models the coding does matter and no such claim is made."
  },
  {
   "property": "C82",
   "status": "proved",
   "theorems": [
    "C82_power_accepted",
    "C82_stored_power",
    "C82_power_between",
    "C82_power_class_refuted",
    "C82_theta"
   ],
   "note": "The power is checked before it is rounded: Tweedie with a power just below 2 silently becomes gamma (C82_power_class_refuted, F40)."
  },
  {
   "property": "C83",
   "status": "proved",
   "theorems": [
    "C83_any_order",
    "C83_reduction",
    "C83_threads",
    "C83_normal_deviance",
    "C83_not_reproducible"
   ],
   "note": "No overflow. Bit-for-bit reproducibility over thread counts is false: C83_not_reproducible."
  },
  {
   "property": "C84",
   "status": "proved",
   "theorems": [
    "C84_descent_in_bounds",
    "C84_sign_constraints",
    "C84_full_step",
    "C84_user_bound",
    "C84_bounds_refuted",
    "C84_floats",
    "C84_stop"
   ],
   "note": "No overflow. A bound other than 0 can be missed by an ulp: C84_bounds_refuted (F41). The stopping test is about the gradients the loop carries (updated with rounding); their distance from a recomputed gradient is not bounded."
  },
  {
   "property": "C85",
   "status": "proved",
   "theorems": [
    "C85_predictor",
    "C85_levels",
    "C85_reference_level",
    "C85_numeric",
    "C85_spline",
    "C85_rows",
    "C85_fit",
    "C85_fit_trust",
    "C85_means",
    "C85_reference_refuted",
    "C85_spline_refuted",
    "C85_text_levels_refuted",
    "C85_sign_refuted",
    "C85_link_refuted"
   ],
   "note": "formulaic (columns of a factor, B-spline values) enters as the specification of a data point. What the constraints do not give is refuted: C85_reference_refuted, C85_spline_refuted (F42), C85_text_levels_refuted (F43), C85_sign_refuted, C85_link_refuted (F44)."
  },
  {
   "property": "C86",
   "status": "proved",
   "theorems": [
    "C86_stationary",
    "C86_near_optimal",
    "C86_optimal_refuted"
   ],
   "note": "That a silent fit is near-optimal under the constraints is false without a condition: C86_optimal_refuted (F45), whose fit also meets the hypotheses of the other two theorems."
  },
  {
   "property": "C87",
   "status": "proved",
   "theorems": [
    "C87_accepts",
    "C87_accepts_all",
    "C87_together",
    "C87_positive",
    "C87_rowwise",
    "C87_zero",
    "C87_zero_derivatives",
    "C87_negative_value",
    "C87_roundtrip",
    "C87_derivative",
    "C87_derivative2",
    "C87_mean_range_refuted"
   ],
   "note": "That the means are positive and determine the predictor is refuted by C87_mean_range_refuted (F46). Exponents are exact reals here; their rounding to single precision is not part of the model."
  },
  {
   "property": "C88",
   "status": "proved",
   "theorems": [
    "C88_swap",
    "C88_guess",
    "C88_rows",
    "C88_predict",
    "C88_quality",
    "C88_cloglog_refuted"
   ],
   "note": "External linear solver and optimisers are assumed to treat mirror images alike (S_Swap.libs_odd, met by odd_libs). Bounds ordered (checked at fit). For cloglog it is false: C88_cloglog_refuted (F47)."
  },
  {
   "property": "C89",
   "status": "proved",
   "theorems": [
    "C89_objective",
    "C89_near_optimal",
    "C89_fits_agree"
   ],
   "note": "Contracts of the external optimisers as in C70. Agreement up to the tolerances, as in C71; the iterates of irls-cd do depend on the order."
  },
  {
   "property": "C90",
   "status": "proved",
   "theorems": [
    "C90_objective",
    "C90_near_optimal",
    "C90_fits_agree",
    "C90_exact",
    "C90_guess",
    "C90_guess_other_links",
    "C90_default_start",
    "C90_no_offset"
   ],
   "note": "Exact for irls-ls and irls-ls-monotonic in real arithmetic; for the other solvers up to the tolerances (irls-cd stops its inner iteration by the size of the intercept, the external optimisers are black boxes). C90_guess_other_links: the default start ignores the offset for links other than identity, log, logit (F48)."
  },
  {
   "property": "C91",
   "status": "proved",
   "theorems": [
    "C91_same_score_and_hessian",
    "C91_objective",
    "C91_near_optimal",
    "C91_fits_agree",
    "C91_exact",
    "C91_guess",
    "C91_no_variation_refuted",
    "C91_pearson_dispersion"
   ],
   "note": "Exact equality of runs is for irls-cd with hessian_approx=0 and the kernels whose reported value is linear in y (for normal, inverse Gaussian and the generic kernel the reported value differs by a constant that enters the relative test of the line search). C91_no_variation_refuted (F49) shows why the default start needs cells with different means."
  },
  {
   "property": "C92",
   "status": "proved",
   "theorems": [
    "C92_fit_accepts",
    "C92_fit_content",
    "C92_idempotent",
    "C92_predict_accepts",
    "C92_predict_after_fit",
    "C92_nonfinite",
    "C92_standardized_refused"
   ],
   "note": "tabmat containers are modelled by rows, columns, entries and names; sklearn check_array by its documented checks (2-d, at least one row, min features, finiteness, dtype). Data frames are converted before this point."
  },
  {
   "property": "C93",
   "status": "proved",
   "theorems": [
    "C93_twins",
    "C93_ridge"
   ],
   "note": "The bound is in terms of the tolerance of C70 (fit_tol). Without an L2 penalty the two coefficients are not determined; C93_twins then still says that evening them changes no prediction."
  },
  {
   "property": "C94",
   "status": "proved",
   "theorems": [
    "C94_mapping",
    "C94_calling_scope",
    "C94_documented",
    "C94_slip",
    "C94_calling_scope_refuted",
    "C94_response",
    "C94_matrix"
   ],
   "note": "formulaic.capture_context is modelled by its documentation (integer = frame offset from its caller, sys._getframe). The claim for linear_predictor, score, aic, aicc, bic is false of the code and refuted (C94_calling_scope_refuted, F52); C94_slip says which frame they reach. C94_response (F53) says where the response is evaluated without a context."
  },
  {
   "property": "C95",
   "status": "proved",
   "theorems": [
    "C95_stored",
    "C95_clone",
    "C95_set_params",
    "C95_defaults"
   ],
   "note": "The signatures, defaults and assignments of the constructors are transcribed one by one in M_Params; sklearn BaseEstimator get_params/set_params/clone by their documented behaviour (clone copies parameter values; values are opaque, so deep copying is not observed)."
  },
  {
   "property": "C96",
   "status": "proved",
   "theorems": [
    "C96_same_objective",
    "C96_larger_model",
    "C96_training_score"
   ],
   "note": "Up to the tolerance of C70 (fit_tol times the distance of the two coefficient vectors)."
  },
  {
   "property": "C97",
   "status": "proved",
   "theorems": [
    "C97_exact",
    "C97_silent"
   ],
   "note": "C97_exact is for irls-cd from the default start, and from any start when there is an intercept (the code multiplies a starting coefficient by the standard deviation, which is zero: F4). C97_silent covers the other solvers up to the tolerance; without penalties on the column their result is not determined."
  },
  {
   "property": "C98",
   "status": "proved",
   "theorems": [
    "C98_deviance",
    "C98_dispersion",
    "C98_mismatch",
    "C98_column",
    "C98_column_refuted"
   ],
   "note": "numpy broadcasting by its documented rule; Cython kernels take one-dimensional buffers only. log_likelihood uses the same conversion and is not modelled here. C98_column_refuted (F55): passing y as a column changes the dispersion silently."
  },
  {
   "property": "C99",
   "status": "proved",
   "theorems": [
    "C99_float",
    "C99_predict",
    "C99_predict_refuted",
    "C99_score_value",
    "C99_score",
    "C99_fit"
   ],
   "note": "np.full with an integer dtype truncates; float32 rounds to nearest (no overflow). C99_predict_refuted (F54): a fractional weight and integer X."
  },
  {
   "property": "C100",
   "status": "proved",
   "theorems": [
    "C100_same_model",
    "C100_near_optimal",
    "C100_fits_agree"
   ],
   "note": "Up to the tolerance of C70. scale_predictors=True requires an intercept (the constructor combination is rejected), so it is excluded. The column of ones is the last one; its place does not matter by C89."
  },
  {
   "property": "C101",
   "status": "proved",
   "theorems": [
    "C101_penalty_bound",
    "C101_l2_rate",
    "C101_l1_rate",
    "C101_large_alpha"
   ],
   "note": "K bounds the distance between the intercept on centred columns and c; without intercept K = 0. In C101_large_alpha K is uniform over the fits."
  },
  {
   "property": "C102",
   "status": "proved",
   "theorems": [
    "C102_equality",
    "C102_equivalence",
    "C102_same_behaviour",
    "C102_to_tweedie"
   ],
   "note": "Python dispatch of == (right operand first when its class is a strict subclass) by its documented rule; user subclasses are unmodified (same __init__, no overridden methods), single inheritance; an int power is compared with a float power by value."
  },
  {
   "property": "C103",
   "status": "proved",
   "theorems": [
    "C103_linear_predictor",
    "C103_same_row",
    "C103_whole_numbers",
    "C103_identity_mean",
    "C103_log_mean",
    "C103_logit_mean",
    "C103_not_reproducible"
   ],
   "note": "The evaluation order of X @ coef is any tree of rounded products, additions and fused multiply-adds over the columns; no overflow. The accuracy a of the library functions exp and expit is a hypothesis. C103_not_reproducible refutes bitwise agreement between orders."
  },
  {
   "property": "C104",
   "status": "proved",
   "theorems": [
    "C104_response",
    "C104_own_row",
    "C104_gaussian",
    "C104_coefficients"
   ],
   "note": "Without inequality constraints A_ineq; solvers other than the monotonic one; up to the tolerance of C70. In C104_coefficients no intercept and canonical pairs."
  },
  {
   "property": "C105",
   "status": "proved",
   "theorems": [
    "C105_heavier_row",
    "C105_heavier_row_unpenalised",
    "C105_left_out"
   ],
   "note": "scale_predictors=False (the standardised penalty depends on the weights otherwise); up to the tolerance of C70."
  },
  {
   "property": "C106",
   "status": "proved",
   "theorems": [
    "C106_two_alphas",
    "C106_tradeoff",
    "C106_continuity"
   ],
   "note": "Up to the tolerance of C70. C106_continuity needs a positive definite L2 form and 0 feasible for the bounds."
  },
  {
   "property": "C107",
   "status": "proved",
   "theorems": [
    "C107_score_any_direction",
    "C107_separated",
    "C107_logistic",
    "C107_never_converges",
    "C107_no_optimum"
   ],
   "note": "No bounds, no penalty; up to the tolerance of C70. The fit must be unclipped (part of silent): probabilities at most 50 machine epsilons from 0 or 1 are excluded."
  },
  {
   "property": "C108",
   "status": "proved",
   "theorems": [
    "C108_unique",
    "C108_exists",
    "C108_fits_near"
   ],
   "note": "Curvature from the L2 penalty, plus the weighted design for least squares. Existence and uniqueness without uniform curvature (intercepts, unpenalised models) is C112."
  },
  {
   "property": "C109",
   "status": "proved",
   "theorems": [
    "C109_normal_equations",
    "C109_superposition",
    "C109_fits",
    "C109_leverage"
   ],
   "note": "C109_fits needs positive curvature (C108). C109_leverage is exact for the closed-form solver; C104_own_row and C104_gaussian give the version with tolerance."
  },
  {
   "property": "C110",
   "status": "proved",
   "theorems": [
    "C110_accept",
    "C110_refusal",
    "C110_terms",
    "C110_silent_string",
    "C110_response",
    "C110_copy",
    "C110_integers",
    "C110_copy_refuted",
    "C110_formula_ignored",
    "C110_covariance_response",
    "C110_frame_terms",
    "C110_fitted_terms"
   ],
   "note": "formulaic is modelled for signed sums of terms, 1 and 0; terms are opaque. C110_copy_refuted, C110_formula_ignored and the two history theorems describe findings F57-F60."
  },
  {
   "property": "C111",
   "status": "proved",
   "theorems": [
    "C111_covariance",
    "C111_wald",
    "C111_predictor",
    "C111_units",
    "C111_order",
    "C111_origin"
   ],
   "note": "Same predictions in both parametrisations (unpenalised fits: C81). The verdict of the conditioning check on X'X is taken as equal: it is not invariant under a change of units."
  },
  {
   "property": "C112",
   "status": "proved",
   "theorems": [
    "C112_exists",
    "C112_same_predictions",
    "C112_unique",
    "C112_falls",
    "C112_none",
    "C112_iff",
    "C112_penalised",
    "C112_no_intercept"
   ],
   "note": "Albert-Anderson type characterisation in full generality for the convex pairs; the equivalence needs that columns and L2 penalty determine the coefficients (C112_exists, C112_none and C112_same_predictions do not)."
  },
  {
   "property": "C113",
   "status": "proved",
   "theorems": [
    "C113_rate",
    "C113_best",
    "C113_vanishes",
    "C113_terminates",
    "C113_converges",
    "C113_definite"
   ],
   "note": "Cyclic selection (the default), exact arithmetic, every diagonal entry at least mu above the skipping threshold; random selection order is not covered (its single-step guarantees are C20-C23)."
  },
  {
   "property": "C114",
   "status": "proved",
   "theorems": [
    "C114_rate",
    "C114_iterations",
    "C114_logistic_line_search",
    "C114_logistic_iterations",
    "C114_enough_iterations"
   ],
   "note": "hessian_approx = 0, no L1 penalty, no bounds, exact arithmetic and an exact linear solver. The bound is a worst case (the constant is the Armijo constant times the shortest of 20 halvings), not the quadratic rate seen in practice; the two exceptions (warned line search, change below machine precision) are part of the statement."
  },
  {
   "property": "C115",
   "status": "proved",
   "theorems": [
    "C115_step",
    "C115_quadratic",
    "C115_iterations",
    "C115_both_phases"
   ],
   "note": "Logistic regression only (the other convex pairs have no global bound on the third derivative); hessian_approx = 0, exact arithmetic, exact linear solver. That the sequence enters the region of quadratic convergence is C114."
  },
  {
   "property": "C116",
   "status": "proved",
   "theorems": [
    "C116_step",
    "C116_quadratic",
    "C116_iterations",
    "C116_both_phases"
   ],
   "note": "hessian_approx = 0, no L1 penalty, no bounds, exact arithmetic, exact linear solver. For C116_step to C116_iterations the conditions are on the start of the phase only (Kantorovich-type); C116_both_phases adds the global phase of C114, with curvature bounds and small means on the level set of the start. C115 has a wider region for logistic regression."
  },
  {
   "property": "C117",
   "status": "proved",
   "theorems": [
    "C117_step",
    "C117_steps",
    "C117_long_steps",
    "C117_iterations",
    "C117_enough"
   ],
   "note": "Exact arithmetic. The curvature can come from the ridge part alone (which excludes an unpenalised intercept) or from the Hessian on the level set with hessian_approx = 0. The constant is a worst case; the two exceptions (warned line search, change below machine precision) are part of the statement."
  },
  {
   "property": "C118",
   "status": "proved",
   "theorems": [
    "C118_failed_search",
    "C118_failed_search_ls",
    "C118_linear_model",
    "C118_linear_iterations",
    "C118_logistic",
    "C118_logistic_iterations"
   ],
   "note": "hessian_approx = 0 and exact arithmetic (in floating point the search can also fail by rounding near the optimum). The theorems assume nothing about the size of the direction: the conclusion is about the iterate the failed search keeps."
  },
  {
   "property": "C119",
   "status": "proved",
   "theorems": [
    "C119_gap",
    "C119_linear",
    "C119_coefficients",
    "C119_iterations",
    "C119_returned",
    "C119_penalised",
    "C119_logistic"
   ],
   "note": "hessian_approx = 0, no L1 penalty, no bounds, exact arithmetic, exact linear solver; C119_returned needs none of these but exact arithmetic (any inner solver). The factor is a worst case (Armijo constant times the shortest of 20 halvings); the two exceptions (failed line search, change below machine precision) are part of the statement. The curvature bounds are hypotheses on the level set of the start, discharged by the data for ridge-penalised logistic regression without unpenalised intercept."
  }
 ]
}