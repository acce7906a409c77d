{"id": "C01", "title": "Link and inverse link are mutually inverse", "statement": "For every link object glum ships (identity, log, logit, cloglog, TweedieLink with an admissible power), inverse(link(mu)) = mu for every mu in the link's domain (for logit and cloglog: in the un-clipped band), and link(inverse(eta)) = eta for every eta whose inverse is not clipped.", "quantifier": "all links, all admissible powers, all mu in the domain, all eta", "why_tests_cant": "the claim ranges over a continuum of real inputs; a test samples finitely many points", "anchors": ["src/glum/_link.py: TweedieLink.link, TweedieLink.inverse", "src/glum/_link.py: LogitLink", "src/glum/_link.py: CloglogLink", "src/glum/_link.py: LogLink", "src/glum/_link.py: IdentityLink"]}
{"id": "C02", "title": "The derivatives a link reports are its derivatives", "statement": "derivative(mu) is the derivative of link at mu, inverse_derivative(eta) is the derivative of the (unclipped) inverse link at eta, inverse_derivative2(eta) its second derivative, and inverse_derivative(link(mu)) * derivative(mu) = 1.", "quantifier": "all links, all admissible powers, all points of the open domain", "why_tests_cant": "the claim ranges over a continuum of real inputs; a test samples finitely many points", "anchors": ["src/glum/_link.py: derivative", "src/glum/_link.py: inverse_derivative", "src/glum/_link.py: inverse_derivative2"]}
{"id": "C03", "title": "The inverse link is monotone and lands in the family's mean range", "statement": "inverse(eta) is non-decreasing in eta for identity, log, logit and cloglog; log gives values > 0; logit and cloglog always give values in [50 eps, 1 - 50 eps], whatever finite eta is supplied, and a warning is emitted exactly when some value had to be clipped.", "quantifier": "all finite linear predictors (vectors of any length)", "why_tests_cant": "the claim ranges over a continuum of real inputs; a test samples finitely many points", "anchors": ["src/glum/_link.py: LogitLink.inverse", "src/glum/_link.py: CloglogLink.inverse", "src/glum/_link.py: LogLink.inverse"]}
{"id": "C04", "title": "Unit deviance is non-negative and vanishes only at a perfect fit", "statement": "For every family with a unit deviance (Normal, Poisson, Gamma, InverseGaussian, Tweedie of any admissible power, GeneralizedHyperbolicSecant, NegativeBinomial with theta>0, Binomial), unit_deviance(y,mu) >= 0 for y in the family's range and mu in the mean range, with equality iff y = mu (Binomial: for y in {0,1}; for fractional y the value is twice a cross entropy, >= 0).", "quantifier": "all families, all admissible power/theta, all y in range, all mu in the mean range", "why_tests_cant": "the claim ranges over a continuum of real inputs; a test samples finitely many points", "anchors": ["src/glum/_distribution.py: unit_deviance (each family)"]}
{"id": "C05", "title": "unit_deviance_derivative is the derivative of unit_deviance in mu", "statement": "For every family the value -2 (y-mu)/v(mu) is the derivative of mu -> unit_deviance(y, mu).", "quantifier": "all families, all y in range, all mu in the open mean range", "why_tests_cant": "the claim ranges over a continuum of real inputs; a test samples finitely many points", "anchors": ["src/glum/_distribution.py: ExponentialDispersionModel.unit_deviance_derivative", "src/glum/_distribution.py: unit_deviance (each family)"]}
{"id": "C06", "title": "Variance functions", "statement": "unit_variance_derivative(mu) is the derivative of unit_variance at mu; unit_variance is > 0 on the open mean range; variance(mu, w, phi) = unit_variance(mu) * phi / w is > 0 for positive phi and w.", "quantifier": "all families, all mu in the mean range", "why_tests_cant": "the claim ranges over a continuum of real inputs; a test samples finitely many points", "anchors": ["src/glum/_distribution.py: unit_variance", "src/glum/_distribution.py: unit_variance_derivative", "src/glum/_distribution.py: variance"]}
{"id": "C07", "title": "Named families agree with TweedieDistribution", "statement": "NormalDistribution, PoissonDistribution, GammaDistribution and InverseGaussianDistribution compute the same unit variance, unit deviance, deviance, log-likelihood, rows of gradient and Hessian and dispersion as TweedieDistribution(0), (1), (2), (3).", "quantifier": "all datasets, all mu vectors, all linear predictors", "why_tests_cant": "the claim ranges over a continuum of real inputs; a test samples finitely many points and over datasets of every length", "anchors": ["src/glum/_distribution.py: TweedieDistribution", "src/glum/_distribution.py: NormalDistribution", "src/glum/_distribution.py: PoissonDistribution", "src/glum/_distribution.py: GammaDistribution", "src/glum/_distribution.py: InverseGaussianDistribution", "src/glum/_functions.pyx: kernels"]}
{"id": "C08", "title": "deviance is the weighted sum of unit deviances", "statement": "deviance(y, mu, sample_weight) = sum_i w_i unit_deviance(y_i, mu_i), for every family and its compiled kernel.", "quantifier": "all families and powers, all datasets of any length", "why_tests_cant": "the claim ranges over a continuum of real inputs; a test samples finitely many points", "anchors": ["src/glum/_distribution.py: deviance", "src/glum/_functions.pyx: *_deviance"]}
{"id": "C09", "title": "deviance is twice the log-likelihood gap", "statement": "For Normal, Poisson, Gamma, InverseGaussian and NegativeBinomial: dispersion * 2 * (log_likelihood(y, y) - log_likelihood(y, mu)) = deviance(y, mu), at any fixed dispersion.", "quantifier": "all datasets in range, all mu, all dispersions > 0", "why_tests_cant": "the claim ranges over a continuum of real inputs; a test samples finitely many points", "anchors": ["src/glum/_distribution.py: log_likelihood", "src/glum/_functions.pyx: *_log_likelihood"]}
{"id": "C10", "title": "Per-row gradients are exact", "statement": "The gradient rows used by every solver (fused kernels for canonical/log-link pairs and the generic implementation for any family/link pair) equal -1/2 of the derivative of w * unit_deviance(y, inverse_link(eta)) with respect to eta.", "quantifier": "all family/link pairs with a kernel, all families with the generic path, all y, w, eta", "why_tests_cant": "the claim ranges over a continuum of real inputs; a test samples finitely many points", "anchors": ["src/glum/_distribution.py: _rowwise_gradient_hessian", "src/glum/_functions.pyx: *_rowwise_gradient_hessian"]}
{"id": "C11", "title": "Per-row Hessians: exactness and non-negativity", "statement": "Every kernel's Hessian rows are >= 0 for y in range and w >= 0; for Normal/identity, Poisson/log, Gamma/log, Tweedie(1<p<2)/log and Binomial/logit they equal minus the derivative of the gradient row; for InverseGaussian/log and NegativeBinomial/log and for the generic path they equal the Fisher weight w h'(eta)^2 / v(mu).", "quantifier": "all kernels, all y in range, w >= 0, eta", "why_tests_cant": "the claim ranges over a continuum of real inputs; a test samples finitely many points", "anchors": ["src/glum/_distribution.py: _rowwise_gradient_hessian", "src/glum/_functions.pyx: *_rowwise_gradient_hessian"]}
{"id": "C12", "title": "The objective used by the line search differs from the deviance by a constant", "statement": "The value returned by the fused eta/mu/deviance kernels differs from the family's deviance of the same mu by a quantity that does not depend on mu (zero for Normal and InverseGaussian), and they return eta = cur_eta + factor * X_dot_d and mu = inverse link of it; so any two candidate steps are ranked as by the deviance.", "quantifier": "all datasets, all current eta, all directions, all step factors", "why_tests_cant": "the claim ranges over a continuum of real inputs; a test samples finitely many points", "anchors": ["src/glum/_distribution.py: _eta_mu_deviance", "src/glum/_functions.pyx: *_eta_mu_deviance", "src/glum/_distribution.py: eta_mu_deviance"]}
{"id": "C13", "title": "Observed and Fisher information weights", "statement": "_observed_information's row weight is minus the derivative in eta of the score row, for any family and link; _fisher_information's row weight equals it when y = mu (hence in expectation) and for canonical pairs for every y.", "quantifier": "all family/link pairs, all y, mu, weights, dispersions", "why_tests_cant": "the claim ranges over a continuum of real inputs; a test samples finitely many points", "anchors": ["src/glum/_distribution.py: _observed_information", "src/glum/_distribution.py: _fisher_information", "src/glum/_distribution.py: _score_matrix"]}
{"id": "C14", "title": "Dispersion estimate", "statement": "dispersion(method='pearson') = sum w (y-mu)^2/v(mu) / (sum w - ddof) and 'deviance' = deviance / (sum w - ddof); it is >= 0 whenever the residual degrees of freedom are positive; with frequency weights it is unchanged when a row of integer weight k is replaced by k copies of weight one.", "quantifier": "all datasets, all weights, all ddof", "why_tests_cant": "the claim ranges over a continuum of real inputs; a test samples finitely many points", "anchors": ["src/glum/_distribution.py: dispersion"]}
{"id": "C15", "title": "Zero-weight rows are inert", "statement": "Removing all rows with sample_weight 0 leaves deviance, the penalised training objective, its gradient, the Hessian and the weighted-mean statistics unchanged.", "quantifier": "all datasets, all placements of zero-weight rows, all coefficients", "why_tests_cant": "the number and placement of rows is unbounded", "anchors": ["src/glum/_distribution.py: deviance", "src/glum/_solvers.py: _get_obj_and_derivative", "src/glum/_glm.py: fit"]}
{"id": "C16", "title": "Integer weights are repetition", "statement": "A row with weight k behaves as k copies of it with weight 1: same deviance, same normalised objective, same gradient, same Hessian.", "quantifier": "all datasets, all non-negative integer weight vectors, all coefficients", "why_tests_cant": "unbounded datasets and weights", "anchors": ["src/glum/_distribution.py: deviance", "src/glum/_glm.py: _set_up_and_check_fit_args"]}
{"id": "C17", "title": "Rescaling all weights does not change the fit problem", "statement": "Multiplying every sample_weight by the same c > 0 leaves the (internally normalised) training objective, its gradient and Hessian unchanged as functions of the coefficients; normalised weights are >= 0 and sum to 1.", "quantifier": "all datasets, all c > 0, all coefficients", "why_tests_cant": "the claim ranges over a continuum of real inputs; a test samples finitely many points", "anchors": ["src/glum/_glm.py: _set_up_and_check_fit_args (2150-2160)", "src/glum/_validation.py: check_weights"]}
{"id": "C18", "title": "Starting intercept is the optimal null-model intercept", "statement": "With no features, guess_intercept returns an intercept that minimises the weighted deviance over all intercepts: Tweedie-type families with log link (any offset), Normal with identity link (any offset), Binomial with logit link and no offset.", "quantifier": "all datasets with positive weights, all offsets, all alternative intercepts", "why_tests_cant": "the claim ranges over a continuum of real inputs; a test samples finitely many points", "anchors": ["src/glum/_distribution.py: guess_intercept"]}
{"id": "C19", "title": "score (D^2) is at most 1 and at most 0 for constant predictions", "statement": "score = 1 - deviance(y, mu)/deviance(y, weighted mean): <= 1, = 1 iff the fit is perfect, and <= 0 for every constant prediction, with 0 at the weighted mean.", "quantifier": "all datasets with non-zero null deviance, all predictions", "why_tests_cant": "the claim ranges over a continuum of real inputs; a test samples finitely many points", "anchors": ["src/glum/_glm.py: score", "src/glum/_distribution.py: deviance"]}
{"id": "C20", "title": "Coordinate descent keeps every coefficient in its bounds", "statement": "If the coefficient vector handed to the coordinate-descent routine (coefficient plus step) respects the bounds, every coefficient of coefficient+returned step respects them, however many sweeps and whatever random order.", "quantifier": "all dimensions, Hessians, bounds, penalties, seeds, sweep counts", "why_tests_cant": "any number of sweeps, any visiting order", "anchors": ["src/glum/_cd_fast.pyx: enet_coordinate_descent_gram"]}
{"id": "C21", "title": "Coordinate descent never increases the penalised quadratic model", "statement": "Each coordinate update minimises the model 1/2 d'Qd - q'd + sum P1|w+d| over that coordinate within its bounds, so the model value after any number of sweeps is <= the value at the start; the vector q it maintains is the model gradient on the active set.", "quantifier": "all symmetric Q with positive active diagonal, all P1 >= 0, all bounds, all seeds and sweep counts", "why_tests_cant": "any number of sweeps, any visiting order", "anchors": ["src/glum/_cd_fast.pyx: enet_coordinate_descent_gram"]}
{"id": "C22", "title": "The stopping quantity is zero exactly at an optimum", "statement": "norm_min_subgrad = 0 iff the coefficients satisfy the KKT conditions of the L1-penalised, bound-constrained problem; for a convex differentiable smooth part, KKT implies global minimality among feasible coefficients; a converged fit with tolerance tol is within tol * (l1 distance) of any feasible point's objective.", "quantifier": "all dimensions, gradients, penalties, bounds, convex smooth parts", "why_tests_cant": "the claim ranges over a continuum of real inputs; a test samples finitely many points", "anchors": ["src/glum/_cd_fast.pyx: cython_norm_min_subgrad", "src/glum/_solvers.py: check_convergence"]}
{"id": "C23", "title": "The coordinate sampler always yields a valid coordinate", "statement": "For every non-zero 32-bit seed, every draw of the generator yields a next seed that is non-zero and below 2^32, and a coordinate index in [0, n).", "quantifier": "all 32-bit seeds, all histories of draws, all n >= 1", "why_tests_cant": "2^32 states and unbounded histories", "anchors": ["src/glum/_cd_fast.pyx: our_rand_r", "src/glum/_cd_fast.pyx: rand_int"]}
{"id": "C24", "title": "The incrementally maintained Hessian equals the exact Hessian", "statement": "With hessian_approx = 0, after any sequence of iterations (any active-set changes, any row weights, including resets) the stored Hessian restricted to the current active set equals X' diag(hessian_rows) X + P2 on it, intercept row and column included.", "quantifier": "all histories of (hessian_rows, active_set), all designs", "why_tests_cant": "any history length and any interleaving of active sets", "anchors": ["src/glum/_solvers.py: update_hessian", "src/glum/_solvers.py: build_hessian_delta", "src/glum/_cd_fast.pyx: identify_active_rows"]}
{"id": "C25", "title": "Approximate Hessian updates have bounded row error", "statement": "With hessian_approx = c, each used row weight differs from the true one by less than c times the largest change of any row, and the stored Hessian is the exact one for the row weights remembered (the approximation error never accumulates across iterations).", "quantifier": "all histories, all c >= 0", "why_tests_cant": "any history length", "anchors": ["src/glum/_cd_fast.pyx: identify_active_rows", "src/glum/_solvers.py: update_hessian"]}
{"id": "C26", "title": "Screening of inactive features", "statement": "identify_active_set always keeps the intercept and every non-zero coefficient; with P1 = 0 it keeps all features; every feature it drops has coefficient zero and its score strictly inside its L1 threshold by more than the current violation; coordinate descent leaves dropped coefficients at zero.", "quantifier": "all coefficient vectors, gradients, penalties", "why_tests_cant": "the claim ranges over a continuum of real inputs; a test samples finitely many points", "anchors": ["src/glum/_solvers.py: identify_active_set", "src/glum/_cd_fast.pyx: enet_coordinate_descent_gram"]}
{"id": "C27", "title": "Iteration accounting of the IRLS loop", "statement": "For every behaviour of the inner solver and the convergence test, the reported n_iter is at most max_iter, the diagnostics contain exactly n_iter+1 records in order, a non-convergence warning is emitted iff the convergence test did not hold at the end, and convergence stops further updates (coef returned is the one that passed the test).", "quantifier": "all inner-solver behaviours, all max_iter", "why_tests_cant": "any interleaving of convergence outcomes", "anchors": ["src/glum/_solvers.py: _irls_solver", "src/glum/_solvers.py: IRLSState"]}
{"id": "C28", "title": "Line search only accepts descent steps unless it warns", "statement": "If the line search does not warn, the new objective is <= the old one plus at most sigma*bound (bound <= 0) or, in the tiny-loss-of-precision branch, the change is below 16 eps |obj|; the accepted step is a factor 2^-k (k <= 20) of the direction, and coef, eta, mu stay mutually consistent.", "quantifier": "all objectives, directions, states", "why_tests_cant": "the claim ranges over a continuum of real inputs; a test samples finitely many points", "anchors": ["src/glum/_solvers.py: line_search"]}
{"id": "C29", "title": "Fitted coefficients respect lower_bounds/upper_bounds", "statement": "With solver irls-cd every iterate lies in the box when the start does: convex combinations of feasible points stay feasible under any line search outcome.", "quantifier": "all data, all bounds, all iteration counts", "why_tests_cant": "any iteration history", "anchors": ["src/glum/_solvers.py: _irls_solver", "src/glum/_solvers.py: _cd_solver", "src/glum/_solvers.py: line_search", "src/glum/_glm.py: _get_start_coef"]}
{"id": "C30", "title": "Closed-form solution is the global optimum", "statement": "The coefficients from the closed form solver satisfy the normal equations of 1/2 sum w (y - Xb)^2 + 1/2 b'P2b with unpenalised intercept and are a global minimiser of it, unique when the system matrix is positive definite.", "quantifier": "all designs, weights, P2", "why_tests_cant": "the claim ranges over a continuum of real inputs; a test samples finitely many points", "anchors": ["src/glum/_linalg.py: _solve_least_squares_tikhonov", "src/glum/_solvers.py: _tikhonov_solver"]}
{"id": "C31", "title": "Monotonic solver: silent success implies feasibility", "statement": "If the monotonic IRLS solver finishes without a non-convergence warning, every inequality row is violated by at most 1e-6; the penalty weight only increases, stays <= 1e9*... and the penalty matrix added equals lambda * sum over violated rows a a'.", "quantifier": "all constraint matrices, all inner behaviours", "why_tests_cant": "any history of violations", "anchors": ["src/glum/_solvers.py: _monotonic_irls_solver", "src/glum/_solvers.py: _build_monotonic_penalty"]}
{"id": "C32", "title": "Monotonic constraint matrix means monotone coefficients", "statement": "The matrix generated for monotonic_constraints satisfies A w <= 0 iff, for each constrained factor, the coefficients of its columns are non-decreasing ('increasing') or non-increasing ('decreasing') in the sorted level order (single-column factors: sign of the coefficient). (Exception, proved as a refutation: a factor with two constrained variables in conflicting directions, where the generated rows contradict each other, finding F18.)", "quantifier": "all column layouts, all factor groupings, all coefficient vectors", "why_tests_cant": "any number of levels and columns", "anchors": ["src/glum/_formula.py: _build_monotonic_constraints"]}
{"id": "C33", "title": "Standardisation is invisible in predictions", "statement": "For every standardized-space coefficient vector, unstandardizing gives an intercept and coefficients whose linear predictor on the raw X equals the linear predictor on the standardized X, for every row, including constant columns.", "quantifier": "all designs, means, standard deviations, coefficients, offsets", "why_tests_cant": "the claim ranges over a continuum of real inputs; a test samples finitely many points", "anchors": ["src/glum/_utils.py: standardize", "src/glum/_utils.py: unstandardize", "src/glum/_utils.py: _one_over_var_inf_to_val"]}
{"id": "C34", "title": "Standardisation preserves the penalty the user asked for", "statement": "With scale_predictors=False the L1 and L2 penalties of the standardized coefficients under the transformed P1/P2 equal the penalties of the unstandardized coefficients under the user's P1/P2 (diagonal and full-matrix P2); hence the whole training objective is preserved.", "quantifier": "all P1, P2, standard deviations, coefficients", "why_tests_cant": "the claim ranges over a continuum of real inputs; a test samples finitely many points", "anchors": ["src/glum/_utils.py: standardize", "src/glum/_utils.py: unstandardize"]}
{"id": "C35", "title": "Standardisation preserves feasibility", "statement": "A standardized coefficient vector satisfies the transformed bounds and inequality constraints iff the unstandardized vector satisfies the user's bounds and constraints.", "quantifier": "all bounds, constraints, standard deviations, coefficients", "why_tests_cant": "the claim ranges over a continuum of real inputs; a test samples finitely many points", "anchors": ["src/glum/_utils.py: standardize", "src/glum/_utils.py: unstandardize"]}
{"id": "C36", "title": "Warm-start rescaling is the inverse of unstandardisation", "statement": "standardize_warm_start maps user-scale coefficients to the standardized coefficients that unstandardize maps back to them, so a warm start (with intercept) reproduces the previous fit's predictions; columns that are numerically constant are the exception: their coefficient c comes back as std*c.", "quantifier": "all coefficients, means, standard deviations", "why_tests_cant": "the claim ranges over a continuum of real inputs; a test samples finitely many points", "anchors": ["src/glum/_utils.py: standardize_warm_start", "src/glum/_utils.py: unstandardize", "src/glum/_glm.py: _get_start_coef"]}
{"id": "C37", "title": "P2 handling", "statement": "The P2 used is symmetric, has the same quadratic form as the user's matrix, scales with alpha*(1-l1_ratio), and a 1-d P2 behaves as the diagonal matrix; default 'identity' is the identity on columns.", "quantifier": "all square matrices, vectors, alpha, l1_ratio, coefficients", "why_tests_cant": "the claim ranges over a continuum of real inputs; a test samples finitely many points", "anchors": ["src/glum/_glm.py: setup_p2", "src/glum/_glm.py: setup_p1", "src/glum/_linalg.py: _safe_sandwich_dot"]}
{"id": "C38", "title": "Per-column penalties of categoricals expand to the right coefficients", "statement": "A penalty vector given per input column is expanded so that each generated coefficient gets its own column's entry; the resulting length equals the number of generated coefficients for any mix of numerical and categorical columns, drop_first and missing-category settings. (A vector whose length happens to equal both counts is read per input column, finding F21.)", "quantifier": "all frames, all level counts, drop_first, missing methods", "why_tests_cant": "any number of columns and levels", "anchors": ["src/glum/_utils.py: expand_categorical_penalties"]}
{"id": "C39", "title": "Regularisation path grid", "statement": "The automatic alpha path has n_alphas entries, starts at the largest alpha, is strictly decreasing, positive, log-equidistant, and ends at max*min_alpha_ratio or min_alpha. This is for 0 < min_alpha_ratio < 1 resp. 0 < min_alpha < max; the code does not check it, and for ratio 1 the grid is constant (finding F20).", "quantifier": "all n_alphas, alpha_max, ratios", "why_tests_cant": "the claim ranges over a continuum of real inputs; a test samples finitely many points", "anchors": ["src/glum/_glm.py: _get_alpha_path"]}
{"id": "C40", "title": "alpha_max kills all penalised coefficients", "statement": "Without offset and with all P1 > 0, at the first alpha of the automatic path the null model (guess_intercept, zero coefficients) satisfies the optimality (KKT) conditions, hence for convex problems is an optimum, and any smaller positive alpha violates them at some feature.", "quantifier": "all datasets, l1_ratio in (0,1]", "why_tests_cant": "the claim ranges over a continuum of real inputs; a test samples finitely many points", "anchors": ["src/glum/_glm.py: _get_alpha_path", "src/glum/_distribution.py: guess_intercept"]}
{"id": "C41", "title": "Lookup of a path entry by alpha", "statement": "Asking for alpha returns the coefficients stored for an alpha within relative tolerance 1e-5 that is nearest, or raises; with neither alpha nor index given the last path entry / the fitted coef is used; alpha_index and alpha together are rejected.", "quantifier": "all alpha paths and requests", "why_tests_cant": "all paths of any length", "anchors": ["src/glum/_glm.py: _find_alpha_index", "src/glum/_glm.py: _resolve_alpha_index", "src/glum/_glm.py: linear_predictor"]}
{"id": "C42", "title": "A regularisation path is a warm-started chain in the given order", "statement": "Path entry k is the solver's output for alpha_k started at entry k-1 (entry 0 at the supplied start); n_iter_ refers to the last solve; coefficients are returned one row per alpha, in order.", "quantifier": "all alpha lists, all solver behaviours", "why_tests_cant": "any path length", "anchors": ["src/glum/_glm.py: _solve_regularization_path"]}
{"id": "C43", "title": "Cross-validation picks the best alpha", "statement": "alpha_ (and l1_ratio_) minimise the average of the fold deviances over the searched grid; ties are broken towards the first l1_ratio and the largest alpha; every row is in exactly one test fold's deviance; the model returned is refitted on all data at that alpha.", "quantifier": "all fold deviance tables", "why_tests_cant": "any table sizes", "anchors": ["src/glum/_glm_cv.py: fit"]}
{"id": "C44", "title": "Predictions are row-local", "statement": "Without an alpha list, predict(X)[i] depends only on row i, its offset and weight and the coefficients: it equals inverse_link(x_i . coef + intercept + offset_i) times sample_weight_i (1 if not given); permuting, splitting or concatenating rows permutes, splits or concatenates predictions. With a list of alphas and no weights entry (i,k) is that prediction for the k-th coefficients. (With weights AND a list of alphas the code broadcasts weights along the alphas, finding F22; an all-zero-weight batch raises, finding F23.)", "quantifier": "all designs, all row permutations and batchings", "why_tests_cant": "unbounded batch sizes and orders", "anchors": ["src/glum/_glm.py: predict", "src/glum/_glm.py: linear_predictor", "src/glum/_glm.py: _compute_linear_predictor"]}
{"id": "C45", "title": "Prediction is independent of the category encoding of the new frame", "statement": "After align_df_categories the codes of a categorical column refer to the training levels: two frames with equal cell values but different category orderings/supersets give the same codes; a value unseen in training raises; training levels not present in the new data do not change anything.", "quantifier": "all level lists, all encodings of columns", "why_tests_cant": "any number of levels, rows and orderings", "anchors": ["src/glum/_utils.py: align_df_categories", "src/glum/_utils.py: add_missing_categories"]}
{"id": "C46", "title": "Wald test", "statement": "The Wald statistic of R b = r is (Rb-r)'(R V R')^{-1}(Rb-r) with df = number of rows; it is invariant under replacing (R, r) by (MR, Mr) for invertible M; testing features by name equals testing the selection matrix that picks their coefficients (with intercept offset), r defaults to zero. (With R the default is not applied: the call raises unless r is given, finding F8.)", "quantifier": "all R, r, b, positive definite V, all feature lists", "why_tests_cant": "the claim ranges over a continuum of real inputs; a test samples finitely many points", "anchors": ["src/glum/_glm.py: wald_test", "src/glum/_glm.py: _wald_test_matrix", "src/glum/_glm.py: _wald_test_feature_names"]}
{"id": "C47", "title": "Covariance matrices", "statement": "The robust and clustered covariance matrices are symmetric positive semi-definite; the clustered one with singleton clusters (codes 0..n-1) equals the robust one up to the documented correction; relabelling clusters by a permutation of codes 0..G-1 changes nothing; non-robust = dispersion * inverse information.", "quantifier": "all designs, scores, cluster assignments", "why_tests_cant": "the claim ranges over a continuum of real inputs; a test samples finitely many points", "anchors": ["src/glum/_glm.py: covariance_matrix", "src/glum/_glm.py: _group_sum"]}
{"id": "C48", "title": "Coefficient table consistency", "statement": "The (1-a) confidence interval is centred at the coefficient, and excludes zero iff the reported p-value is < a; the z/t statistic is coef/se.", "quantifier": "all coefficients, standard errors, levels", "why_tests_cant": "the claim ranges over a continuum of real inputs; a test samples finitely many points", "anchors": ["src/glum/_glm.py: coef_table"]}
{"id": "C49", "title": "Information criteria describe the current fit", "statement": "aic/bic/aicc of a data set = -2 ll + 2k, + log(n) k, + the small-sample correction with k counting non-zero coefficients (plus intercept); after any history of fit and query calls the returned values belong to the most recent fit.", "quantifier": "all histories of fit/aic/bic/aicc calls", "why_tests_cant": "any call history", "anchors": ["src/glum/_glm.py: _compute_information_criteria", "src/glum/_glm.py: _get_info_criteria", "src/glum/_glm.py: aicc", "src/glum/_glm.py: fit"]}
{"id": "C50", "title": "Input validation accepts exactly the admissible inputs", "statement": "check_weights accepts exactly non-negative, not all zero vectors of the right length (positive scalars are broadcast, None is all ones); check_bounds leaves None (no bounds) and broadcasts scalars, accepting otherwise only vectors of the right length; check_offset leaves None, broadcasts scalars and accepts otherwise only vectors with one entry per row; inequality constraints are accepted only in pairs with matching shapes; in_y_range is exactly the family's support; Tweedie powers in (0,1) are rejected.", "quantifier": "all inputs", "why_tests_cant": "the claim ranges over a continuum of real inputs; a test samples finitely many points", "anchors": ["src/glum/_validation.py: check_weights", "src/glum/_validation.py: check_bounds", "src/glum/_validation.py: check_offset", "src/glum/_validation.py: check_inequality_constraints", "src/glum/_distribution.py: in_y_range", "src/glum/_distribution.py: TweedieDistribution.power"]}
{"id": "C51", "title": "Solver choice", "statement": "solver='auto' picks irls-cd whenever an L1 penalty, bounds are present, trust-constr/closed form/monotonic only in their documented cases; an L1 penalty is never fitted by a solver that ignores it (it is rejected instead).", "quantifier": "all hyper-parameter combinations", "why_tests_cant": "full product of settings", "anchors": ["src/glum/_glm.py: _set_up_for_fit", "src/glum/_glm.py: fit", "src/glum/_glm.py: _solve"]}
{"id": "C52", "title": "Default link and family resolution", "statement": "family strings and the 'auto' link resolve to the documented canonical or log link for every family and power; strings without a parametrised name anywhere in them raise. (The pattern is searched anywhere in the string, so misspelt names around one are accepted, finding F29; for Tweedie powers below 0 the automatic link leaves the range of the mean.)", "quantifier": "all families, powers, strings", "why_tests_cant": "the claim ranges over a continuum of real inputs; a test samples finitely many points", "anchors": ["src/glum/_glm.py: get_family", "src/glum/_glm.py: get_link"]}
{"id": "C53", "title": "The training objective is convex for the log-concave pairs", "statement": "For Normal/identity, Poisson/log, Gamma/log, Tweedie(1<p<2)/log, Binomial/logit, the weighted deviance plus L2 (PSD P2) plus L1 is convex in the coefficients, so every stationary point is a global minimum; with positive definite P2 the optimum is unique.", "quantifier": "all designs, weights, penalties, pairs of coefficient vectors", "why_tests_cant": "the claim ranges over a continuum of real inputs; a test samples finitely many points", "anchors": ["src/glum/_solvers.py: _get_obj_and_derivative", "src/glum/_functions.pyx: *_rowwise_gradient_hessian"]}
{"id": "C54", "title": "Objective/gradient handed to L-BFGS and trust-constr", "statement": "The gradient function returned together with the objective is the gradient of exactly that objective (deviance/2 + L2 term), intercept unpenalised.", "quantifier": "all designs, coefficients, weights, offsets", "why_tests_cant": "the claim ranges over a continuum of real inputs; a test samples finitely many points", "anchors": ["src/glum/_solvers.py: _get_obj_and_derivative", "src/glum/_solvers.py: _lbfgs_solver"]}
{"id": "C55", "title": "A fit returned without a warning is near-optimal", "statement": "For a convex problem (C53), when the IRLS solver returns without a non-convergence warning and step_size_tol is not used, the training objective of the returned coefficients exceeds that of any feasible competitor by at most gradient_tol times the largest coordinate distance to it; with irls-cd and a feasible start the returned coefficients are themselves feasible.", "quantifier": "all data sets, weights, offsets, penalties, bounds, starts, seeds, tolerances; all convex family/link pairs", "why_tests_cant": "Optimality compares with uncountably many competitors, and the guarantee must hold for every history of the loop that ends without a warning.", "anchors": ["src/glum/_solvers.py:_irls_solver", "src/glum/_solvers.py:check_convergence", "src/glum/_cd_fast.pyx:_norm_min_subgrad"]}
{"id": "C56", "title": "A silent fit is an optimum of the objective the user specified", "statement": "For convex family/link pairs, a fit with solver irls-cd that returns without convergence warning (gradient criterion) satisfies the user's bounds and its objective on the raw, unstandardized data (half deviance plus the user's L1 and L2 penalties) exceeds that of any feasible competitor by at most gradient_tol times the distance to it in standardized units.", "quantifier": "all datasets, families/links with convex likelihood, penalties, bounds containing 0 (default start) or sign bounds (any start), random or cyclic selection and all seeds, competitors", "why_tests_cant": "ranges over all datasets and all competitors; tests compare a few fits with stored coefficients", "anchors": ["src/glum/_glm.py:GeneralizedLinearRegressor.fit", "src/glum/_utils.py:standardize,unstandardize", "src/glum/_solvers.py:_irls_solver", "src/glum/_cd_fast.pyx:enet_coordinate_descent_gram"]}
{"id": "C57", "title": "Returned coefficients satisfy the bounds", "statement": "Whatever the start (default, start_params, warm start) and the bounds, fit with solver irls-cd returns coefficients within lower_bounds/upper_bounds.", "quantifier": "all datasets, bounds, starts, iteration limits", "why_tests_cant": "must hold for every start and every column scale", "anchors": ["src/glum/_glm.py:GeneralizedLinearRegressorBase._get_start_coef", "src/glum/_glm.py:GeneralizedLinearRegressor.fit", "src/glum/_utils.py:standardize"]}
{"id": "C58", "title": "Row order is irrelevant for a fit", "statement": "Permuting the rows of X, y, sample_weight and offset together leaves the fitting problem unchanged and, in exact arithmetic with exact Hessian updates, the whole run of irls-cd: same coefficients, same intercept, same convergence verdict.", "quantifier": "all datasets, all permutations, families, links, penalties, bounds, starts, seeds", "why_tests_cant": "ranges over all datasets and permutations and over every iteration of the solver", "anchors": ["src/glum/_glm.py:GeneralizedLinearRegressor.fit", "src/glum/_solvers.py:_irls_solver", "src/glum/_distribution.py:guess_intercept"]}
{"id": "C59", "title": "A stored covariance belongs to the stored coefficients", "statement": "After any history of fit (including fits that raise), information-criterion, covariance_matrix and predict calls, if the estimator stores a covariance matrix then it is the result of a requested covariance computation at the coefficients that are stored now. (Exception, proved as a refutation: a warm-started fit that clips the stored coefficients in place and then raises, finding F25.)", "quantifier": "all histories of calls, with failures at any step of fit, in which no warm start without intercept clips the old coefficients to bounds (that case is refuted)", "why_tests_cant": "any call history and any failure point", "anchors": ["src/glum/_glm.py: fit", "src/glum/_glm.py: covariance_matrix", "src/glum/_glm.py: _get_start_coef"]}
{"id": "C60", "title": "A fit that raises keeps the old estimates", "statement": "A fit that raises leaves coefficients, intercept, stored covariance and information criteria as they were, unless only the covariance computation failed, in which case the new coefficients are stored without a covariance; if the hyper-parameters are rejected nothing at all changes.", "quantifier": "all estimator states, all calls of fit, all points of failure", "why_tests_cant": "any failure point in any state", "anchors": ["src/glum/_glm.py: fit", "src/glum/_glm.py: _set_up_and_check_fit_args", "src/glum/_glm.py: _set_up_for_fit", "src/glum/_glm.py: _solve"]}
{"id": "C61", "title": "Refitting equals fitting anew", "statement": "Without warm_start, fit on an already used estimator has the same outcome, estimates, feature names, covariance and predictions as on a new estimator. (Provided that no earlier fit used a formula: its model spec is kept, finding F12. Information criteria are excluded, see C49.)", "quantifier": "all histories without formula fits, all calls of fit", "why_tests_cant": "any call history", "anchors": ["src/glum/_glm.py: fit", "src/glum/_glm.py: _convert_from_df", "src/glum/_glm.py: _set_up_and_check_fit_args"]}
{"id": "C62", "title": "Likelihood equations: fits without a warning are balanced", "statement": "When irls-cd returns without a convergence warning, the weighted training residuals balance: for normal/identity, Poisson/log and binomial/logit fits with an intercept, the weighted mean of the predictions equals the weighted mean of y up to gradient_tol; the same holds within every unpenalised, unbounded 0/1 column (each level of an unpenalised categorical), and for the other convex pairs with the residuals weighted by the working weights.", "quantifier": "all data sets, weights, offsets, penalties on other columns, start values, settings with step_size_tol=None, all convex family/link pairs", "why_tests_cant": "a property of every returned fit on every data set; tests check a few data sets", "anchors": ["src/glum/_solvers.py: _irls_solver, check_convergence", "src/glum/_glm.py: fit", "src/glum/_utils.py: unstandardize"]}
{"id": "C63", "title": "Two silent fits of the same model agree", "statement": "Two fits of the same data and penalty that both return without a warning - with different start values, tolerances, hessian_approx or selection seeds - have objectives equal up to gradient_tol times their distance, and if the L2 penalty is positive definite (no intercept) every coefficient agrees to within (gtol1+gtol2)*scale/m.", "quantifier": "all data sets, penalties, pairs of settings and start values, convex pairs", "why_tests_cant": "ranges over all pairs of runs", "anchors": ["src/glum/_solvers.py: _irls_solver, _cd_solver", "src/glum/_glm.py: fit"]}
{"id": "C64", "title": "A larger alpha never raises the penalty term or lowers the training deviance", "statement": "For two silent fits of the same model at alpha < alpha', the penalty term of the second is not larger and the training deviance of the first is not larger, up to gradient_tol times the distance of the fits.", "quantifier": "all data sets, pairs of alphas, start values, convex pairs", "why_tests_cant": "ranges over all pairs of alphas and data sets", "anchors": ["src/glum/_glm.py: setup_p1, setup_p2", "src/glum/_solvers.py: _irls_solver"]}
{"id": "C65", "title": "Fits do not depend on the units of the columns", "statement": "Multiplying columns by positive factors (with scale_predictors=True) or, with an intercept, shifting columns changes neither whether fit succeeds, raises or warns, nor any prediction; coefficients are divided by their factors (bounds divided likewise).", "quantifier": "all data sets, all positive factors and shifts with column standard deviations above the threshold, all settings, all penalties", "why_tests_cant": "all data sets and all transformations", "anchors": ["src/glum/_utils.py: standardize, unstandardize", "src/glum/_glm.py: fit"]}
{"id": "C66", "title": "log_likelihood is the log density of the named distribution", "statement": "family.log_likelihood(y, mu, weights, dispersion) is the weighted sum of the log densities (masses) of the normal, Poisson, gamma, inverse Gaussian, Bernoulli or negative binomial distribution with mean mu and the given dispersion, including all normalising constants; the discrete ones sum to one and have mean mu and variance unit_variance(mu).", "quantifier": "all data sets, means, weights, dispersions, theta; all counts", "why_tests_cant": "values are compared at a few points only; the sums are infinite", "anchors": ["src/glum/_functions.pyx: normal_log_likelihood, poisson_log_likelihood, gamma_log_likelihood, inv_gaussian_log_likelihood, negative_binomial_log_likelihood", "src/glum/_distribution.py: log_likelihood"]}
{"id": "C67", "title": "The truncated Tweedie series is accurate", "statement": "For 1<p<2 the two while loops that choose the summation range end for every y>0, dispersion and power, and the log-likelihood of any data set is within 2e^-37/(1-e^-37) per unit weight of the exact log density given by the infinite series.", "quantifier": "all powers in (1,2), dispersions, means, data sets; unbounded loops and an infinite series", "why_tests_cant": "termination and a truncation error over a continuum of parameters", "anchors": ["src/glum/_functions.pyx: _tweedie_normalization, _sum_limits, _log_w_j, _log_z, tweedie_log_likelihood"]}
{"id": "C68", "title": "Exposure: offset and rate formulations agree", "statement": "With a log link and a family with variance mu^p, fitting totals with offset log(exposure) and fitting rates y/exposure with weights w*exposure^(2-p) minimise the same objective up to a positive factor c (alpha divided by c), so a fit of one that ends without a convergence warning is near-optimal for the other.", "quantifier": "all data sets, exposures, weights, offsets, penalties, powers p >= 0 and coefficient vectors", "why_tests_cant": "equality of two objectives over all data and coefficients", "anchors": ["src/glum/_glm.py: GeneralizedLinearRegressor.fit, _set_up_for_fit", "src/glum/_distribution.py: TweedieDistribution.unit_deviance", "src/glum/_solvers.py: _irls_solver"]}
{"id": "C69", "title": "Units of the response", "statement": "With a log link and variance mu^p, multiplying every response by s > 0 and alpha by s^(2-p) changes the fitted model only by moving the intercept by log s; for the normal family with identity link, multiplying responses, offsets and L1 weights by s multiplies the coefficients by s.", "quantifier": "all data sets, scales, penalties, coefficient vectors", "why_tests_cant": "an equivariance over a continuum of inputs", "anchors": ["src/glum/_glm.py: GeneralizedLinearRegressor.fit", "src/glum/_distribution.py: unit_deviance", "src/glum/_link.py: LogLink, IdentityLink"]}
{"id": "C70", "title": "A silent fit is near-optimal whichever solver made it", "statement": "Whatever solver is used (closed-form, irls-ls, irls-cd, lbfgs, trust-constr), a fit of a convex model that returns without a warning is feasible and its objective, in the user's units, exceeds that of any admissible competitor by at most gradient_tol times the distance (times the number of coefficients for the scipy solvers, not at all for the closed form); a silent irls-ls-monotonic fit satisfies every inequality up to 1e-6.", "quantifier": "all data, penalties, bounds, inequality constraints, settings, starting values, seeds and external libraries meeting their documented contracts", "why_tests_cant": "optimality against every competitor, for every data set and solver run", "anchors": ["src/glum/_glm.py: GeneralizedLinearRegressorBase._solve, fit", "src/glum/_solvers.py: _irls_solver, _lbfgs_solver, _trust_constr_solver, _monotonic_irls_solver, _tikhonov_solver"]}
{"id": "C71", "title": "Solvers agree", "statement": "Two silent fits of the same convex model by any two solvers, with any settings, starts and seeds, have objectives that differ by at most their tolerances times the distance of their coefficients, and training predictions whose distance in deviance is at most the same in both directions; without intercept and with an L2 penalty of at least m on every coefficient their coefficients differ by at most the sum of the tolerances times the largest column scale divided by m.", "quantifier": "all data, penalties, pairs of solvers, settings, starts, seeds", "why_tests_cant": "a statement about all pairs of runs on all data sets", "anchors": ["src/glum/_glm.py: GeneralizedLinearRegressorBase._solve", "src/glum/_solvers.py: _irls_solver, _lbfgs_solver, _trust_constr_solver, _tikhonov_solver"]}
{"id": "C72", "title": "Gaussian models take one iteration", "statement": "For the normal family with identity link the irls solvers are run with a single iteration: without L1 penalty and bounds irls-ls then never warns and returns the exact least squares (ridge) solution or a start that already passes the stopping test. (With an L1 penalty and irls-cd this is false: a feature screened out of the only iteration makes the fit end with a ConvergenceWarning that no max_iter can remove.)", "quantifier": "all data, weights, offsets, L2 penalties, starting values, max_iter", "why_tests_cant": "convergence in one step for every data set", "anchors": ["src/glum/_glm.py: GeneralizedLinearRegressorBase._solve (max_iter = 1)", "src/glum/_solvers.py: _irls_solver, _least_squares_solver, line_search, identify_active_set"]}
{"id": "C73", "title": "Fit and predict do not modify the arrays passed in", "statement": "fit (single alpha or alpha search, any solver) and predict write into no array the caller holds: X, y, sample_weight, offset, P1, P2, bounds and start_params are the same after the call, and the arrays returned (coef_, coef_path_, predictions) share no memory with them. Despite the in-place arithmetic inside (scaling of penalties and start values, one array for the whole path that is transformed in place, arrays handed back by solvers) the result is the one computed from the values passed. Exception made explicit: a warm-started model without intercept starts from, and writes into, the coef_ array of the previous fit.", "quantifier": "all heaps, all argument arrays and aliasings among them, all copy decisions of the conversions, all solvers, all grids of alphas", "why_tests_cant": "Aliasing depends on dtype, memory order and which optional arguments are given; a test fixes one combination, and a silent write shows only if the caller reuses the array.", "anchors": ["src/glum/_glm.py: fit, _set_up_for_fit, _solve_regularization_path, _get_start_coef, predict, linear_predictor", "src/glum/_utils.py: standardize, unstandardize, standardize_warm_start", "src/glum/_validation.py: check_bounds, check_inequality_constraints", "src/glum/_glm.py: setup_p1, setup_p2"]}
{"id": "C74", "title": "Cross-validation does not depend on n_jobs or on the schedule of its jobs", "statement": "For every n_jobs, every batching of the (fold, l1_ratio) jobs over worker processes and every interleaving of the workers, the caller gets, in the order of the jobs, exactly the coefficient paths, test deviances and train deviances that each job computes alone from its own rows; an exception is raised iff some job alone raises. Attributes of the estimator left over from earlier fits or from earlier jobs in the same batch (col_means_, col_stds_, coef_path_, a coef_ clipped in place by a warm start) have no influence. Hence deviance_path_, alpha_, l1_ratio_ and the refit are the same for every n_jobs.", "quantifier": "all lists of jobs, all assignments to batches and workers, all initial states of the workers' estimators, all schedules, all solvers, all failures", "why_tests_cant": "The result could depend on which job of a batch ran before, or on an interleaving; tests run one n_jobs with one schedule.", "anchors": ["src/glum/_glm_cv.py: GeneralizedLinearRegressorCV.fit (_fit_path, joblib.Parallel)", "src/glum/_glm.py: _solve_regularization_path, _get_start_coef", "src/glum/_utils.py: unstandardize"]}
{"id": "C75", "title": "Compiled kernels do not depend on threads or schedules", "statement": "However many threads OpenMP uses for the loops over the rows, however it divides the rows among them and however the threads' loads and stores interleave: no two threads ever access the same array element with one of them writing, the loop ends, and the linear predictors, means, gradients, Hessian weights, active rows, deviance and log-likelihood that come out are those of the sequential loop (in exact arithmetic); the argument arrays are not changed, nor anything beyond the rows.", "quantifier": "all families and links with a compiled kernel, all data, all numbers of threads, all divisions of the rows, all interleavings at the granularity of single loads and stores, all orders of adding the partial sums", "why_tests_cant": "A test sees the few interleavings the machine happens to produce; a race may show up only under rare schedules.", "anchors": ["src/glum/_functions.pyx (all prange loops)", "src/glum/_cd_fast.pyx: identify_active_rows", "src/glum/_distribution.py: _eta_mu_deviance, _rowwise_gradient_hessian, deviance, log_likelihood"]}
{"id": "C76", "title": "Which P2 a fit accepts", "statement": "With check_input=True a fit gets past P2 exactly if P2 is 1-d with one entry per coefficient or a square matrix of that order, and the quadratic form of (1-l1_ratio)*P2 is non-negative (for matrices of order above one: not below -10*2^-53 times the squared length). Every positive semi-definite P2 is accepted and the penalty then used is convex; a P2 with a direction of negative curvature beyond the tolerance is refused; only the symmetric part of P2 matters.", "quantifier": "all P2 arguments of every order, all l1_ratios, all directions", "why_tests_cant": "Semi-definiteness is a statement about all vectors, for matrices of every size.", "anchors": ["src/glum/_linalg.py: is_pos_semidef", "src/glum/_glm.py: setup_p2, fit", "src/glum/_glm_cv.py: fit"]}
{"id": "C77", "title": "Standard errors do not depend on how the rows are written down", "statement": "covariance_matrix (hence std_errors, coef_table and Wald tests) is unchanged when the rows are reordered together with weights, means and cluster labels; without clusters, rows of weight zero can be left out; for the non-robust matrix an integer weight is the same as repeating the row.", "quantifier": "all families, links, data sets, dispersions (given or estimated), permutations, multiplicities; robust, clustered and non-robust matrices", "why_tests_cant": "It must hold for all data sets and all permutations; a test fixes a few.", "anchors": ["src/glum/_glm.py: covariance_matrix, std_errors, _group_sum", "src/glum/_distribution.py: _fisher_information, _observed_information, _score_matrix, dispersion"]}
{"id": "C78", "title": "Pickles of this and older versions load correctly", "statement": "Pickling and loading an estimator gives back exactly its attributes, whatever its history (including estimators that were themselves loaded from an old pickle and used further). The pickle of an older 3.x version (feature_dtypes_ instead of _categorical_levels_, possibly without max_inner_iter and monotonic_constraints) loads; categorical_levels_ then lists exactly the categorical columns of the training frame, in order, with their categories, as the current version would have stored them; feature_dtypes_ stays readable; every other attribute is unchanged and only the two missing hyper-parameters get their defaults; and new frames are encoded exactly as by the current version fitted on the same frame.", "quantifier": "all attribute dictionaries, all histories of attribute writes and reloads, all training frames and all frames to predict on", "why_tests_cant": "Tests load one stored pickle; the claim is about all states and all histories.", "anchors": ["src/glum/_glm.py: GeneralizedLinearRegressorBase.__setstate__, categorical_levels_, feature_dtypes_, _convert_from_df"]}
{"id": "C79", "title": "The diagnostics describe the run", "statement": "After a fit with an IRLS solver, report_diagnostics shows n_iter_+1 rows numbered from 0; row k describes the k-th iterate (objective_fct is the documented objective up to a constant of the data, in the user's units), the last row the returned coefficients; n_iter_ is at most max_iter (1 for a Gaussian identity model). No ConvergenceWarning is raised exactly if the last row passes the stopping test, and no earlier row passes it. With irls-cd the objective column decreases (up to machine precision) unless a line search warned. Unfitted estimators and other solvers give a message. In the full report every column is the quantity of its name row by row; custom columns come in the order asked for, and the only error is a name that is not a column.", "quantifier": "all data sets, families, links, penalties, starts, settings and external solvers, every iteration", "why_tests_cant": "The table's length and contents depend on the whole run; tests see a few runs.", "anchors": ["src/glum/_glm.py: get_formatted_diagnostics, report_diagnostics, _solve", "src/glum/_solvers.py: IRLSState._record_iteration, _irls_solver, _monotonic_irls_solver"]}
{"id": "C80", "title": "The training score of a silent fit", "statement": "With an intercept and no offset, score(X, y, sample_weight) of a fit that raised no warning, on its own training data, is at least 0 up to the tolerance (2 * tolerance * distance / null deviance), for every penalty, convex family/link pair, solver and feasible constraint set that admits zero coefficients. It is at most 0 when all coefficients are zero. Along a grid of alphas it does not increase with alpha, up to the tolerance. With an offset, the training deviance never exceeds that of any intercept-only model with the same offset (but score compares with a null model without the offset, so it can be arbitrarily negative).", "quantifier": "all data sets, weights, penalties, pairs of alphas, convex family/link pairs, the five solvers without monotonic constraints, all starts and seeds", "why_tests_cant": "Tests check the score of a few fits; the bound has to hold for every data set and every penalty.", "anchors": ["src/glum/_glm.py: score, _solve", "src/glum/_distribution.py: deviance"]}
{"id": "C81", "title": "Predictions of silent fits do not depend on how the columns are written", "statement": "The training predictions of a fit that raised no warning are close in deviance (within 2 * tolerance * distance) to those of every admissible model with an objective that is not larger, in particular to those of every exact optimum, also when the coefficients are not unique. Two silent fits of the same unpenalised model whose columns span the same space (dropping a categorical level or not, another reference level, redundant columns, other units), with any two solvers, agree in their training predictions and deviance within the sum of their tolerances. With an intercept, dropping one column of a group that sums to one on every row spans the same space. Least squares by the closed form gives exactly the same predictions on all rows with positive weight.", "quantifier": "all data sets, weights, offsets, pairs of designs related by affine maps in both directions, convex family/link pairs, pairs of solvers without monotonic constraints, all starts and seeds", "why_tests_cant": "Tests compare a few designs numerically; that coding does not matter has to hold for every pair of designs and every data set.", "anchors": ["src/glum/_glm.py: _solve, predict, linear_predictor", "src/glum/_solvers.py: _least_squares_solver, _irls_solver, _lbfgs_solver, _trust_constr_solver", "src/glum/_formula.py", "src/glum/_glm.py: drop_first"]}
{"id": "C82", "title": "The stored power or dispersion parameter is the nearest single-precision number", "statement": "TweedieDistribution(power) and TweedieLink(power) accept exactly the numbers outside the open interval (0, 1) (other numbers raise ValueError, non-numbers TypeError); integers are stored as they are and other finite numbers as the nearest float32, which is again an acceptable power, so storing it a second time changes nothing. For 1 < power < 2 the stored power is within 2^-24 and is 2 exactly when power >= 2 - 2^-24 and 1 exactly when power <= 1 + 2^-24. NegativeBinomialDistribution(theta) accepts exactly the positive numbers and stores the nearest float32; this is positive exactly when theta > 2^-150.", "quantifier": "all Python arguments: integers, finite, infinite and NaN floats, non-numbers", "why_tests_cant": "Tests try a few powers; the boundary behaviour of a cast after a check concerns every double close to 1, 2 and 0.", "anchors": ["src/glum/_distribution.py: TweedieDistribution.power, NegativeBinomialDistribution.theta", "src/glum/_link.py: TweedieLink.__init__"]}
{"id": "C83", "title": "Sums over rows in floating point do not depend on the threads beyond a rounding bound", "statement": "With every addition rounded to nearest, the deviance-like reductions over the rows differ from the exact sum of the row terms by at most ((1 + 2^-p)^(longest share of a thread + number of threads) - 1) times the sum of their absolute values, however the rows are divided among threads and in whatever order the shares are added; any other order of additions satisfies the same bound with the depth of its tree. Two runs with different thread counts or schedules differ by at most the sum of the two bounds (bit-for-bit reproducibility is false). The computed normal deviance has relative error at most (1 + 2^-p)^(that + 4) - 1 when no product underflows.", "quantifier": "all numbers of rows, row terms, divisions of rows among threads, orders of addition, precisions p >= 2", "why_tests_cant": "Thread schedules and rounding patterns cannot be enumerated.", "anchors": ["src/glum/_functions.pyx: prange reductions, normal_deviance"]}
{"id": "C84", "title": "Coefficient bounds in floating point", "statement": "With every arithmetic operation of the irls-cd step rounded to nearest: coordinate descent returns coefficients exactly within the bounds it is given; coefficients constrained to be nonnegative (lower bound 0) or nonpositive (upper bound 0) have exactly that sign at every iteration and after the transformation back to the original scale; a full step lands on the coordinate-descent solution exactly when it is within a factor two of the old coefficient and otherwise within two roundings; a positive lower bound is respected up to a relative error 3 * 2^-p after standardisation, but not exactly. When a call stops before its sweep limit, every component of the minimum-norm subgradient, computed exactly from the returned coefficients and the gradients of the loop, is at most the tolerance up to one rounding; in cyclic order the call never continues with all coefficients zero and a norm within the tolerance.", "quantifier": "all data of one fit (scores, Hessians, active sets, tolerances, seeds, step sizes of every iteration), bounds, column scales, precisions p >= 2", "why_tests_cant": "Tests compare with a tolerance; exact sign under rounding must hold for every input.", "anchors": ["src/glum/_cd_fast.pyx: enet_coordinate_descent_gram", "src/glum/_solvers.py: _irls_solver, line_search", "src/glum/_utils.py: standardize, unstandardize, _one_over_var_inf_to_val"]}
{"id": "C85", "title": "Monotonic constraints make the predictions monotone", "statement": "After a fit with monotonic_constraints that raises no constraint warning, moving one constrained variable in a formula while everything else stays the same moves the linear predictor in the requested direction, up to a slack of 1e-6 (solver irls-ls-monotonic) or gradient_tol (trust-constr) times the amount moved: for a numeric variable when it grows; for a categorical variable with a column for every level when the level moves up in the order of the levels; for a B-spline basis with all its functions when x grows; in each case wherever the other factors of the interactions are nonnegative. Under every link but TweedieLink the predicted mean follows (additively for the identity link, up to the factor exp(slack) otherwise). Comparisons with a dropped reference level, or splines with a dropped first basis function, need in addition that the first coefficient has the sign of the direction, which the constraint does not enforce.", "quantifier": "all formulas (column names), constraint dictionaries, data, coefficient vectors reachable by a silent fit, values of the moved variable and of all other factors, spline degrees and knots", "why_tests_cant": "Tests compare neighbouring coefficients of a few fits; that ordered coefficients give ordered predictions for every x, degree, knot vector and interaction is a mathematical statement.", "anchors": ["src/glum/_formula.py: _build_monotonic_constraints, _group_columns_by_factor, _sort_key", "src/glum/_solvers.py: _monotonic_irls_solver", "src/glum/_glm.py: linear_predictor, predict"]}
{"id": "C86", "title": "What a silent fit by irls-ls-monotonic minimises", "statement": "When solver irls-ls-monotonic returns without ConvergenceWarning on a convex model (no L1 penalty, no bounds, gradient test), there are a penalty weight between 1e5 and 1e9 and a set of constraint rows such that, up to gradient_tol times the distance, the returned coefficients are at most as bad as any others on the training objective plus the linear pull of those rows. Consequently they are near-optimal among the feasible coefficients that are nowhere further inside the constraints, and among all feasible coefficients when no row is strictly inside at the solution. Without that condition near-optimality under the constraints fails: a fit with no warning of any kind can return a strictly feasible slope of about 4.5e-8 where the best feasible (indeed unconstrained) slope is 9/5, because rows violated at the last iterate are penalised as equations and never released.", "quantifier": "all data, weights, offsets, families and links that are convex, L2 penalties, constraint matrices, starting values, settings, sound linear solvers, competitors", "why_tests_cant": "Tests compare a few monotone fits with trust-constr; how far a run with an arbitrary history of violated rows can end from the optimum needs the invariant of the penalty and a proof over all competitors.", "anchors": ["src/glum/_solvers.py: _monotonic_irls_solver, _build_monotonic_penalty, _update_constraint_penalty", "src/glum/_glm.py: GeneralizedLinearRegressor.fit (solver irls-ls-monotonic)"]}
{"id": "C87", "title": "The power link on linear predictors of any sign", "statement": "TweedieLink(p).inverse, inverse_derivative and inverse_derivative2 accept every array for p = 0 and p = 1. For any other admissible p all three raise ValueError on exactly the same arrays: those with a negative entry, unless p is 2, 3/2, 4/3, ... (1 + 1/n). On positive entries they are the real power function and its derivatives; a zero gives mean 0 for p < 0 and infinity for p > 1; for p = 1 + 1/n a negative eta gives 1/eta^n, so the mean is negative for odd n and link(inverse(eta)) is eta only for p = 2, -eta for even n and nan for odd n >= 3. Wherever the value is defined near eta, the reported derivatives are the derivatives of the reported values. The answer for an array is the answer for each row. That the mean is always positive when p is not 0 is false.", "quantifier": "all powers accepted by the constructor, all arrays of finite linear predictors of any sign, all positions", "why_tests_cant": "Tests evaluate a few powers at a few positive points; the boundary between raising, nan, a negative mean and a duplicated mean depends on whether 1/(1-p) is an integer and on its parity, over a continuum of p and eta.", "anchors": ["src/glum/_link.py: TweedieLink.inverse, inverse_derivative, inverse_derivative2, link, catch_p"]}
{"id": "C88", "title": "Exchanging the two outcomes of a logistic regression mirrors the fit", "statement": "For the binomial family with the logit link, fitting 1 - y instead of y, with the offset negated, an interval [l, u] for a coefficient replaced by [-u, -l], linear constraints A coef <= b by -A coef <= b and given starting values negated, returns exactly minus the intercept and minus the coefficients, with the same warnings, for every solver, penalty, weights and settings, and raises exactly when the original fit raises. The default starting value is mirrored by itself. Predictions are the complementary probabilities with the same clipping warning; deviance, score and log-likelihood are unchanged. So which class is called 1 does not matter. For the complementary log-log link this is false.", "quantifier": "all data, weights, offsets, penalties (also non-diagonal P2), ordered bounds, linear constraints, starting values, all seven solver settings, all iteration limits and tolerances; external routines that treat a problem and its mirror image alike", "why_tests_cant": "A test compares two fits on one data set up to a tolerance; the claim is equality of every iterate (active sets, line searches, stopping tests, penalties of violated constraints) for all data and settings.", "anchors": ["src/glum/_solvers.py: _irls_solver, _cd_solver, _least_squares_solver, _monotonic_irls_solver, line_search, identify_active_set, _lbfgs_solver, _trust_constr_solver", "src/glum/_cd_fast.pyx: enet_coordinate_descent_gram, _norm_min_subgrad", "src/glum/_functions.pyx: binomial_logit_eta_mu_deviance, binomial_logit_rowwise_gradient_hessian", "src/glum/_distribution.py: guess_intercept, BinomialDistribution", "src/glum/_glm.py: _get_start_coef, _solve", "src/glum/_utils.py: standardize, unstandardize"]}
{"id": "C89", "title": "The order of the columns does not matter", "statement": "Fitting with the columns of X in another order, penalties, bounds and constraint columns moved along, is the same model: the objective at correspondingly ordered coefficients is equal, a fit of the reordered model that ends without a warning is, read back in the original order, as close to optimal for the original model as the guarantee for a fit of the original model (C70), and two silent fits in two orders, by any two solvers, agree in the objective, in the coefficients as far as the L2 penalty determines them, and in the predictions, up to the sum of the two tolerances. (Coordinate descent visits columns in order, so the iterates themselves may differ.)", "quantifier": "all permutations of the columns, all data, weights, penalties (also non-diagonal P2), bounds, linear constraints, solvers, settings, seeds and admissible starts; convex family-link pairs", "why_tests_cant": "A test tries one permutation of one data set; iterates of irls-cd depend on the order, so agreement has to come from the stopping criterion for all data.", "anchors": ["src/glum/_glm.py: fit, _solve", "src/glum/_solvers.py", "src/glum/_cd_fast.pyx: enet_coordinate_descent_gram", "src/glum/_utils.py: standardize"]}
{"id": "C90", "title": "A constant added to the offset moves into the intercept", "statement": "For a model with an intercept, adding t to every offset is the same model with an intercept lower by t. The objective is equal; a silent fit of the shifted model, t added to its intercept, is as close to optimal for the original model as C70 promises for a fit of it, and two silent fits by any two solvers agree as in C71. With irls-ls and with monotonic constraints the two fits are the same run: same iterations, warnings and exceptions, coefficients equal and intercepts exactly t apart, if the starts are t apart. The default start is t apart for the identity, log and logit links (and offset=None is the same as zeros); for the other links the default start ignores the offset.", "quantifier": "all t, data, weights, offsets, penalties, bounds, constraints, settings, starts and solvers; for the exact part all families and links and every linear solver", "why_tests_cant": "A test tries one t on one data set; that every iterate, line search and convergence decision agrees is a statement about all runs.", "anchors": ["src/glum/_distribution.py: guess_intercept", "src/glum/_glm.py: fit, _get_start_coef", "src/glum/_solvers.py: _irls_solver, eta_mu_objective", "src/glum/_utils.py: standardize_warm_start"]}
{"id": "C91", "title": "Aggregating rows", "statement": "Rows with identical features and offset may be replaced by one row with their total weight and the weighted mean of their responses. Column means and scales, the score and the Hessian are equal at every coefficient vector for every family and link; differences of the training objective are equal; a silent fit of the aggregated data by any solver is as close to optimal for the full data as C70 promises for a fit of it, and two silent fits agree. For Poisson, gamma, Tweedie (1<=p<=2) and negative binomial with the log link and binomial with the logit link the irls-cd fits are the same run with the same result, from any start, unless every cell has the same mean, when the aggregated fit raises 'No variation in y'. The Pearson dispersion drops by exactly the spread inside the cells.", "quantifier": "all lists of cells of any size, weights, offsets, penalties, bounds, settings, starts, solvers; families and links as stated", "why_tests_cant": "A test compares two fits of one data set up to a tolerance; equality of every iterate and of the objective differences at every coefficient vector is a statement about all data and runs.", "anchors": ["src/glum/_functions.pyx: *_rowwise_gradient_hessian, *_eta_mu_deviance", "src/glum/_distribution.py: guess_intercept, dispersion", "src/glum/_solvers.py: _irls_solver", "src/glum/_glm.py: fit"]}
{"id": "C92", "title": "Validation of the design matrix and the target", "statement": "For a matrix built from dense, sparse, categorical, split and standardized blocks (any nesting): fit accepts it exactly when y is a finite vector or single column with one value per row, every dense or sparse block has a row, at least one column unless inside a split matrix, finite entries when force_all_finite, no block is standardized, and integers come with copying allowed. What is handed on has the same shape, entries, column names and term names, no integer blocks, and n_features_in_ is its number of columns; validating twice changes nothing. predict accepts exactly the acceptable finite matrices with n_features_in_ columns, hence whatever fit accepted, with the same content. Data with a NaN passes fit's validation with force_all_finite=False but never predict's; a standardized matrix is always refused.", "quantifier": "all finite trees of blocks of any sizes, entries, names, dtypes, targets and settings", "why_tests_cant": "The check is recursive over arbitrary nestings; tests try a few shapes.", "anchors": ["src/glum/_validation.py: check_array_tabmat_compliant, check_X_y_tabmat_compliant", "src/glum/_glm.py: _set_up_and_check_fit_args, _compute_linear_predictor"]}
{"id": "C93", "title": "Interchangeable columns share their coefficient", "statement": "If two feature columns are equal on every row and the penalties and bounds treat them alike, then in every silent fit replacing both coefficients by their mean changes no prediction and the L2 penalty of that change is within the solver's tolerance; with a diagonal L2 penalty of strength lambda > 0 on the columns the two coefficients differ by at most tolerance * scale / lambda.", "quantifier": "all data sets with two equal columns, all convex family/link pairs, weights, offsets, penalties, bounds, starts, settings and the four solvers (monotonic constraints excluded)", "why_tests_cant": "The claim bounds the difference of two coefficients for every data set and every silent run; a test sees one run at a time.", "anchors": ["src/glum/_solvers.py: _irls_solver, _lbfgs_solver, _trust_constr_solver", "src/glum/_glm.py: fit, _solve", "src/glum/_utils.py: standardize"]}
{"id": "C94", "title": "What the context argument refers to", "statement": "With a formula, context=None adds nothing and a mapping is used as it is in every method. An integer k means the k-th stack frame counted from the caller in fit, predict, coef_table, wald_test, std_errors and covariance_matrix: the call does exactly what passing that frame's mapping would do, and raises when the stack is not that deep. (The same documented sentence is false of linear_predictor, score, aic, aicc and bic, which count one or two frames of glum itself first, and of the response of a two-sided formula in covariance_matrix, which is re-evaluated without any context; both are characterised exactly and refuted.)", "quantifier": "all call stacks, depths, mappings, estimators (CV or not, one- or two-sided formula), methods and kinds of X", "why_tests_cant": "Which frame is reached depends on the call path inside the library for every depth and every caller; the existing test checks fit and predict with context=0 from one function.", "anchors": ["src/glum/_formula.py: capture_context", "src/glum/_glm.py: linear_predictor, predict, score, coef_table, wald_test, std_errors, covariance_matrix, fit, aic, aicc, bic, _get_info_criteria", "src/glum/_glm_cv.py: linear_predictor, fit"]}
{"id": "C95", "title": "Constructor arguments are stored, copied and changed one by one", "statement": "Constructing GeneralizedLinearRegressor or GeneralizedLinearRegressorCV with keyword arguments stores every argument unchanged under its own name and the documented default for every other parameter, sets no other attribute (alpha_search of the CV class apart), and raises for an unknown keyword; get_params returns exactly the parameters with their current values; clone of any object, fitted or not, has the same parameter values and no fitted attribute; set_params changes the named parameters and nothing else and raises at the first unknown name; the two classes agree on the defaults they share.", "quantifier": "all parameter values, all sets of keyword arguments, all histories of attribute assignments, both classes", "why_tests_cant": "There are 40 parameters passed through two levels of constructors; tests construct a few combinations, while a swapped or dropped assignment is visible only for particular values.", "anchors": ["src/glum/_glm.py: GeneralizedLinearRegressorBase.__init__, GeneralizedLinearRegressor.__init__", "src/glum/_glm_cv.py: GeneralizedLinearRegressorCV.__init__"]}
{"id": "C96", "title": "A larger model never fits the training data worse", "statement": "If one model contains another (additional columns, bounds not tighter, same penalties on the common columns), the training objective of a silent fit of the larger model is at most that of any admissible coefficient vector of the smaller one, up to the tolerance; without penalties its training score (D^2) is not lower, up to the tolerance.", "quantifier": "all data sets, all convex family/link pairs, weights, offsets, penalties, bounds, settings, starts and solvers (monotonic constraints excluded)", "why_tests_cant": "It compares two optimisation problems for every pair of nested models; a test compares two runs.", "anchors": ["src/glum/_glm.py: fit, _solve, score", "src/glum/_solvers.py: _irls_solver, _lbfgs_solver, _trust_constr_solver"]}
{"id": "C97", "title": "A column without information gets the coefficient zero", "statement": "A feature column that is constant (in a model with an intercept) or zero on every training row, and whose L2 penalty is not coupled to other columns, gets exactly the coefficient zero from irls-cd whatever the warnings, the number of iterations and the Hessian approximation; with any solver, after a fit without warnings its coefficient is zero or its L1 penalty plus its L2 penalty times its size is within the solver's tolerance.", "quantifier": "all data sets, families and links, weights, offsets, penalties, bounds containing zero, starts, settings, selection orders", "why_tests_cant": "The first part must hold after every iteration of every run, including runs that stop early; rank-deficient designs have infinitely many solutions of which tests observe one.", "anchors": ["src/glum/_solvers.py: _cd_solver, _irls_solver, line_search", "src/glum/_cd_fast.pyx: enet_coordinate_descent_gram", "src/glum/_utils.py: standardize, unstandardize", "src/glum/_glm.py: _get_start_coef"]}
{"id": "C98", "title": "Shapes of the arguments of deviance and dispersion", "statement": "If the target, the mean and the weights are each a number, a list of n values or a list of one value, and at least one has n values, the deviance and the dispersion of a family are those of the n rows (a number or a single value counting for every row); two lists of different lengths, neither of length one, raise. A target of shape (n, 1) together with means of shape (n,) raises in the deviance of every family except binomial and hyperbolic secant, and is silently taken as all pairs in those two and in the Pearson dispersion of every other family.", "quantifier": "all families, all lengths, all values, all combinations of numbers and arrays", "why_tests_cant": "The rule must hold for every combination of shapes; a test checks a few shapes.", "anchors": ["src/glum/_distribution.py: _as_float_arrays, ExponentialDispersionModel.deviance, ExponentialDispersionModel.dispersion, TweedieDistribution.deviance, NormalDistribution.dispersion", "src/glum/_functions.pyx: normal_deviance"]}
{"id": "C99", "title": "A number as sample_weight", "statement": "In predict, score and fit a number c > 0 passed as sample_weight counts for every row like the vector of n times c when the data are float64; it has no effect on a fit and on score. In general it is first converted to the element type of X (predict, fit) or y (score): with integer X, predict multiplies by the integer part of c (so that 0 < c < 1 makes all predictions zero), with integer y, score raises exactly when c < 1. score equals 1 - D(y, predictions) / D(y, weighted mean of y).", "quantifier": "all positive c, all models, data, offsets, families, element types float64, float32, integer", "why_tests_cant": "The effect depends on the element type of data that look identical; tests use one type.", "anchors": ["src/glum/_validation.py: check_weights", "src/glum/_glm.py: predict, score, _set_up_and_check_fit_args"]}
{"id": "C100", "title": "fit_intercept=True is an unpenalised column of ones", "statement": "Without scale_predictors, fitting with fit_intercept=True and fitting with fit_intercept=False on the data with an additional column of ones, whose coefficient has no penalty and no bounds, are the same problem: intercept and coefficients read as coefficients give the same predictions on every row and the same objective, and are admissible exactly when the others are. Two fits without warnings, one of each kind and with any two solvers other than the monotonic one, agree in the objective, in the coefficients as far as the L2 penalty determines them and in the predictions, up to the requested tolerances times their distance - although one centres the columns and starts from the mean of y and the other does not.", "quantifier": "all data, normalised weights, offsets, convex family-link pairs, penalties (diagonal or matrix P2), bounds, inequalities, solvers, starts", "why_tests_cant": "The two routes centre the data differently and take different iterates; a test compares a few fits to a fixed number of digits.", "anchors": ["src/glum/_glm.py: GeneralizedLinearRegressorBase._set_up_for_fit, GeneralizedLinearRegressorBase._tear_down_from_fit, GeneralizedLinearRegressorBase._get_start_coef", "src/glum/_utils.py: standardize, unstandardize"]}
{"id": "C101", "title": "Penalties bound the coefficients; large alpha leaves only the intercept", "statement": "For a fit without warnings the L2 form of the coefficients plus their L1 term is at most the half deviance that the fit gains over any model with zero coefficients, up to the tolerance. Multiplying the penalties by alpha, every coefficient is at most (H + tol K) / (alpha m - tol S) if every column has L1 weight at least m, and at most tol S / (alpha m) + sqrt((H + tol K) / (alpha m)) if the L2 form is at least m times the sum of squares, where H is the half deviance of the model with zero coefficients; so all coefficients of all such fits tend to zero as alpha grows.", "quantifier": "all data, convex family-link pairs, penalties, bounds and inequalities that admit zero, solvers other than the monotonic one, starts, alpha > 0", "why_tests_cant": "The bound is for every data set and every alpha, and the limit is over all alphas and fits.", "anchors": ["src/glum/_glm.py: GeneralizedLinearRegressorBase._solve", "src/glum/_solvers.py: _irls_solver, _lbfgs_solver, _trust_constr_solver, _least_squares_solver"]}
{"id": "C102", "title": "Equality and conversion of families and links", "statement": "The operator == on family and link objects is symmetric and transitive, and reflexive except for a Tweedie power NaN (which the constructor accepts): instances of Tweedie or negative binomial families (and unmodified subclasses) are equal exactly when both are of that kind with the same parameter value, TweedieLink instances when of the same class with the same power, all others exactly when of the same class. Equal objects compute the same. to_tweedie returns a Tweedie object exactly for Tweedie, normal, Poisson, gamma and inverse Gaussian families and for Tweedie, identity and log links, otherwise it raises (or returns None with safe=False); the returned object has the same deviance, unit deviance, variance, range of y, default link and link functions, and equals the original exactly if that is a Tweedie object.", "quantifier": "all instances of the shipped classes and of subclasses at any depth, all parameter values (ints, floats, infinities, NaN), both operand orders", "why_tests_cant": "Symmetry and transitivity quantify over pairs and triples of instances of arbitrary subclasses; tests compare a few pairs.", "anchors": ["src/glum/_distribution.py: TweedieDistribution.__eq__, NegativeBinomialDistribution.__eq__, NormalDistribution.__eq__, ExponentialDispersionModel.to_tweedie", "src/glum/_link.py: TweedieLink.__eq__, IdentityLink.__eq__, Link.to_tweedie"]}
{"id": "C103", "title": "Rounding error of linear predictors and predictions", "statement": "In floating point with round to nearest, the linear predictor of a row differs from offset + intercept + x . coef by at most ((1+2^-p)^(k+2) - 1) times the sum of the absolute values of the terms, plus (1+...) n half-smallest-numbers for underflow, however the matrix library orders, brackets, fuses (FMA) or skips (zero products) the terms, where k is the largest number of roundings of a product. Hence two calls on the same row (other rows around it, other storage, other threads) differ by at most the sum of two such bounds, and predicted means by E (identity), a factor exp(E) (log) and E/4 (logit). Integer products whose sizes sum to less than 2^p give the exact value in every order. Bitwise reproducibility is false: two orders of one double-precision row give different values.", "quantifier": "all rows, coefficients, intercepts and offsets that are floats, all evaluation orders, all precisions p > 1 and exponent ranges (no overflow)", "why_tests_cant": "The evaluation order depends on BLAS, threads and storage; tests see one order and a few rows.", "anchors": ["src/glum/_glm.py: GeneralizedLinearRegressorBase._compute_linear_predictor, predict", "src/glum/_link.py: LogLink.inverse, LogitLink.inverse"]}
{"id": "C104", "title": "How fits respond to the responses", "statement": "Fit the same model twice, on responses y and y', both without warnings. The squared distance of the two fits in the L2 penalty plus half the two cross deviances is at most the sum over rows of weight * (y' - y) * (change of the natural parameter), plus the solver tolerance. Hence raising the response of one row, and nothing else, never lowers that row's own prediction (exactly for the closed form; up to tolerance / (weight * change) otherwise); predictions of Gaussian models, whatever the penalty, are non-expansive in the responses (weighted squares); and with a positive definite L2 penalty the coefficients of normal, Poisson and logistic models are Lipschitz in the responses.", "quantifier": "all data, weights, offsets, penalties, bounds, families and links with a convex objective, any pair of response vectors in the support, any solvers other than the monotonic one, any starts", "why_tests_cant": "A statement about pairs of fits on arbitrary data; tests compare a few pairs.", "anchors": ["src/glum/_glm.py: GeneralizedLinearRegressorBase._solve", "src/glum/_glm.py: GeneralizedLinearRegressor.fit", "src/glum/_solvers.py: _irls_solver, _least_squares_solver, _lbfgs_solver"]}
{"id": "C105", "title": "Weight of one row, and leaving a row out", "statement": "Giving one row a larger sample weight (or adding a row that had been left out), and refitting without warnings, does not raise that row's deviance relative to the weighted mean deviance of the table, and without a penalty does not raise the row's own deviance, up to the solver tolerance times (total weight / added weight). So the in-sample deviance of a row, relative to the table, is never larger than its leave-one-out deviance.", "quantifier": "all tables, rows, added weights, penalties, bounds, families and links with a convex objective, scale_predictors=False, any solvers other than the monotonic one, any starts", "why_tests_cant": "A statement about pairs of fits on arbitrary data.", "anchors": ["src/glum/_glm.py: GeneralizedLinearRegressor.fit", "src/glum/_glm.py: GeneralizedLinearRegressorBase._solve", "src/glum/_glm.py: GeneralizedLinearRegressorBase._set_up_and_check_fit_args"]}
{"id": "C106", "title": "Fits along a path of alphas", "statement": "For two values al < al' of alpha and fits without warnings: the penalty (per unit alpha) at al' is at most that at al and the deviance at al is at most that at al', up to the tolerance divided by the difference of the alphas; the distance of the two fits in the L2 form plus half the cross deviances is bounded by (al' - al) times the difference of the penalties; with a positive definite L2 form the squared change of every coefficient is at most a constant (explicit, from the deviance of the null model) times al' - al, plus tolerance: coefficients depend continuously on alpha.", "quantifier": "all data, weights, offsets, penalties, bounds, pairs of alphas, families and links with a convex objective, any solvers other than the monotonic one, any starts", "why_tests_cant": "A statement about all pairs of alphas; tests look at a grid.", "anchors": ["src/glum/_glm.py: GeneralizedLinearRegressorBase._solve_regularization_path", "src/glum/_glm.py: GeneralizedLinearRegressor.fit"]}
{"id": "C107", "title": "Separated data", "statement": "An unpenalised fit without warning satisfies the score equations in every direction of the coefficient space up to the tolerance. So if some direction is opposed by no row (classes separated by a linear function in logistic regression, a column that is non-zero only where the response is 0 in Poisson, Tweedie and negative binomial models), the weighted residuals along it have been removed up to the tolerance; on completely separated classes the fit reproduces the training labels and its linear predictors are at least of size ln(weight * margin / (2 * tolerance * size)); with tolerance 0 no solver ever reports convergence; and there is no optimum to converge to: every coefficient vector is strictly improved by a step in that direction. With a ridge penalty the same data have exactly one optimum.", "quantifier": "all data, weights, offsets, all convex pairs with log or logit link, all separating directions, solvers other than the monotonic one, all starts", "why_tests_cant": "Tests see particular separated data sets and one tolerance; that convergence is never reported is a statement about all runs.", "anchors": ["src/glum/_glm.py: GeneralizedLinearRegressor.fit", "src/glum/_glm.py: GeneralizedLinearRegressorBase._solve", "src/glum/_solvers.py: check_convergence, _irls_solver"]}
{"id": "C108", "title": "The fit is well defined", "statement": "If the L2 penalty (and, for least squares, the weighted design) has positive curvature m in every direction of intercept and coefficients, and the bounds are not contradictory, the documented objective has exactly one minimiser within the bounds, and every fit without warning, by whichever solver and from whichever start, is within 2 * tolerance * (size of the standardisation) / m of it in the intercept and in every coefficient; the closed-form solver returns it exactly.", "quantifier": "all data, weights, offsets, penalties, bounds, convex pairs, solvers other than the monotonic one, all starts", "why_tests_cant": "Existence and uniqueness of the estimate, and that all runs approach the same point, concern all coefficient vectors and all runs.", "anchors": ["src/glum/_glm.py: GeneralizedLinearRegressor.fit", "src/glum/_glm.py: GeneralizedLinearRegressorBase._solve", "src/glum/_solvers.py: _irls_solver, _least_squares_solver, _lbfgs_solver, _trust_constr_solver"]}
{"id": "C109", "title": "Least squares fits are linear in the responses", "statement": "For Gaussian models with identity link, no L1 penalty and no bounds: intercept and coefficients are optimal if and only if they satisfy the normal equations (weighted residuals orthogonal to every direction up to the penalty); the optimum for a linear combination of responses and offsets is the combination of the optima; fits by any solvers obey this up to the sum of their tolerances (exactly with the closed form) when the curvature is positive; and raising one response by t raises the prediction of its own row by something between 0 and t (leverage between 0 and 1).", "quantifier": "all designs, weights, L2 penalties, responses, offsets, factors, solvers other than the monotonic one, all starts", "why_tests_cant": "A statement about all triples of fits; tests compare a few numbers.", "anchors": ["src/glum/_glm.py: GeneralizedLinearRegressor.fit", "src/glum/_solvers.py: _least_squares_solver, _tikhonov_solver, _irls_solver"]}
{"id": "C110", "title": "Formula, response, intercept and copies of X at the start of fit", "statement": "fit accepts its arguments exactly when: with a data frame and a formula, the formula is a string or Formula with at most one response term, the response comes from exactly one of the formula and y, and the intercept the formula asks for (its last mention of 1 or 0, or nothing) agrees with fit_intercept; otherwise y is passed and no copy is needed that copy_X=False forbids. Each refusal names a condition that holds. An accepted formula fit has an intercept iff fit_intercept, and a variable iff its last mention adds it. Dense and CSC float arrays are copied iff copy_X is True. After any history of fits and set_params, covariance_matrix(X, y) takes its response from the last two-sided formula read, and data frames are expanded into the terms of the last formula read.", "quantifier": "all formulas, frames, arrays, element types, parameters, and all finite histories of fit and set_params calls", "why_tests_cant": "All formula strings and all histories; the tests have a table of formulas and one fit each.", "anchors": ["src/glum/_formula.py: parse_formula", "src/glum/_glm.py: _set_up_and_check_fit_args, _should_copy_X, covariance_matrix, _convert_from_df", "src/glum/_utils.py: is_contiguous"]}
{"id": "C111", "title": "Standard errors, tests and tables do not depend on how the columns are written", "statement": "If the columns of a design (with the intercept) are replaced by invertible linear combinations T of themselves and the predictions stay the same, then covariance_matrix returns a matrix for both designs or for neither (given the same verdict of the conditioning check), for every choice of robust, clusters and expected_information, and the two satisfy V = T V' T'. Hence a Wald test of R b = r and of its translation (R T) b' = r have the same statistic and degrees of freedom, the variance of every linear predictor is the same, a change of units of a column divides its standard error by the factor and leaves the p-value and the scaled interval, a permutation of columns permutes the matrix, and moving the origin of columns leaves the covariances of the slopes.", "quantifier": "all designs, families, links, weights, cluster labels, invertible T, hypotheses R, r, rows, confidence levels", "why_tests_cant": "All designs and all changes of basis; a test compares a few numbers for one rescaling.", "anchors": ["src/glum/_glm.py: covariance_matrix, std_errors, wald_test, coef_table", "src/glum/_distribution.py: _fisher_information, _observed_information, _score_matrix"]}
{"id": "C112", "title": "When the objective has a minimum, and when it is unique", "statement": "For the convex family and link pairs, any penalties, bounds, weights and offsets: if the only direction of intercept and coefficients that neither bounds nor penalty nor any row of positive weight speaks against is zero, then the penalised objective attains its minimum over the allowed coefficients; along any such direction that changes the linear predictor of a row of positive weight the objective falls for ever and there is no minimum. When columns and L2 penalty determine the coefficients these are equivalent, and the minimum is unique. All minimisers agree in the linear predictor, hence in the prediction, of every row of positive weight, also when they are not unique (lasso with collinear columns). With every slope penalised and an intercept there is a minimum exactly if the link is the identity or the responses of positive weight are neither all zero nor, for binomial, all one; without an intercept there always is one.", "quantifier": "all data, weights (zeros included), offsets, penalties, bounds, convex family and link pairs, with and without intercept", "why_tests_cant": "An existence statement over all data sets; a solver that stops after finitely many steps returns numbers whether or not there is a minimum.", "anchors": ["src/glum/_glm.py: GeneralizedLinearRegressorBase._solve", "src/glum/_glm_regressor.py: GeneralizedLinearRegressor.fit", "src/glum/_distribution.py: deviance"]}
{"id": "C113", "title": "Coordinate descent converges, with a rate", "statement": "Consider the inner solver with cyclic selection on a positive semidefinite or indefinite symmetric matrix whose diagonal entries are at least mu > 0 (above the skipping threshold), any start inside the bounds, and any nonnegative L1 weights and bounds. If the model it minimises is bounded below by L, then mu times the sum over any number of sweeps of the squared subgradient norm used by the stopping test is at most 2 n^4 B^2 times the initial gap (so the best of m sweeps has a norm of order 1/sqrt(m)), the norm tends to zero, and for every positive tolerance there is a sweep limit from which on the call ends without the non-convergence warning. If the matrix is positive definite a lower bound always exists and the coefficients converge to the minimiser.", "quantifier": "all sizes, matrices, gradients, starts, L1 weights, bounds, positive tolerances and numbers of sweeps", "why_tests_cant": "A limit statement with an explicit rate over all problems; a test sees finitely many sweeps of finitely many problems.", "anchors": ["src/glum/_cd_fast.pyx: enet_coordinate_descent_gram, cython_norm_min_subgrad", "src/glum/_solvers.py: _cd_solver"]}
{"id": "C114", "title": "The Newton iterations of irls-ls: a bound on their number", "statement": "Consider the least-squares solver (no L1 penalty, no bounds, exact Hessian updates) with an exact linear solver. If M bounds the Hessian of the objective on the level set of the start, then the squared gradients of the iterates sum to at most 10000 * 2^19 * M times the decrease of the objective, so that from every start, and for every convex or nonconvex supported pair of family and link whose means stay in range, the number n of iterations satisfies n * gradient_tol^2 <= ncoef * 10000 * 2^19 * M * F(start) and a max_iter above that bound ends without the non-convergence warning - unless some iteration had a failed line search (warned) or changed the objective by no more than the relative machine precision. In logistic regression M can be taken as a quarter of the weighted sum of squares of the design plus the largest curvature of the L2 penalty, and the line search cannot fail at an iterate at which every positively weighted row has p (1 - p) >= 2.5e-7.", "quantifier": "all data, weights, offsets, starts, L2 penalties, tolerances, iteration limits and reachable solver states", "why_tests_cant": "A global bound on the number of iterations over all problems and starts; a test runs the solver from a few starts on a few data sets.", "anchors": ["src/glum/_solvers.py: _irls_solver, line_search, check_convergence, _least_squares_solver", "src/glum/_glm.py: _solve"]}
{"id": "C115", "title": "Newton's iterations converge quadratically (logistic regression)", "statement": "Consider logistic regression with the least-squares solver (no L1 penalty, no bounds, exact Hessian updates) and an exact linear solver. Let lambda > 0 bound the Hessian of the objective from below on the level set of the current state, and let T be the weighted sum of the cubes of the rows' absolute sums. If T times the gradient norm of the stopping test is at most 10 lambda^2, then from that state on no line search fails, the objective never rises, each new gradient norm g' satisfies 20 lambda^2 g' <= T g^2, and after k iterations T g <= 20 lambda^2 2^(-2^k). A fit started there makes at most N iterations, for every N with 20 lambda^2 2^(-2^N) < gradient_tol * T, and does not warn about non-convergence if max_iter >= N. From any start, with a curvature bound lambda on the level set of the start, n1 iterations (n1 from the global bound of C114 for reaching that region) plus N iterations suffice, unless an iteration changes the objective by no more than machine precision or a weighted row's p (1 - p) falls below 2.5e-7.", "quantifier": "all data, weights, offsets, L2 penalties, starts in the stated region, tolerances and numbers of iterations", "why_tests_cant": "An asymptotic order of convergence over all problems; a test sees the iteration counts of a few fits.", "anchors": ["src/glum/_solvers.py: _irls_solver, line_search, check_convergence, _least_squares_solver", "src/glum/_functions.pyx: binomial_logit_rowwise_gradient_hessian"]}
{"id": "C116", "title": "Newton's iterations converge quadratically for every pair with an exact Hessian, from conditions at the start alone", "statement": "Consider the least-squares solver (no L1 penalty, no bounds, exact Hessian updates, an exact linear solver) for any pair with an exact Hessian: normal/identity, Poisson/log, gamma/log, binomial/logit, Tweedie 1 <= p <= 2/log and Tweedie 0/identity. Let X bound every row's absolute sum (intercept column included), let lambda > 0 be a lower bound of the Hessian at the current coefficients only, and let no mean within distance 1 of the current linear predictors reach the overflow limit. If 6 X times the gradient norm of the stopping test is at most lambda, then from that state on no line search fails, the objective never rises, no linear predictor ever moves by more than 1, each new gradient norm satisfies lambda g' <= 3 X g^2, and after k iterations 3 X g <= lambda 2^(-2^k). A fit started there makes at most N iterations, for every N with lambda 2^(-2^N) < 3 X gradient_tol, and does not warn about non-convergence if max_iter >= N. From any start, if on its level set the Hessian lies between lambda and M and no mean within distance 1 reaches the limit, a fit makes at most n1 + N iterations, for every n1 with n1 lambda^2 > 36 X^2 nc 10000 2^19 M F_0 and N as above, unless an iteration has a failed line search or an objective change within machine precision.", "quantifier": "all data, weights, offsets, L2 penalties, pairs with an exact Hessian, starts in the stated region, tolerances and numbers of iterations", "why_tests_cant": "An asymptotic order of convergence over all problems; a test sees the iteration counts of a few fits.", "anchors": ["src/glum/_solvers.py: _irls_solver, line_search, check_convergence, _least_squares_solver", "src/glum/_functions.pyx: normal_identity_rowwise_gradient_hessian, poisson_log_rowwise_gradient_hessian, gamma_log_rowwise_gradient_hessian, tweedie_log_rowwise_gradient_hessian, binomial_logit_rowwise_gradient_hessian"]}
{"id": "C117", "title": "The steps of irls-cd are square-summable, so a step_size_tol ends the fit", "statement": "Consider the coordinate-descent solver irls-cd with any L1 and L2 penalty, bounds, and a pair whose means are safe. If the L2 penalty is at least lambda times the squared norm of the coefficients (for whatever hessian_approx), or the Hessian at the current coefficients is at least lambda and hessian_approx = 0, then every iteration whose line search does not warn and whose objective changes by more than machine precision lowers the objective by at least lambda/20000 times the squared length of the step. So over any number of such iterations the squared steps sum to at most 20000 (F_0 - F_n)/lambda, at most 20000 F_0/(lambda e^2) iterations move the coefficients by e or more, and with step_size_tol = tau a fit makes at most 1 + 20000 F_0/(lambda tau^2) iterations - and does not warn about non-convergence if max_iter exceeds that - unless one of its iterations had a failed line search or a change within machine precision.", "quantifier": "all data, weights, offsets, penalties, bounds, safe pairs, hessian_approx >= 0, sampling orders, starts within the bounds, tolerances and numbers of iterations", "why_tests_cant": "A bound over every run of any length; a test sees the iteration counts of a few fits.", "anchors": ["src/glum/_solvers.py: _irls_solver, line_search, check_convergence, _cd_solver", "src/glum/_cd_fast.pyx: enet_coordinate_descent_gram"]}
{"id": "C118", "title": "What a failed line search means", "statement": "Consider an irls fit with hessian_approx = 0 and a pair with an exact Hessian (normal/identity, Poisson/log, gamma/log, binomial/logit, Tweedie 1 <= p <= 2/log, Tweedie 0/identity), by irls-cd with any L1 and L2 penalty and bounds or by irls-ls (no L1, no bounds, exact linear solver). If the line search of an iteration fails (the warning 'Line search failed'), then even its last trial - 2^-19 of the search direction, which the fit then keeps - moved the linear predictor of some row by more than 1/2, or drove some mean to the overflow limit: whatever the data, there is no failure near an iterate. In linear models (identity link) the line search of irls-cd fails only if some mean reaches the overflow limit, in logistic regression only if some estimated probability p of a weighted row has p(1-p) < 5e-7; so a penalised linear (logistic) regression with step_size_tol = tau and curvature lambda makes at most 1 + 20000 F_0/(lambda tau^2) iterations unless the objective moves by no more than machine precision or a mean reaches the limit (some p(1-p) falls below 5e-7).", "quantifier": "all data, weights, offsets, penalties, bounds, sampling orders, pairs with an exact Hessian, starts within the bounds and iterations", "why_tests_cant": "A statement about every failed line search of every fit; such failures are rare and a test can show only single ones.", "anchors": ["src/glum/_solvers.py: line_search, _irls_solver, _cd_solver, _least_squares_solver", "src/glum/_functions.pyx: *_rowwise_gradient_hessian, *_eta_mu_deviance"]}
{"id": "C119", "title": "Linear convergence of irls-ls from every start; what the gradient tolerance is worth", "statement": "Consider irls-ls with hessian_approx = 0, no L1 penalty, no bounds, an exact linear solver and a pair with an exact Hessian, and suppose that on the level set of the start the Hessian of the objective F lies between lambda > 0 and M times the identity. At every point of the level set F is within |gradient|^2/(2 lambda) of its smallest value. As long as no iteration has a failed line search or changes F by no more than machine precision, every iteration shrinks F - min F by the factor 1 - 2 lambda/(10000*2^19 M), so the squared distance of the coefficients to the optimum is at most 4/lambda (1 - 2 lambda/(10000*2^19 M))^n (F_0 - min F); and a fit that starts anywhere makes at most 1 + 10000*2^19 M/(2 lambda) ln(nc 10000*2^19 M F_0/gtol^2) iterations - logarithmic in the gradient tolerance - unless one of them is such an exception. A ridge penalty of at least lambda |coef|^2 (all coefficients penalised) gives the lower curvature everywhere; for ridge-penalised logistic regression M is a quarter of the weighted sum of squares of the design plus the penalty, and the only exceptions left are a change of F within machine precision and an estimated probability with p(1-p) < 2.5e-7. With either solver, any L1 and L2 penalties and bounds: a fit that the gradient criterion stopped (step_size_tol = None), no worse than the start, is within gtol^2/(2 lambda) of the smallest objective on the box, and its distance to the optimum is at most 2 gtol/lambda.", "quantifier": "all data, weights, offsets, L2 penalties, pairs with an exact Hessian, starts and numbers of iterations", "why_tests_cant": "A rate along every run from every start; a test sees single runs, and the worst case of the bound need not occur in any of them.", "anchors": ["src/glum/_solvers.py: line_search, _irls_solver, _cd_solver, _least_squares_solver", "src/glum/_functions.pyx: *_rowwise_gradient_hessian, *_eta_mu_deviance"]}
