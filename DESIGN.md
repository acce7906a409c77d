# Formal model of Quantco/glum in Rocq (Coq 8.16.1)

## 1. Approach

The code is read as text; every Gallina definition in `rocq/theories/` that models
code carries a comment `file: lines` of the function it models. Functions are modelled
branch by branch, exceptions are values (`option`/`result`), loops are structural
recursions over the iteration count or the list of rows/coordinates, mutation is
"return the new value".

Layering:

* `Base*.v`      – finite sums, lists, small real-analysis lemmas (no glum content)
* `M_*.v`        – the model (definitions only, executable in principle over R / Z / nat)
* `S_*.v`        – small specifications in plain mathematics (argmin, derivative, KKT,
                   monotone, one-hot indicator, ...), written without the model's helpers
* `L_*.v`        – lemmas and proofs
* `P_*.v`        – the property theorems only (`Theorem Cxx_...`), each followed by
                   `Print Assumptions` and accompanied by a non-vacuity `Example`.

Suffixes: `_partial` = only part of the English claim is proved (the note in MANIFEST.json says
what is missing); `_refuted` = the English claim, or a natural stronger form of it, is false of the
code and the theorem exhibits a witness inside the model.

## 2. Numbers, arrays and external calls

* IEEE doubles are modelled as real numbers `R` (stdlib). Rounding, overflow, NaN and
  infinities are *not* modelled, except: `M_Float` (parameters stored as float32, with NaN and
  infinities), `M_FSum` and `M_FCD` (reductions over rows, coordinate descent and coefficient updates
  with every operation rounded to nearest, using Flocq's `round`; no overflow); infinite bounds are modelled by an extended
  type (`option R`), NaN by `None` where valid input can produce it (a CV test fold without
  weight), the `eps` constants (2^-52) are kept as that number and the 32-bit random
  generator is modelled bit-exactly over `N`.
* numpy arrays of observations are lists of rows; feature-indexed arrays are functions
  `nat -> R` together with their dimension.
* `scipy.linalg.solve/inv` are modelled by exact Gaussian elimination (`M_Lin`) where a covariance
  matrix or Wald statistic is computed, and by a contract (hypothesis of the theorem) in the
  solvers; `lstsq`, `scipy.optimize`, `scipy.stats` CDFs, `gammaln`, Python's `float()` are
  universally quantified function arguments, with the assumed contract as an explicit hypothesis.
* pandas/polars/narwhals/tabmat are represented by the values they hold: a column is its dtype and
  its values, a matrix is its entries.
* `log`, `exp`, `**` are `ln`, `exp`, `Rpower`-based functions with the NumPy convention for
  the points the code uses (`xlogy 0 m = 0`, `x**0 = 1`, integer powers of negative numbers).

## 3. Plan per property (see MANIFEST.json for the resulting status)

| id | modelled | proof idea |
|----|----------|-----------|
| C01–C03 | every link class, `_link.py` | exp/ln algebra, Rpower lemmas; derivatives by `auto_derive`; clip by cases |
| C04–C06 | families' unit_variance/unit_deviance | tangent-line/convexity: derivative sign argument, MVT |
| C07 | dispatch of TweedieDistribution vs named classes | case analysis and algebra |
| C08, C09 | deviance and log-likelihood kernels over row lists | induction on rows |
| C10–C13 | gradient/Hessian kernels, generic rows, information weights | `is_derive` computations |
| C14–C17 | dispersion, weight normalisation, objective, whole fit | induction on rows; simulation between two runs of the fit |
| C18, C19 | guess_intercept, score | convexity in the intercept; first-order condition |
| C20–C23 | `_cd_fast.pyx` | induction on the visiting sequence; 1-D soft-threshold optimality; bit-level reasoning on N |
| C24–C26 | update_hessian, identify_active_rows/_set | invariant over the history of calls |
| C27–C31 | IRLS loop, line search, closed form, monotonic solver | invariants over iterations with oracle inner solver |
| C32 | `_formula.py` constraint builder | induction on sorted groups |
| C33–C37 | standardize/unstandardize, P1/P2 setup | finite-sum algebra |
| C38 | expand_categorical_penalties | list induction |
| C39–C43 | alpha path, lookup, chain, CV selection | list induction, exp/ln |
| C44, C45 | predict, align_df_categories | map/permutation lemmas, one-hot indicators |
| C46–C48 | Wald, covariance, coefficient table | matrix algebra on functions; abstract CDF with monotonicity hypothesis |
| C49, C59–C61 | estimator object as a state machine | induction on histories of calls, with a failure point at every step; refutation by a history |
| C50–C52 | validation, solver selection, family/link names | case analysis, induction on strings |
| C53, C54 | objective and gradient | derivative of finite sums, convexity of row losses |
| C55–C57 | whole fit (standardise, IRLS, CD, back) | composition of C20–C37 |
| C58 | row order | simulation between the two runs |
| C62–C64 | `S_Fit`: residuals of the likelihood equations, user penalty, distance in standardized units; the model is `fit_cd`/`fit_rows` of `M_Std` | the silent exit of `irls_solver` bounds the minimum-norm subgradient; `L_Score` moves the bound to user units; convexity (C54) gives agreement and trade-off |
| C65 | `in_units` in `S_Fit` | the standardized problem is literally unchanged, so the run is the same |
| C66 | textbook densities in `S_Lik`; `lgamma` by its Bohr-Mollerup properties (`S_Gamma`, existence in `L_Gamma`) | algebra of logarithms per row; recursion (k+1)P(k+1) = (b+qk)P(k) for the moments, power-series ODE for the negative binomial mass |
| C67 | `M_Tweedie` (the series and its loops), Dunn-Smyth series in `S_Tweedie` | log-concavity of the terms: blocks of terms shrink by e^-37; termination from the growth of log-gamma |
| C68, C69 | `S_Scale`: the two formulations of exposure, responses in other units; the model is the objective minimised by `fit_rows` | homogeneity d(s y, s mu) = s^(2-p) d(y, mu) of the unit deviances; the fit theorems transfer C56 |
| C70, C71 | `M_Fit` (the dispatch of `_solve`, the scipy wrappers), near-optimality and the contracts of the external optimisers in `S_FitAll` | every solver's silent exit gives a bound on a gradient or subgradient (or KKT residual) of the standardized objective; convexity turns it into near-optimality in user units; agreement by applying it both ways |
| C73 | `M_Mem`: heap of arrays, each write of fit/predict as an update at a location; `S_Mem`: untouched, held, what is read after the call | frame lemmas per step (only fresh locations, or the reused coef_, are written), then simulation of the value-level solver chain |
| C74 | `M_Jobs`: `_fit_path` as a small-step program, workers with a copy of self, schedules as lists of worker numbers; `S_Jobs`: the value of a job alone, dispatch, end | workers do not see each other, so a run is the iteration of each worker; a batch is analysed job by job (invariant: earlier arrays are kept, coef_ is as given or clipped); refutation for threads by an explicit interleaving |
| C75 | `M_Par`: the body of every prange loop as single loads, stores and reduction updates, threads, schedules; `S_Par`: divisions of the rows, data races, complete runs | iteration i touches only entry i of every array (checked for all 27 loops), so each row sees one thread; invariant per thread (rows behind it final, ahead of it untouched, accumulator plus what is pending is constant) gives results, race freedom and the exact number of steps |
| C76 | `M_Psd` (setup_p2 followed by is_pos_semidef; eigvalsh is an argument); `S_Psd`: eigenvalues, quadratic forms, tolerance | the largest lower bound of the Rayleigh quotient is an eigenvalue (a semi-definite non-singular matrix is uniformly definite), so the smallest eigenvalue decides; finiteness of the spectrum by Bessel's inequality |
| C77 | `S_CovRows`: the input of covariance_matrix as a list of rows | every ingredient is a sum over rows, linear in the weight (the meat of the sandwich: quadratic) |
| C78 | `M_State`: the attribute dictionary, `__setstate__`, the properties, encoding of a frame from the dictionary; `S_State`: dictionaries of the current version, old states | invariant of all attribute writes and loads (no feature_dtypes_ key without levels), then case analysis of `__setstate__`; encoding depends only on the levels and the missing-value settings |
| C79 | `M_Diag`: the rows written by _record_iteration along the loops, n_iter_, the formatted table; `S_Diag`: stopping test on a row | the rows are the states of the run history of C27; coherence of the states (C24-C28) gives objective and convergence columns in user units |
| C80 | `S_Train`: the training rows with their predictions, training mean, null deviance; `score` of `M_Dist` | near-optimality (C70) against the intercept-only model, whose penalty is 0; C64 for pairs of alphas; C19 for zero coefficients |
| C81 | `S_Recode`: affine recodings of the columns; `S_Fit.pred_gap`: distance of two prediction vectors in deviance | strong convexity of the deviance in the predictions (a lower bound for the curvature along each row's line), added to near-optimality (C70); the recoded coefficients of one fit are a competitor of the other |
| C82 | `M_Float`: the setters with Python arguments (integers, floats with NaN and infinities, others) and the cast; `S_Float`: floating-point numbers without reference to Flocq | Flocq: round to nearest even in FLT format; ties at 2 - 2^-24, 1 + 2^-24 and 2^-150 computed |
| C83 | `M_FSum`: private accumulators per thread, combined in any order, every addition rounded; `S_FSum`: trees of additions | induction on the tree with the relative error of a sum (no underflow in sums of floats); a reduction is a tree of depth longest share + number of threads |
| C84 | `M_FCD`: `_cd_fast.pyx`, step and coefficient update, scaling of bounds and coefficients, every operation rounded; reachable coefficients | monotonicity of rounding and exactness of comparisons; invariant over the iterations; Sterbenz for the full step; refutation with computed roundings |
| C85 | `M_Formula`, `M_Fit`; specification of a data point: a value for every column of every factor; B-splines by the Cox-de Boor recursion | summation by parts over the sorted columns of every group; tails of the B-spline basis are increasing in x (a convex combination of tails of lower degree); Lipschitz constants of the inverse links; refutations with concrete columns |
| C86 | `M_Fit` with `M_Solver.monotonic_irls_solver` | score under the penalised matrix = score minus lam times the row values; convexity margin of C70; refutation by one concrete iteration evaluated exactly |
| C87 | `M_TLink`: numpy power on any base, `catch_p` | case analysis on the sign of the predictor and on whether 1/(1-p) is an integer; derivatives through Coquelicot, locally |
| C88 | `M_Fit.fit_with`, `M_Std.fit_rows`, all solvers | simulation: every function of every solver on the mirrored problem returns the mirror image (binomial logit kernels, active sets, CD updates with ordered bounds, line search, violated rows); functional extensionality; refuted for cloglog by an intercept-only fit |
| C89 | `M_Fit.fit_with` on reordered data | sums over a permutation; objective, distance and feasibility carried over; then C70 on the reordered model |
| C90 | `M_Fit.fit_with`, `M_Dist.guess_intercept` with the offset raised by t | simulation: the state with the intercept lowered by t takes the same step (IRLS, line search, monotonic penalty); default start by algebra; tolerances by C70 |
| C91 | `with_rows` on the concatenated cells and on the merged rows | row kernels are affine in the response, so weighted sums over a cell equal the merged row; same-run simulation of irls-cd (L_Same); Jensen for the negative binomial prediction weight |
| C92 | `M_Matrix.check_mat` over trees of blocks, `fit_validate`, `predict_validate` | induction over the tree; acceptance against a specification on the list of blocks |
| C93 | `S_Twin.twins`, `S_Twin.evened` over `M_Fit.fit_with` | near-optimality (C70) applied to the evened coefficients; objective convex along the segment |
| C94 | `M_Context.capture_context` and the chain of calls of every public method with a `context` argument, over explicit call stacks | case analysis per method; the frame reached by an integer depth is computed on the stack |
| C95 | `M_Params`: signatures, defaults and the assignments of both constructors, transcribed; sklearn get_params, set_params, clone | list lemmas over the transcribed signatures; finite facts about the signatures by computation |
| C96 | `S_Nested.contains` over `M_Fit.fit_with` | the smaller model's coefficients padded with zeros are admissible at the same objective; near-optimality (C70) |
| C97 | `S_Inert.uninformative` over `M_Fit.fit_with`, `M_CD`, `M_Solver` | invariant of the coordinate descent sweeps and of the IRLS iteration: the standardised column, its score and its Hessian row are zero; near-optimality (C70) for the other solvers |
| C98 | `M_Shape`: arrays as shape and entries, numpy broadcasting, `_as_float_arrays`, deviance and dispersion of every family; `S_Shape`: arguments row by row | induction over the list of arguments for the common shape, then pointwise |
| C99 | `M_Dtype`: check_weights with its dtype argument, predict and score on typed data | C98 for score; truncation and rounding of the constant; score is invariant under scaling the weights |
| C100 | `S_Ones`: the model without intercept and with a column of ones | the two objectives are equal at corresponding coefficients (the additional column has standard deviation 0, hence scale 1); C70 on both sides |
| C101 | no new model: near-optimality (C70) against zero coefficients | C70 with competitor (c, 0); the largest coefficient as distance; a quadratic inequality; explicit alpha |
| C102 | `M_Eq`: classes as kind and subclass path, `__eq__`, the dispatch of `==`, constructors with the setters of `M_Float`, to_tweedie; `S_Eq`: when instances should be equal | case analysis on kinds; suffix order of paths is antisymmetric; C07 for the conversions, C82 for storing a power again |
| C103 | `M_FPred`: one row of X @ coef as any tree of rounded products, additions and fused multiply-adds, then + intercept, += offset; `S_FPred`: exact predictor, size of its terms, error bound | induction on the tree with Flocq's error of one rounding (relative plus half the smallest number); mean value theorem for expit |
| C104 | no new model: two runs of `M_Fit.fit_with`; `S_Response`: the data with other responses, the natural parameter, a fit without warnings | C70 (near-optimality with strong convexity) for each fit against the other; the deviance is affine in y up to terms without mu |
| C105 | no new model: `S_Response.heavier` on tables of rows | C70 twice; weights normalised to sum 1 make the objective a convex combination of table and row |
| C106 | no new model: `S_Fit.at_alpha` | C70 twice, once multiplied by the other alpha; C101's bound on the penalty for the constant |
| C107 | no new model; `S_Separation`: change of the linear predictor along a direction, directions opposed by no row | C70 against steps t in the direction, the slope of the deviance from convexity, t to 0 by continuity of the residuals; signs of residuals |
| C108 | no new model; `S_Optimum`: allowed coefficients, optimum, curvature | midpoint strong convexity; `L_Exist`: sublevel sets shrink to a point given by completeness of R (no compactness, no choice); lower semicontinuity from the tangent inequality; C70 for the fits |
| C109 | no new model; `S_Linear`: normal equations, other responses and offsets | the objective along a direction is an explicit quadratic; normal equations are linear; C108 for the fits; C104 for the leverage |
| C110 | `M_Input`: parse_formula, the signed sums formulaic parses, _set_up_and_check_fit_args up to validation, the two model specs over a history | membership in a signed sum is decided by the last mention (induction); case analysis against `S_Input`; induction on histories |
| C111 | no new model; `S_Basis`: changes of columns | H and the middle matrix are conjugated by T for each kind of covariance; H V H = M determines V; Wald statistic and variances are forms in R T and T' x; units, order and origin are special T |
| C112 | no new model; `S_Exist`: drift directions | compactness in R^n by completeness of R coordinate by coordinate (`L_Attain`); an unbounded sublevel set has a limit direction, which drifts; strict convexity of every row for uniqueness and equal predictions |
| C113 | `M_CD` iterated; `S_Sweep`: sweeps, subgradient norm | each coordinate step lowers the model by mu/2 times the squared move; the residual after a sweep is bounded by the moves of that sweep (nonexpansiveness of the minimum-norm subgradient); telescoping; strong convexity for convergence of the iterates |
| C114 | `M_Solver.irls_step`/`line_search` iterated; `S_Pace`: Hessian bound, tiny steps, failed line searches | H d = s and H <= M give |s|^2 <= M s.d; the accepted step is at least 2^-19, so Armijo lowers F by 1e-4 * 2^-19 * s.d; telescoping and Cauchy-Schwarz for the stopping norm; for logistic regression the curvature of a row is at most w/4, which is at most 10^6 times its value at the iterate, so the twentieth halving satisfies Armijo |
| C115 | `M_Solver.irls_step` iterated; `S_Quad`: curvature bound, cubic_size | one row: |second-order Taylor remainder of the gradient| <= w/20 h^2, third-order remainder of the deviance <= w/60 |h|^3, because |p(1-p)(1-2p)| <= 1/10; Newton's equation cancels the linear term; the full step satisfies Armijo in the region, so the squaring can be iterated |
| C116 | `M_Solver.irls_step` iterated; `S_Newton`: rows_within, means_small | one row: every exact Hessian row h satisfies |h'| <= h (all pairs at once, L: curvature_slope), so h changes by at most e^|t| and the Taylor remainders of gradient and deviance are at most h (e^|t| - 1 - |t|) <= 7/8 h t^2 for |t| <= 1/2; Newton's equation cancels the linear term, the full step satisfies Armijo, linear predictors move by at most 1/2 + 1/4 + ... = 1, over which the curvature keeps a third of its size |
| C117 | `M_Solver.irls_step` with `cd_solver` iterated; `S_Steps`: l2_above, curved, moved, long_steps | the coordinate-descent direction satisfies -s.d + change of the L1 term <= -1/2 d'Hd (L_Solver3.cd_direction) and d'Hd >= lambda |d|^2; Armijo then lowers F by t lambda |d|^2 / 20000 >= lambda |t d|^2 / 20000; telescoping; the recorded step is t d, so the step test bounds it from below until the last iteration |
| C118 | `M_Solver.irls_step`/`line_search` with both inner solvers | the direction does not raise the penalised quadratic model (L_Solver3.cd_direction, L_LS.ls_direction), so b = -s.d + change of L1 is at most -q/2; the rows' deviances along the step are below the parabola with 7/4 of the curvature as long as the linear predictor moves by at most 1/2 (P_Newton.F_remainder), so the objective falls by at least t(1 - 7t/4)|b|, which is the Armijo amount at t = 2^-19 |
| C119 | `M_Solver.irls_step` with `ls_solver` iterated; `S_Pace`, `S_Quad`, `S_Steps` | along a segment inside the (convex, C53) level set the objective has second derivative d'H(c + t d)d >= lambda |d|^2 (L_Dist2.hessian_row_is_derive row by row), so it lies above the parabola with curvature lambda (lower_parabola) and F(c) - F(v) <= |gradient|^2/(2 lambda); P_Pace.one_iteration bounds |gradient|^2 by 10000*2^19 M times the decrease, which gives the factor by induction; (1 - x)^n <= exp(-n x) and the stopping test of the last but one iterate give the logarithmic count |
| C72 | `M_Fit.solve_settings` (max_iter = 1) | Newton step on a quadratic: normal equations, Armijo condition holds for the full step; refutation by a concrete lasso whose screened feature violates the stop test |

Properties that turn out to be false of the code get a `_refuted` theorem with a
witness, plus the strongest true variant.

## 4. What is modelled

| file of /repo/src/glum | modelled in | not modelled |
|---|---|---|
| `_link.py` | M_Link (all classes, all methods), M_TLink (power link on predictors of any sign) | float overflow warnings |
| `_distribution.py` | M_Dist, M_Cov (information, score matrix), M_Float (parameters as stored) | abstract base-class plumbing |
| `_functions.pyx` | M_Dist (all kernels), M_Par (their parallel loops as interleaved loads and stores), M_Tweedie (normalising series), M_FSum (rounding of the reductions) | rounding inside the row terms except normal_deviance |
| `_cd_fast.pyx` | M_CD (whole file), M_FCD (the same with rounding) | overflow |
| `_solvers.py` | M_Solver (IRLS data/state, update_hessian, active set, line search, irls-cd, irls-ls, closed form, monotonic solver), M_Diag (recorded iterations, formatted diagnostics) | scipy's L-BFGS-B and trust-constr themselves, run times and verbosity |
| `_glm.py` | M_Std (set-up of weights, offset, penalties, starts, standardisation, unstandardisation), M_Path (alpha grid, path, lookup, predict), M_Cov (covariance, Wald tests, coefficient table), M_Est (fit/predict/covariance/criteria as a state machine), M_Valid (validation, solver choice), M_Names (families and links), M_Cat (categoricals), M_State (pickled attribute dictionaries, `__setstate__`) | docstrings, plotting/report helpers, `sklearn` tag methods, sparse formats, formula parsing by formulaic |
| `_glm_cv.py` | M_CV (grid, folds, losses, selection, refit), M_Jobs (the jobs as steps on `self`, joblib workers and schedules) | joblib itself, pickling of the jobs |
| `_formula.py` | M_Formula (constraint builder) | formulaic's own parsing; `capture_context` |
| `_utils.py`, `_validation.py`, `_linalg.py` | M_Cat, M_Std, M_Valid, M_Lin, M_Psd (is_pos_semidef) | logging, threading helpers |

Model simplifications are stated in the comment of the definition concerned.

## 5. Trusted base

* The kernel of Coq 8.16.1 (`coqc`; `coqchk` was run on the compiled files, see section 8).
* That the definitions in `M_*.v` are a faithful reading of the cited lines of /repo, and that the
  specifications in `S_*.v` and the statements in `P_*.v` say what the English properties say.
* The contracts of external routines, which are visible as hypotheses of the theorems
  (`solve_sound`, `lstsq` minimal residual, a CDF with its quantile function, Python's `float()`).
* Axioms: only those of the standard library's real numbers and classical logic, as listed below.
  No axiom, `Parameter`, `Admitted`, functor or module type is declared in the development; section
  variables are discharged.

## 6. Print Assumptions for each theorem

Generated from the output of `Print Assumptions` for every theorem of MANIFEST.json.

**Closed under the global context (no axioms)** (45 theorems)

C23_rand_int_valid, C23_state_map_injective, C32_column_names_roundtrip, C32_factor_syntax, C32_variables_to_factors, C32_conflict_refuted, C38_coefficient_blocks, C43_kfold, C45_codes, C45_encoding_independent, C45_unseen_raises, C45_training_frame, C46_R_needs_r_refuted, C50_bounds_and_offset, C50_inequalities, C50_bounds_ordered, C60_failed_fit, C78_round_trip, C78_old_pickle, C78_load_fails_iff, C78_old_pickle_encodes, C92_idempotent, C94_mapping, C94_calling_scope, C94_documented, C94_slip, C94_calling_scope_refuted, C94_response, C94_matrix, C95_stored, C95_clone, C95_set_params, C95_defaults, C110_accept, C110_refusal, C110_terms, C110_silent_string, C110_response, C110_copy, C110_integers, C110_copy_refuted, C110_formula_ignored, C110_covariance_response, C110_frame_terms, C110_fitted_terms

**`ClassicalDedekindReals.sig_forall_dec`** (7 theorems)

C38_other_lengths, C92_fit_accepts, C92_fit_content, C92_predict_accepts, C92_predict_after_fit, C92_nonfinite, C92_standardized_refused

**`ClassicalDedekindReals.sig_forall_dec`, `FunctionalExtensionality.functional_extensionality_dep`** (71 theorems)

C17_normalised_weights, C20_bounds_kept, C21_visit_is_exact_minimiser, C21_call_descends, C22_norm_zero_iff_kkt, C22_suboptimality, C22_inner_solver_converged, C30_closed_form_optimal, C30_closed_form_unique, C32_rows_mean_monotone, C32_rows_with_slack, C32_accepts, C33_predictions_unchanged, C36_warm_start_roundtrip, C36_warm_start_roundtrip_unscaled, C36_constant_column_refuted, C37_p2_setup, C37_shapes_and_p1, C37_alpha_commutes, C38_penalties_expand, C38_ambiguous_refuted, C38_matrix, C41_find, C41_raises, C41_stored, C41_requests, C45_contribution, C46_statistic, C46_nonneg, C46_invariance, C46_features, C46_terms, C46_formula, C46_one_specification, C50_weights, C50_response_and_parameters, C51_validation_exact, C51_l1_never_ignored, C51_l1_path_partial, C51_l1_path_refuted, C51_constraints_honoured, C51_bounds_refuted, C51_auto_rule, C51_auto_succeeds, C51_explicit, C51_l1_ignored_iff, C51_bounds_ignored_iff, C51_array_refuted, C52_family_names, C52_other_names, C52_parametrised, C52_unknown_refuted, C75_active_rows, C76_symmetric_part, C76_large_sparse_refuted, C81_drop_level, C85_predictor, C85_levels, C85_reference_level, C85_numeric, C85_spline, C85_rows, C85_reference_refuted, C85_spline_refuted, C85_text_levels_refuted, C85_sign_refuted, C102_equality, C102_same_behaviour, C111_wald, C111_predictor, C113_rate

**`ClassicalDedekindReals.sig_forall_dec`, `Classical_Prop.classic`** (1 theorems)

C79_full_report

**`ClassicalDedekindReals.sig_forall_dec`, `ClassicalDedekindReals.sig_not_dec`, `FunctionalExtensionality.functional_extensionality_dep`** (13 theorems)

C33_threshold, C33_fit_linear_predictor, C33_columns_standardized, C34_penalty_preserved, C35_bounds_preserved, C35_inequalities_preserved, C36_warm_start_reproduces_predictions, C36_no_intercept_refuted, C42_chain, C42_prefix, C46_single, C48_row, C48_nested

**`ClassicalDedekindReals.sig_forall_dec`, `Classical_Prop.classic`, `FunctionalExtensionality.functional_extensionality_dep`** (2 theorems)

C76_contract_met, C113_best

**`ClassicalDedekindReals.sig_forall_dec`, `ClassicalDedekindReals.sig_not_dec`, `Classical_Prop.classic`, `FunctionalExtensionality.functional_extensionality_dep`** (370 theorems)

C01_inverse_of_link, C01_link_of_inverse, C02_link_derivative, C02_inverse_derivative, C02_inverse_derivative2, C02_inverse_derivative_reciprocal, C03_monotone, C03_range, C03_warning, C04_unit_deviance_nonneg, C04_binomial_positive, C04_binomial_minimal_at_y, C05_unit_deviance_derivative, C06_unit_variance_derivative, C06_variance_positive, C07_named_is_tweedie, C08_deviance_is_weighted_sum_partial, C08_deviance_is_weighted_sum_refuted, C08_deviance_gap, C08_deviance_nonneg, C09_loglik_gap, C10_gradient_rows_exact, C11_hessian_rows_exact, C11_hessian_rows_fisher, C11_hessian_rows_nonneg, C12_line_search_objective, C12_exact_for_normal_and_invgauss, C13_observed_information, C13_fisher_is_observed_at_mean, C13_fisher_is_observed_canonical, C14_pearson_formula, C14_nonneg, C14_frequency_weights, C15_zero_weight_rows_inert, C15_deviance, C15_fit_unchanged, C15_no_variation_check_refuted, C16_integer_weights_are_repetition, C16_deviance_and_dispersion, C16_fit_unchanged, C17_weight_scale_irrelevant, C17_fit_unchanged, C18_guess_intercept_optimal_offset, C18_guess_intercept_optimal_no_offset, C19_score_at_most_one, C19_score_one_iff_perfect, C19_constant_prediction_partial, C19_constant_prediction_refuted, C19_negative_power, C24_hessian_exact, C24_hessian_exact_monotonic, C25_row_error_bounded, C26_active_set, C26_dropped_stay_zero, C27_iteration_accounting, C27_cd_always_returns, C28_least_squares_descends, C28_trial_gradient, C28_line_search, C28_objective_descends, C29_iterates_in_box, C29_result_in_box, C30_ridge_is_training_objective, C31_silent_success_feasible, C31_penalty_weight, C31_penalty_matrix, C31_near_optimal, C32_monotonic_fit, C34_objective_preserved, C39_grid, C39_rejects, C39_path, C39_ratio_refuted, C40_null_model_optimal, C40_smaller_alpha, C40_first_entry_null, C40_unpenalised_refuted, C40_offset_refuted, C41_by_index, C41_by_alpha, C41_by_alphas, C42_defined, C42_single, C42_entries_near_optimal, C43_alphas, C43_choice, C43_ties, C43_refit, C43_weight_scale, C43_zero_weight_fold_refuted, C43_defined, C43_fits_on_rows, C43_auto_alphas, C43_deviance_path, C43_train_deviance, C43_models_near_optimal, C43_predict, C44_row_local, C44_several_alphas, C44_batches, C44_reorder, C44_weights_with_alphas_refuted, C44_zero_weight_batch_refuted, C47_robust, C47_clustered, C47_nonrobust, C47_defined, C47_dispersion, C47_singletons, C47_relabel, C47_reparametrisation, C47_labels_refuted, C47_score_is_gradient, C47_information_is_hessian, C47_expected_information, C49_values, C49_current_refuted, C49_current_partial, C49_first_query_decides, C52_auto_link, C52_auto_link_negative_power_refuted, C53_objective_convex, C53_stationary_is_global, C53_unique_coefficients, C54_quasi_newton_gradient, C54_score_is_gradient, C55_converged_fit_near_optimal, C55_irls_cd_near_optimal, C56_fit_near_optimal, C57_fit_respects_bounds_partial, C57_between_bounds_and_start, C57_bounds_violated_refuted, C58_row_order_irrelevant, C59_covariance_current, C59_clip_refuted, C60_atomic_refuted, C61_refit_fresh, C61_formula_refuted, C62_balance_any_solver, C62_balance, C62_intercept_equation, C62_column_equation, C62_level_balance, C63_fits_agree, C63_coefficients_agree, C64_tradeoff, C65_units, C66_loglik, C66_defined, C66_poisson_moments, C66_negbin_moments, C66_binomial_moments, C67_series, C67_loglik, C68_exposure, C68_fit, C69_log_link_units, C69_fit, C69_normal_units, C70_silent_near_optimal, C70_monotonic_feasible, C71_solvers_agree, C71_coefficients_agree, C72_least_squares_one_iteration, C72_lasso_one_iteration_refuted, C73_inputs_unchanged, C73_results_new, C73_path_values, C73_values, C73_cd_shares_only_unmoved, C73_predict, C73_reused_refuted, C74_any_schedule, C74_ends, C74_cv_table, C74_threads_refuted, C75_no_race, C75_ends, C75_eta_mu_deviance, C75_gradient_hessian, C75_deviance, C75_log_likelihood, C76_accepted_iff, C76_semidefinite_accepted, C76_indefinite_refused, C77_row_order, C77_zero_weights, C77_repetition, C77_robust_repetition_refuted, C77_cluster_zero_weight_refuted, C79_rows, C79_objective_descends, C79_counts, C79_report, C79_messages, C79_monotonic, C79_intercept_refuted, C80_beats_null_models, C80_training_score, C80_zero_coefficients, C80_along_alphas, C80_offset_refuted, C81_close_to_optimum, C81_distance, C81_recoding, C81_least_squares, C82_power_accepted, C82_stored_power, C82_power_between, C82_power_class_refuted, C82_theta, C83_any_order, C83_reduction, C83_threads, C83_normal_deviance, C83_not_reproducible, C84_descent_in_bounds, C84_sign_constraints, C84_full_step, C84_user_bound, C84_bounds_refuted, C84_floats, C84_stop, C85_fit, C85_fit_trust, C85_means, C85_link_refuted, C86_stationary, C86_near_optimal, C86_optimal_refuted, C87_accepts, C87_accepts_all, C87_together, C87_positive, C87_rowwise, C87_zero, C87_zero_derivatives, C87_negative_value, C87_roundtrip, C87_derivative, C87_derivative2, C87_mean_range_refuted, C88_swap, C88_guess, C88_rows, C88_predict, C88_quality, C88_cloglog_refuted, C89_objective, C89_near_optimal, C89_fits_agree, C90_objective, C90_near_optimal, C90_fits_agree, C90_exact, C90_guess, C90_guess_other_links, C90_default_start, C90_no_offset, C91_same_score_and_hessian, C91_objective, C91_near_optimal, C91_fits_agree, C91_exact, C91_guess, C91_no_variation_refuted, C91_pearson_dispersion, C93_twins, C93_ridge, C96_same_objective, C96_larger_model, C96_training_score, C97_exact, C97_silent, C98_deviance, C98_dispersion, C98_mismatch, C98_column, C98_column_refuted, C99_float, C99_predict, C99_predict_refuted, C99_score_value, C99_score, C99_fit, C100_same_model, C100_near_optimal, C100_fits_agree, C101_penalty_bound, C101_l2_rate, C101_l1_rate, C101_large_alpha, C102_equivalence, C102_to_tweedie, C103_linear_predictor, C103_same_row, C103_whole_numbers, C103_identity_mean, C103_log_mean, C103_logit_mean, C103_not_reproducible, C104_response, C104_own_row, C104_gaussian, C104_coefficients, C105_heavier_row, C105_heavier_row_unpenalised, C105_left_out, C106_two_alphas, C106_tradeoff, C106_continuity, C107_score_any_direction, C107_separated, C107_logistic, C107_never_converges, C107_no_optimum, C108_unique, C108_exists, C108_fits_near, C109_normal_equations, C109_superposition, C109_fits, C109_leverage, C111_covariance, C111_units, C111_order, C111_origin, C112_exists, C112_same_predictions, C112_unique, C112_falls, C112_none, C112_iff, C112_penalised, C112_no_intercept, C113_vanishes, C113_terminates, C113_converges, C113_definite, C114_rate, C114_iterations, C114_logistic_line_search, C114_logistic_iterations, C114_enough_iterations, C115_step, C115_quadratic, C115_iterations, C115_both_phases, C116_step, C116_quadratic, C116_iterations, C116_both_phases, C117_step, C117_steps, C117_long_steps, C117_iterations, C117_enough, C118_failed_search, C118_failed_search_ls, C118_linear_model, C118_linear_iterations, C118_logistic, C118_logistic_iterations, C119_gap, C119_linear, C119_coefficients, C119_iterations, C119_returned, C119_penalised, C119_logistic

## 7. Findings about the code (each is a theorem unless marked *observed*)

* F1 `tweedie_deviance` for p < 0 drops the cross term for y <= 0 (`C08_..._refuted`).
* F2 Binomial unit deviance is not 0 at mu = y for fractional y (*C04 note*).
* F3 `guess_intercept` with logit link and offset is an approximation (documented by glum).
* F4 A warm start loses the coefficient of a constant column (`C36_..._refuted`).
* F5 `_get_start_coef` clips the start to user-scale bounds on the standardised scale: a silent fit can
  violate the bounds (`C57_..._refuted`).
* F6 Warm start with `fit_intercept=False` is not rescaled (`C36_..._refuted`).
* F7 `_get_alpha_path` guesses the intercept without the offset; the largest alpha can then be too small
  (`C40_offset_refuted`: a Poisson fit whose every solution at that alpha has a non-zero coefficient).
* F8 `wald_test(R=..., r=None)` always raises (`C46_R_needs_r_refuted`).
* F9 Cluster labels are used as array indices (`C47_labels_refuted`).
* F10 `_info_criteria` is cached and never invalidated (`C49_current_refuted`).
* F11 The "L1 needs a CD solver" check is missing for paths and CV (`C51_l1_path_refuted`).
* F12 `X_model_spec_` stays after a refit without formula (`C61_formula_refuted`).
* F13 The dropped reference level of a factor is not part of the monotonicity constraint (*see C32*).
* F14 Non-numeric levels are ordered lexicographically (*see C32*).
* F15 After a failed line search the step is taken anyway, with a warning (*see C28*).
* F16 The monotonic solver mixes the score of the old penalty with the new P2 (*observed*).
* F17 Zero-weight rows enter the "no variation" check (`C15_..._refuted`).
* F18 Conflicting monotonic directions for one factor: the last wins silently (`C32_..._refuted`).
* F19 monotonic constraints + bounds with solver 'auto' ignores the bounds (`C51_bounds_refuted`).
* F20 `min_alpha_ratio` and friends are not validated (`C39_ratio_refuted`).
* F21 A per-coefficient penalty vector whose length equals the number of columns is read per column (`C38_ambiguous_refuted`).
* F22 `predict` with weights and several alphas broadcasts along the alphas (`C44_..._refuted`).
* F23 `predict` raises for an all-zero-weight batch (`C44_..._refuted`).
* F24 A zero-weight CV test fold turns the averages into NaN (`C43_zero_weight_fold_refuted`).
* F25 Warm start without intercept and with bounds clips the stored coef_ in place (`C59_clip_refuted`).
* F26 A failed fit has already replaced levels, model spec, names and link (`C60_atomic_refuted`).
* F27 The documented `P1=None` raises (`C51_array_refuted`).
* F28 A numpy array of alphas with alpha_search and solver 'auto' raises (`C51_array_refuted`).
* F29 Family/link patterns are searched, not matched: misspelt names pass (`C52_unknown_refuted`);
  for Tweedie powers below 0 the automatic link leaves the range of the mean.
* F30 `log_likelihood` of a Tweedie model with power below 0 enters the series branch and takes
  log(power - 1): NaN instead of an error (read in the code; the theorems assume 1 < p < 2 there).
* F31 "should converge in one iteration for any normal problem" is false for irls-cd with an L1
  penalty: a feature screened out of the single iteration leaves an unconverged fit and a warning that
  no `max_iter` removes (`C72_lasso_one_iteration_refuted`).
* F32 lbfgs ends with warnflag 0 also on a small relative reduction (factr=1e2) and trust-constr with
  success also on a small trust radius: silent, without optimality guarantee (excluded by
  `lbfgs_no_early_stop`, `trust_no_early_stop` in the contracts of C70).
* F25 in memory: `C73_reused_refuted`: the array of the previous coef_ is clipped in place, and also
  rescaled in place if the solver makes no step.
* F33 (read in the code, not modelled) `self._alphas = self.alpha` keeps the user's array of alphas, so
  a later change of that array changes the fitted estimator's grid.  A custom `cv` object yielding
  slices instead of index arrays would make `w_train /= w_train.sum()` write into sample_weight (off the
  documented contract of sklearn splitters, which yield arrays).
* F34 under a `joblib.parallel_backend("threading")` context (which overrides the hint
  prefer="processes") the folds share one estimator and race on `self.coef_path_`, `col_means_`,
  `col_stds_`: a fold can return another fold's coefficients (`C74_threads_refuted`).
* F35 the documented meaning of the largest alpha ("the lowest alpha such that no l1-regularized coefficients are
  nonzero", docstring of _get_alpha_path) fails when some columns have P1 = 0: the gradient is taken
  at zero coefficients for those columns too (`C40_unpenalised_refuted`).
* F36 `is_pos_semidef` calls `scipy.linalg.eigsh`, which does not exist: every fit with a sparse P2 of
  order 2000 or more raises AttributeError (`C76_large_sparse_refuted`).
* F37 robust covariance matrices do not treat integer weights as repetitions (squared weights in the
  meat), and with clusters a cluster of zero-weight rows still counts in G/(G-1)
  (`C77_robust_repetition_refuted`, `C77_cluster_zero_weight_refuted`).
* F38 the column "intercept" of the diagnostics table is the first coefficient of the standardized
  problem, intercept_ + sum of column means times coef_, not intercept_ (`C79_intercept_refuted`).
* F39 score compares with the constant mean of y even when an offset is given, so an exactly optimal fit
  with an intercept can have an arbitrarily negative score on its own training data
  (`C80_offset_refuted`); without offset it cannot (`C80_training_score`).
* F40 TweedieDistribution, TweedieLink and NegativeBinomialDistribution check their parameter before casting it to
  float32: a power within 2^-24 of 2 (or 1) is stored as 2 (or 1), so a compound Poisson-gamma family silently
  becomes the gamma family, which rejects y = 0 (`C82_power_class_refuted`); theta <= 2^-150 is stored as 0,
  which the setter itself would reject (`C82_theta`); NaN is accepted as a power (`C82_power_accepted`).
* F41 a bound other than 0 can be violated by an ulp of the reported coefficient, because bounds are divided by
  and coefficients multiplied by the rounded scale (`C84_bounds_refuted`); sign constraints are exact
  (`C84_sign_constraints`).
* F42 monotonic_constraints order the coefficients of the columns that exist: with the default bs(x), which has no
  first basis function (and with a dropped reference level), an "increasing" fit can still predict decreasing values
  at the lower end (`C85_spline_refuted`, `C85_reference_refuted`); the tutorial's own example uses such a basis.
  With all the columns, or with a first coefficient of the right sign, it cannot (`C85_spline`, `C85_reference_level`).
* F43 text levels are ordered alphabetically, not by the declared order of the categories: "increasing" on low,
  medium, high forces the prediction at low to be at least the one at high (`C85_text_levels_refuted`).
* F44 an interaction with a factor that takes negative values, and a TweedieLink, reverse the direction of the
  prediction (`C85_sign_refuted`, `C85_link_refuted`).
* F45 a fit by irls-ls-monotonic without any warning can be far from the constrained optimum: rows violated at the
  previous iterate are penalised as equations with weight up to 1e9, the gradient test is made on the penalised
  objective, and a penalised row that ends strictly inside is not released (`C86_optimal_refuted`: started at a
  slope of -2e-12 the fit returns a slope below 1e-7 instead of 9/5).
* F46 TweedieLink(2) (and 4/3, 6/5, ...) returns negative means for negative linear predictors without any error,
  also for gamma, Poisson or inverse Gaussian families; TweedieLink(3/2) gives eta and -eta the same mean. Other
  powers raise ValueError (`C87_accepts`, `C87_mean_range_refuted`).
* F47 with the complementary log-log link the labelling of the outcomes matters: fits to y and to 1 - y are not mirror
  images (`C88_cloglog_refuted`); with the logit link they are, exactly (`C88_swap`, `C88_rows`).
* F48 for links other than identity, log and logit (cloglog, Tweedie links) the default start ignores the offset:
  `guess_intercept` returns `link(average y)` whatever `eta` is (_distribution.py 1630-1635). With a large constant offset the
  fit starts far from the data (`C90_guess_other_links`), while for the three other links it starts where it should (`C90_guess`).
* F49 aggregation can make a fit fail: if all cells have the same mean response, `guess_intercept` raises "No variation in y"
  for the aggregated rows although the same fit of the full rows returns (`C91_no_variation_refuted`).
* F50 `fit(force_all_finite=False)` validates a matrix with NaN or infinite entries, but `predict`, `linear_predictor` and `score`
  refuse it: `_compute_linear_predictor` (_glm.py 894-902) does not pass the option on (`C92_nonfinite`).
* F51 `check_array_tabmat_compliant` has a branch for `tm.StandardizedMatrix` (_validation.py 40-44) that can never succeed: the
  one-dimensional shift goes through `check_array` with the default `ensure_2d=True`; had it succeeded, the branch would have
  dropped `mult` (`C92_standardized_refused`).
* F52 `context=0` is documented as "make the calling scope available" in every method, but `linear_predictor`, `score`, `aic`,
  `aicc` and `bic` hand the integer to a further method before it is resolved (`_compute_linear_predictor` _glm.py 892, `predict`
  980, `_get_info_criteria` 3126), so it reaches a frame of glum instead: names of the caller are not found (or, for names such as
  `offset` or `y`, glum's own locals are used).  `linear_predictor` of the CV estimator is off by two (`C94_slip`,
  `C94_calling_scope_refuted`).
* F53 With a two-sided formula whose response uses the context, `fit(context=0)` works but `covariance_matrix`, `std_errors`,
  `coef_table` and `wald_test` re-evaluate the response without a context (_glm.py 1624, `C94_response`).
* F54 `predict(X, sample_weight=0.5)` with an integer array X returns zeros: the number is converted to X's element type
  (`np.full(n, 0.5, dtype=int)`); `score(X, y, sample_weight=0.5)` with integer y raises ZeroDivisionError. The same weights as
  a vector work (C99_predict_refuted, C99_score).
* F55 `family.dispersion(y, mu)` with y of shape (n, 1) and mu of shape (n,) sums over all n * n pairs without an error, and so does
  the deviance of the binomial family; the other deviances raise (C98_column, C98_column_refuted).
* F56 (C102): TweedieDistribution(nan) and TweedieLink(nan) are accepted by the constructors (both comparisons of the range
  check are False); such an object is not equal to itself.
* F57 `copy_X=False` is refused for integer arrays and scattered frames only: boolean, half-precision and object arrays and CSR and COO
  matrices are copied without a word (C110_copy_refuted).
* F58 A `formula` is ignored when X is an array: no error, no warning, the columns of X are used as they are (C110_formula_ignored).
* F59 `covariance_matrix(X, y)`, and the standard errors and tests built on it, ignore the y passed once any fit has read a two-sided
  formula, also after `set_params(formula=None)` and a new fit, and also if that fit was refused (C110_covariance_response, ex110_stale).
* F60 A formula fit refused for want of y has already replaced `X_model_spec_`: `predict` on a frame then multiplies the old coefficients
  with the columns of the new formula (C110_frame_terms, ex110_orphan).


## 8. Tests of the theorems against wrong programs

`seeded/LOG.jsonl` records one line per attempt: the definition edited, the edit, the English claim it
breaks, the theorems that failed to check on the edited model, and the theorems or specifications
tightened when an edit survived. The edits are made in a scratch copy, which is rebuilt; the scripts
are not part of the deliverable.
