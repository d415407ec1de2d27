{
 "C03": {
  "note": "argsort is a parameter with the contract is_argsort; the shift law assumes the sort gives the same order for shifted values (numpy's argsort is deterministic on the order pattern)."
 },
 "C05": {
  "note": "diag_of_sp_prod is the same text on sparse arguments and is covered on their dense meaning."
 },
 "C06": {
  "note": "numpy branch; real arithmetic instead of floating point."
 },
 "C08": {
  "note": "REFUTED in general: meshgrid's default 'xy' indexing swaps the first two axes. C08_melt_refuted gives a witness, C08_melt_refuted_general all shapes with two leading dimensions >= 2; C08_melt_partial proves the claim where it holds.",
  "status": "partial"
 },
 "C09": {
  "note": "Histories of add_constraints, _add_constraint, clear_constraints, check_feasible and dense solve. C09_sparse_solver_then_add records that a sparse solver breaks later additions. qpsolvers itself is outside the model."
 },
 "C14": {
  "note": "min_firm_type is a valid non-negative index."
 },
 "C16": {
  "note": "min_firm_type is a valid non-negative index."
 },
 "C17": {
  "note": "REFUTED for nwt >= 1 below nl: the stride is nl*k + l instead of l*nk + k. C17_stationary_partial proves the claim for nwt=-1 or nwt>=nl; C17_stationary_exact gives the exact meaning for every nwt; C17_one_type_coprime/C17_one_type_refuted decide nwt=1 with NoWorkerTypeInteraction for all sizes; C17_two_types_refuted is the Linear case.",
  "status": "partial"
 },
 "C20": {
  "note": "REFUTED for objects without constraints of one kind; C20_pad_partial proves it when both kinds are present or nothing is padded.",
  "status": "partial"
 },
 "C21": {
  "note": "The inner linear solver is a parameter with the contract exact_solver (it solves the system it is given); C21_worker_equations_any_solver needs no contract."
 },
 "C23": {
  "note": "REFUTED for the worker-worker block: line 1280 adds a vector to every row instead of a diagonal. C23_inverse_blocks_partial proves the other three blocks; C23_inverse_blocks_refuted characterises exactly when the fourth is right.",
  "status": "partial"
 },
 "C24": {
  "note": "np.sqrt is a parameter with the contract root_ok on the weights of the data; exact inner solver."
 },
 "C25": {
  "note": "Expectation over an arbitrary finite probability space with uncorrelated mean-zero errors."
 },
 "C26": {
  "note": "REFUTED for the exact trace of var(alpha): bias s2 (nw-1)/sum w, C26_var_alpha_refuted. Unbiasedness proved for var(psi), cov(psi, alpha), every custom form and every approximate trace in expectation (C26_approximate_partial).",
  "status": "partial"
 },
 "C27": {
  "note": "REFUTED under heteroskedasticity: the leave-out variances centre by the sample mean, bias 12/875 on a five-row data set; exact HE traces use the weight once instead of twice. Proved: exact bias formulas for every data set (C27_sii_exact, C27_corrected_exact), unbiasedness for equal error variances and for any errors when the correction is given the true variances.",
  "status": "partial"
 },
 "C28": {
  "note": "Average over all sign vectors; Hutch++ for any matrix Q with orthonormal columns."
 },
 "C30": {
  "note": "Plug-in and corrected components given the same traces; the code's exact traces do not implement VarPsiPlusAlpha (NotImplementedError)."
 },
 "C33": {
  "note": "REFUTED as stated: rows that share the normalised firm or category 0 get no cross term, and no own term, when every clustering column has them in category 0 (C33_refuted, C33_zero_refuted). C33_partial gives the exact set of pairs the code counts; C33_full_partial proves the full statement when no row is in a normalised category (e.g. clustering by worker).",
  "status": "partial"
 },
 "C35": {
  "note": "Nestedness and mover counts are proved for all draws, for increasing attrition for every cleaning that keeps a set of firms and workers with all observations between them and leaves out no mover of the kept firms (proved of the largest connected set). REFUTED for decreasing attrition when read as the observations used after cleaning: the largest connected set may switch to another component (C35_decreasing_used_refuted).",
  "status": "partial"
 },
 "C37": {
  "note": "np.argsort is a parameter with the contract is_argsort. All arguments of _sort_parameters given."
 },
 "C38": {
  "note": "The shared-array effect of the shallow dictionary copy on the caller is outside the model."
 },
 "C39": {
  "note": "Proved for pk1 (any posteriors, any pair unobserved raises ValueError) and for the rows of pk0 with stayers through the whole loop. REFUTED for pk0: a firm type without stayers other than the last gets a nan row silently.",
  "status": "partial"
 },
 "C40": {
  "note": "Equal weights and d_prior = 1 as in the statement; every firm type has stayers (otherwise the recorded likelihood is nan, see C39). np.log(0) = -inf is outside the model: starting proportions are positive."
 },
 "C41": {
  "note": "Selection for all lists of models, with ties, missing measures and the error cases; force_min_firm_type for any number of firm types. The estimated models are arbitrary values.",
  "status": "proved"
 },
 "C42": {
  "note": "Normal end proved for arbitrary inner methods, phases proved. REFUTED on exceptions: the parameters of the failing call remain; every fit_A call that iterates raises (weights1 unbound) and leaves update_s, update_pk1 off.",
  "status": "partial"
 },
 "C43": {
  "note": "REFUTED: NNm[a, b] multiplies the pk1 row of the pair (b, a). Graph proved for symmetric counts; the period shares are exchanged even then.",
  "status": "partial"
 },
 "C44": {
  "note": "REFUTED for bounds above 1: the bound is put on the variances, so a fit with s_lower_bound = 4 returns standard deviations of 2. Proved for bounds in (0, 1] over whole fits (any data, any valid constraints), and for every bound as a bound on the variances. Models without control variables.",
  "status": "partial"
 },
 "C45": {
  "note": "Distribution proved for reallocate_jointly=True (all periods) and for period 'first'; REFUTED for reallocate_jointly=False with 'second' or 'all' (pk0_period2 unbound).",
  "status": "partial"
 },
 "C50": {
  "note": "If the iteration stops, the returned values solve the flow equations up to the tolerance (C50_flow_partial), fixed points are exactly solutions, normalised and unique. REFUTED in general: on two firms the iteration can oscillate for ever and the values returned after max_iters do not solve the equations (C50_refuted); max_iters = 0 fails; firms that are only joined or only left raise IndexError / ValueError; the reported correlation pairs firm values with firm effects of other firms (C50_alignment_refuted).",
  "status": "partial"
 },
 "C51": {
  "note": "str2bool and clear_dict are proved in full. The use made of them is modelled too: options that are accepted reach the estimator unchanged and the rest are defaults, but every integer option is passed on as text and refused (C51_integers_refuted), as are --ndp and --wo_btw. ParamsDict is an outside package and is modelled by the declarations it is given.",
  "status": "partial"
 },
 "C54": {
  "note": "REFUTED for two or more periods: P is nl*nk by nl*nk while constraints have nt*nl*nk columns. C54_check_feasible_partial proves it for one period.",
  "status": "partial"
 },
 "C60": {
  "note": "REFUTED on exceptions: drop_single_stayers stays off (C60_refuted). Proved when subsets are returned.",
  "status": "partial"
 },
 "C61": {
  "note": "Proved whenever the function returns. REFUTED for decreasing attrition: np.flip of the dictionary of tables always raises (C61_decreasing_refuted).",
  "status": "partial"
 },
 "C62": {
  "note": "Proved when movers per firm do not go down along the shares. REFUTED otherwise: unbound variable or a position outside the neighbouring shares (C62_refuted).",
  "status": "partial"
 },
 "C63": {
  "note": "Real arithmetic; positive standard deviations and proportions."
 },
 "C64": {
  "note": "Models without control variables. Also: for d_prior above 1 the penalised likelihood does not fall; REFUTED without the hypotheses: the recorded values fall for d_prior above 1 (the first value has no prior term) and for unequal weights (pk1 is updated with weights the likelihood does not use).",
  "status": "proved"
 },
 "C68": {
  "status": "partial",
  "note": "REFUTED for the moments of stayers: inner merges with the tables of leavers and of joiners drop every stayer of a firm that nobody leaves or nobody joins, even for the moment that involves stayers only (C68_moments_stayers_refuted). Proved for leavers and joiners in full, and for stayers over the firms that remain."
 },
 "C69": {
  "status": "partial",
  "note": "REFUTED for stayers: cov_AsPsi1 is the sum of two estimates of cov(A, psi) + var(psi) minus var(psi) once, that is 2 cov + var(psi); cov_AsAs and the reported cov_wt and tot_cov inherit the error (C69_stayers_values, C69_stayers_refuted, C69_cov_wt_overstated). The other parameters are proved right."
 },
 "C71": {
  "status": "partial",
  "note": "REFUTED for the scale: var_y divides by n, tot_var and tot_cov by n - 1 (C71_shares_refuted). The totals themselves are proved (C71_exact)."
 },
 "C70": {
  "status": "partial",
  "note": "REFUTED twice: the trace term divides by n - 1 where the direct term divides by n, so the expected report is not the posterior expectation of the variance (C70_expected_partial gives the exact value, C70_expected_refuted a witness), and firms seen only with stayers get prior mean 0 instead of their cluster's effect (C70_prior_refuted). Proved: the posterior mean is the unique penalised least-squares solution."
 },
 "C52": {
  "status": "partial",
  "note": "REFUTED: three of the ten equations per group are wrong (the coefficient meant for cov(y3, y4) overwrites the one for var(y1), and var(y4) has a sum for a product), so the true rhos never fit exactly (C52_equations_refuted, C52_true_rho_refuted); the default weights are repeated in the wrong order (C52_weights_refuted); the version in differences works for eight firm types only and then fixes two variances at zero (C52_differences_refuted, C52_differences_zero). Proved: the moments, the other seven equations, optimality of the fit, exact recovery without persistence."
 },
 "C48": {
  "status": "partial",
  "note": "Proved without weights for both estimators and all results, and with weights for the standard estimator except var(y). Not true of the alternative estimator with weights, see C74."
 },
 "C73": {
  "status": "partial",
  "note": "REFUTED with unequal weights: pairs are weighted by the products of square roots of weights and units by sums of weights, so the part linear in the shift does not cancel (C73_weighted_refuted). Proved without weights."
 },
 "C74": {
  "status": "partial",
  "note": "REFUTED twice. var(y) is the weighted variance of weight times wage, positive for constant wages (C74_var_y_refuted), and scales with the square of the weights (C74_rescale_partial). The alternative estimator with unit weights halves the average products of pairs (C74_alternative_refuted, the two factors marked FIXME in the code are 2 and 1). Proved for the other results of the standard estimator."
 },
 "C76": {
  "status": "partial",
  "note": "REFUTED for the covariance when a worker-firm pair is observed more than once, which long data without returns allow: a wage is multiplied with itself (C76_repeated_pairs_refuted). Proved for the variances and, with single spells, for the covariance; unweighted only."
 },
 "C77": {
  "status": "partial",
  "note": "Proved for firm means, with and without weights (homoskedastic errors). REFUTED for upper bounds with weights: the mean is s2/w times (T - w)/((T - 1) w), T the worker's total weight, right only if w = 1 (C77_upper_bound_weighted_refuted)."
 },
 "C78": {
  "status": "partial",
  "note": "Proved: files, unbiased moments, the first-order bias c/k. REFUTED for the non-linearity factor: it is 1 - (c + delta)/k, the term Bi has the wrong sign and twice the cross moment; with three rows of one worker 8/(27k) is removed where 5/(9k) is needed (C78_factor_refuted)."
 },
 "C58": {
  "status": "partial",
  "note": "Proved for data without collinear columns. REFUTED otherwise: with collinear columns (for example a control that is constant for every worker) the unweighted sigma^2 divides by n minus the number of columns instead of the rank and is too large on average, and the analytical trace raises LinAlgError (C58_collinear_refuted, C58_sigma_trace). REFUTED for the row variances under heteroskedastic errors: wages are centred by a mean that contains the row (C58_sii gives the mean, C58_sii_refuted an example); right for variances s2 over weight (C58_sii_partial)."
 },
 "C59": {
  "status": "partial",
  "note": "Proved: unit weights. REFUTED: weights times c divide the squared standard errors by c^2 while the estimates stay (C59_scale_refuted); without weights the squared standard error is on average (n - k)/n of the squared error, no degrees of freedom are deducted (C59_standard); with the default clusters the number under the root can be negative, as pairs of rows in the normalised firm do not count (C59_negative_refuted)."
 },
 "C49": {
  "status": "partial",
  "note": "Proved for matrices in canonical format whose diagonal elements are stored, with the thresholds, both treatments of the diagonal, the shifts and the arrays reused between them; also that no array access leaves its bounds, and exactness without thresholds. REFUTED where a diagonal element is not stored: t[j] stays 0 and the elements of earlier columns are read into column j (C49_unstored_refuted)."
 },
 "C80": {
  "status": "partial",
  "note": "Proved for collapsed data whose weights are the same for all spells of a worker: the true slopes are a fixed point of the matrix used (C80_fixed_point) and are returned by the alternative estimator when the pairs link all firms (C80_recovered). REFUTED for weights that differ between spells, as collapsing produces: default options return 7/8 instead of 1 (C80_weights_refuted). REFUTED on the long format: spells of more than one period end in an IndexError (C80_long_refuted). Missing: that the fixed vector is unique for the other estimator (alternative_estimator=False)."
 },
 "C81": {
  "status": "partial",
  "note": "Proved for methods 'iv' (C81_iv) and 'linear' (C81_linear). REFUTED: the default method 'liml_1' inverts a singular matrix on wages without noise (C81_default_refuted); stationary_a constrains A/B, not A, so the returned A1 and A2 differ (C81_stationary_a_refuted); worker_ids with coarse > 0 reads an unassigned variable and worker ids of movers that are not numbered from 0 are refused (C81_worker_ids_refuted). Missing: methods 'liml_2', 'hful' and profiling are not modelled."
 },
 "C82": {
  "status": "partial",
  "note": "Proved for method 'iv': entries are the weighted means of the firms that have stayers (C82_alpha). REFUTED when a firm has no stayers: its entry is dropped and later ones move up, so alpha is not aligned with A and B (C82_missing_refuted)."
 },
 "C46": {
  "status": "partial",
  "note": "Counts, ids, contiguous firms with one type each, movers move, first firms of the row's type: proved for all counts and draws. REFUTED for the second firm: draws for movers' second firms are laid out by increasing second type while rows are ordered by first type, so with two or more firm types some mover's second firm is of another type (C46_firm_types_refuted, for all draws); C46_second_firm says exactly when it is right. Without control variables; an endless redraw loop is OutOfFuel."
 },
 "C47": {
  "status": "partial",
  "note": "Proved with one worker type. REFUTED otherwise: np.mean(A, axis=1) is lined up with the firm types, so nl != nk is refused with ValueError for all draws, and nl = nk gives other variation (C47_square says exactly when it is right)."
 },
 "C83": {
  "status": "partial",
  "note": "Proved for A1, for strictly_monotone_a in both periods, and for additivity. REFUTED for A2 by default: firm types are ordered by A1 only, although the documentation requires A2 to be increasing on average as well."
 },
 "C66": {
  "status": "partial",
  "note": "Proved for every fit that returns (C66_bootstrap, C66_decomposition; stayers have one firm and one firm type). REFUTED when a sample raises: wages, firm types, ids and the added time column stay replaced (C66_*_error_refuted); with n_samples=0 the decomposition always raises IndexError and leaves the column (C66_no_samples_refuted). The standard bootstrap (resampling of workers) is not modelled."
 },
 "C85": {
  "status": "partial",
  "note": "Proved for every sample of the parametric bootstrap and of the decomposition (C85_bootstrap, C85_decomposition, C85_unweighted); the generator is assumed to return only types with positive probability and the right number of them. REFUTED with weights other than 1: the simulation divides the standard deviation by the weight, the likelihood corresponds to division by its square root (C85_weights_refuted)."
 },
 "C65": {
  "status": "partial",
  "note": "Proved: the exact meaning of all generated constraints (C65_meaning), uniqueness of the effects when normalize=True and a constrained column is reached (C65_identified, Stationary objects for all worker types), and that the normalisation excludes no model when the user adds only Stationary (C65_attainable). REFUTED: the scan of the columns breaks at the first time-varying interacting column, so an unconstrained one that comes first by name switches all normalisation off (C65_order_refuted); normalize=False still normalises the stored estimates and can break the user's constraints (C65_normalize_false_refuted)."
 },
 "C86": {
  "status": "proved",
  "note": "No control variables."
 },
 "C87": {
  "status": "proved",
  "note": "No control variables (with control variables a fit with updates does not complete, see DESIGN.md), force_min_firm_type=False, return_qi=False. The QP solver is a parameter assumed exact."
 },
 "C88": {
  "status": "proved",
  "note": "No control variables. Each squared difference is divided by the standard deviation (that is what the code does, and why C89 fails), stated in sqdev."
 },
 "C89": {
  "status": "partial",
  "note": "REFUTED (C89_falls_refuted): the A-step divides by standard deviations instead of variances, so with unequal variances the likelihood can fall even if only effects are updated. Proved (C89_partial) without updates of rhos and standard deviations, for equal variances if effects are updated, and without prior."
 },
 "C90": {
  "status": "proved",
  "note": "No control variables. If every residual regressed on is zero the code divides by zero; that case is excluded."
 },
 "C91": {
  "status": "partial",
  "note": "REFUTED (C91_rho_refuted): the regression for variances reuses the design matrix of the effects, with -rho in place of rho^2. Proved (C91_movers_partial, C91_stayers_partial) when every rho is 0 or -1."
 },
 "C92": {
  "status": "partial",
  "note": "REFUTED for firm_clusters_as_ids (C92_firm_types_as_ids_refuted): only the firm ids of the first and the last period are replaced by firm types, so the regression mixes firm types and firms; and for reallocate_jointly=False with period 'second' or 'all' (C92_reallocate_refuted: UnboundLocalError). The rest is proved. No control variables."
 },
 "C93": {
  "status": "partial",
  "note": "REFUTED for the decomposition (C93_decomposition_refuted): with firm_clusters_as_ids (the default) the stayers' first-period firm ids remain firm types after every run, because j4 is restored twice and j1 never; and after exceptions. Proved for the bootstrap, the movers, and the decomposition without firm_clusters_as_ids. The column t is left out."
 },
 "C94": {
  "status": "partial",
  "note": "REFUTED where movers between two firm types go in one direction only (C94_direction_refuted: counts are paired with the proportions of the opposite direction), for a single firm type (C94_one_firm_type_refuted: IndexError) and for all=True (C94_all_refuted: the vector is overwritten). Proved where movers go both ways or not at all (C94_measure_partial), with LinAlgError if a firm type has no mover of some worker type (C94_isolated). Exact arithmetic; np.linalg.eig is a parameter that returns the real eigenvalues."
 },
 "C95": {
  "status": "partial",
  "note": "REFUTED for the options: update_a_movers, update_s_movers and update_pk1 change nothing (C95_switches_refuted), force_min_firm_type raises TypeError on all data (C95_force_refuted), compute_NNm=False never completes on a new model (C95_counts_refuted). Phases, choice and stayers proved (C95_movers, C95_estimator), without control variables; drawn starting values, rho_init and eigenvalues are parameters. C95_estimator needs constraints valid for movers and stayers, so by C98 no user constraint that excludes something."
 },
 "C96": {
  "status": "partial",
  "note": "REFUTED: with any control variable the movers' estimation never completes (C96_controls_refuted, for all data and all outcomes of the numerical parts), and C96_errors says which exception is raised when. Without control variables it completes (C96_no_controls_partial). Modelled at the level of dictionary keys and array shapes; numbers are parameters."
 },
 "C97": {
  "status": "partial",
  "note": "REFUTED in three parts. C97_em: what fit_movers does, for all data and options: the run, its stopping, the optimality of every block of effects in turn, the regression that gives the variances, the shares, the best of the forced runs, which happen only if asked for or after a run that ended with its first cycle. But every block of standard deviations is fitted to the whole squared residual, so with control variables the predicted variance exceeds it for every worker type, firm type and period after an iteration (C97_variance_refuted), the recorded likelihood can fall (C97_likelihood_refuted), and update_a without update_s always raises (C97_update_a_refuted)."
 },
 "C98": {
  "status": "partial",
  "note": "REFUTED. The movers have four to six periods, the stayers two, and the same objects go to both fits. For any number of periods the constraint is made for, one of the fits keeps the effects (C98_effects_refuted) or standard deviations (C98_spread_refuted) it started from, since the ValueError of the solver is caught; with an inequality for the standard deviations one of the fits never returns (C98_refuses_refuted). For constraints of the right size the updates are the best allowed ones: C88, C91."
 },
 "C99": {
  "status": "proved",
  "note": "The cleaning by bipartitepandas that follows (returns dropped, connectedness) is not modelled; it removes rows. The generator is a parameter; the loop may go on for ever for some draws, the theorem is about the data it returns."
 },
 "C100": {
  "status": "partial",
  "note": "REFUTED for the last sentence: the columns are a * lambda_i and b * mu_j (C100_column_lambda, C100_column_mu: equal to the effects only in special cases; C100_columns_refuted: with the default parameters the column is 4/5 of the effect, so its variance is 0.64 * sigma_lambda_sq). The moments of the wages are proved (C100_moments, C100_refused). rho = 1 or -1 and zero variances, where the code divides by 0, are excluded."
 },
 "C101": {
  "status": "partial",
  "note": "REFUTED for the last sentence (C101_no_coarse_refuted): both estimators pass the shape (n, 1) and direct_solve_size 0, so the coarse grid has no cells and the preconditioner is num_pre_iter + num_post_iter sweeps of damped Jacobi, or always raises if spsolve refuses an empty system. The rest is proved for all shapes (C101_symmetric, C101_coarse; C101_weights gives the entries of the downsampling matrix). The cache of a shape's matrices is left out."
 },
 "C102": {
  "status": "proved",
  "note": "Over an arbitrary real field; rounding is not modelled. spsolve is assumed to accept the empty system (see C101); a single firm is excluded for the V-cycle."
 },
 "C103": {
  "status": "partial",
  "note": "REFUTED for the V-cycle (C103_default_refuted): six rows with one categorical control and no collinear columns, for which the default V-cycle is not positive definite. C103_when says exactly when it is, with two sweeps in all; C103_small_omega: it is if omega < 2 / (2 + number of control columns), so the default 0.8 is safe only without controls. C103_jacobi: Jacobi always is."
 },
 "C104": {
  "status": "partial",
  "note": "REFUTED for the other periods (C104_other_periods_refuted): firm types are ordered by period '12' only, and with strictly_monotone_a the effects '2mb' and '3mb' are left as drawn. The rest is proved for all draws. Ties are not excluded, so 'increasing' is not strict."
 },
 "C105": {
  "status": "partial",
  "note": "REFUTED: with any stationarity option of the model and at least one mover the simulation raises, whatever is drawn (C105_refuted), as it does for interacted categorical controls (C105_interacted_refuted) and, with endogeneity or state dependence, for interacted continuous controls unless the number of movers happens to equal nl (C105_continuous_refuted); a stationary categorical control is zero in all periods if endogeneity or state dependence is off (C105_categorical_refuted, the arrays are shared). The option works for continuous controls, and for categorical ones if both are on (C105_continuous, C105_categorical, C105_variation)."
 },
 "C106": {
  "status": "partial",
  "note": "REFUTED for the second firms (C106_second_firm_refuted), as in C46: they are assigned in order of the second type to rows in order of the first. Everything else is proved. Types and firms are drawn by the same code as in SimBLM and share its model."
 },
 "C107": {
  "status": "proved",
  "note": "mover_shocks and stayer_shocks (DBootSpec) use the means and variances of the likelihood. For stayers the standard deviations '2s' are taken to be nonnegative, as the parameters' bounds make them."
 },
 "C108": {
  "status": "partial",
  "note": "REFUTED for the variances (C108_variance_refuted): standard deviations are added to squared ones without being squared, so for the default range 0.3 to 0.5 no row has the right wage. The means are proved (C108_movers, C108_stayers), with the variance the code uses."
 },
 "C109": {
  "status": "proved",
  "note": "The control variables are added to the run without them (C109_rows), to which C46 and C84 apply; 'adds' uses the mean and variance of the likelihood (mu1, var1, ...)."
 },
 "C110": {
  "status": "partial",
  "note": "REFUTED for stationary_firm_type_variation of a categorical variable that interacts with worker type: the means by worker type are lined up with the categories, so the simulation raises ValueError for different numbers of both (C110_interacted_refuted) and for equal numbers changes the variation (C110_square, C110_square_refuted). Proved without interaction or for one worker type (C110_variation_partial), for continuous variables (C110_continuous) and for the other options (C110_categorical)."
 },
 "C111": {
  "status": "partial",
  "note": "REFUTED (C111_refuted): the column of a control variable is looked up under the number of the period, 0 or 1, which is no label of the data, so every simulation with at least one control variable raises; KeyError if everything else is in order (C111_key_error_refuted). Every round of the bootstrap and the decomposition begins with this call (4212, 4488). Without control variables C92 applies (C111_no_controls)."
 },
 "C112": {
  "status": "partial",
  "note": "REFUTED in one point (C112_refuted): the true values are computed from all simulated observations before cleaning, the estimates from the observations left after cleaning, so even an estimator without error differs from the truth if cleaning drops anything. Everything else is proved: keys and lengths, alignment for one core (with the generator passed on from simulation to simulation) and several cores, prefix, independence of the number of cores, and that nothing raises if the parts return."
 },
 "C113": {
  "status": "proved",
  "note": "For at least one simulation and one estimator plotted. np.sort and drawing are not modelled (they do not change which values are plotted)."
 },
 "C114": {
  "status": "partial",
  "note": "REFUTED in two points: a control variable named eps takes the key var(eps)_fe of the residual variance (C114_eps_refuted), and with an output file all results are replaced by text (C114_output_refuted). C114_results proves the rest for all names other than var(eps)."
 },
 "C115": {
  "status": "partial",
  "note": "REFUTED in three points: given leverages (levfile) with exact_trace_he raise AttributeError (C115_levfile_refuted); an empty list Q_var or Q_cov, which the type check of the parameter admits if it only looks at the members, with an approximate trace raises UnboundLocalError (C115_empty_refuted). With he and statsonly or feonly the square-root matrices are left on the object (C115_left_refuted). C115_completes proves all other combinations, for every state of the object. The numerical work of each step is taken to succeed."
 },
 "C116": {
  "status": "partial",
  "note": "REFUTED in two points: with periods_pre different from periods_post the function raises ValueError (C116_periods_refuted), and for data that are not clustered, or have one class, it raises (C116_unclustered_refuted). C116_subplots and C116_once prove the rest. What plt.subplots, errorbar and enumerate refuse is taken from the documentation of matplotlib."
 },
 "C117": {
  "status": "partial",
  "note": "C117_samples and C117_returns hold for a clustering that keeps the firms' numbers. REFUTED if the cleaning that precedes it numbers the firms of the sample anew without gaps, as bipartitepandas documents for clean (C117_renumbered_refuted): classes are looked up under the old numbers and movers at firms with high numbers get none. bipartitepandas is not part of the repository, so which case applies is not settled here."
 },
 "C118": {
  "status": "partial",
  "note": "What is drawn is right for every number of models (C118_shown, C118_shown_dynamic) and independent of names if no two types tie (C118_labels, C118_labels_dynamic). It can be drawn for up to 40 samples (C118_drawn_partial); for every larger number REFUTED by models with one outlier: the mean lies above the 97.5 percentile and plt.errorbar raises ValueError for the negative length (C118_drawn_refuted)."
 },
 "C119": {
  "status": "partial",
  "note": "Holds if every model has a connectedness measure (C119_points). REFUTED otherwise: for each model without the measure the plot has a point at (0, 0) that belongs to no model (C119_zeros_refuted). Jitter is not modelled."
 },
 "C120": {
  "status": "partial",
  "note": "Every fit_movers that returns keeps what is switched off (C120_kept). REFUTED: update_s=False with update_a=True never returns, since the statement del XwX, weights1, weights2 names variables that are only set when S is updated (C120_s_alone_refuted); and fit_movers_cstr_uncstr, used by BLMEstimator, overwrites all three options, so they have no effect there (C120_estimator_refuted)."
 },
 "C121": {
  "status": "partial",
  "note": "Holds if every firm type occurs (C121_stayers_partial, C121_movers_partial, C121_used_partial). REFUTED otherwise: a type that does not occur is left out of the arrays, all higher types move down (C121_stayers_refuted, C121_movers_refuted); the plot then raises (C121_used_refuted) or, if one type has stayers, gives each firm type all of them (C121_one_type_refuted). fit_stayers does return on such data (C39). C121_columns_refuted is the same for types that no mover joins; C121_totals: no worker is lost or counted twice, for all data. Connectedness, computed at the end of fit_movers_cstr_uncstr, uses the right counts if every type is left and joined (C121_connected_partial); REFUTED otherwise: it raises ValueError if two other types are left or joined (C121_connected_refuted, C121_connected_joined_refuted)."
 },
 "C122": {
  "status": "partial",
  "note": "Stacking (C122_stacked), stayers (C122_stayers) and independence of names (C122_labels) hold for all subsets and periods. For movers and for all workers the average of the two periods is right if counts are symmetric (C122_movers_partial, C122_all_partial); REFUTED for single periods: the plots of the first and second period are exchanged (C122_periods_refuted, C122_all_periods_refuted); for other counts the pairing of counts and proportions is wrong (C43)."
 },
 "C123": {
  "status": "partial",
  "note": "Counts (C123_counts), plots of static models (C123_static), and of dynamic models except for stayers without counts of movers or the reverse (C123_dynamic_partial) hold. REFUTED for dynamic models and stayers: the code checks NNm instead of NNs (C123_dynamic_refuted). REFUTED for fit_movers_cstr_uncstr with compute_NNm=False: it raises AttributeError or uses the counts of earlier data (C123_no_counts_refuted, C123_old_counts_refuted; with compute_NNm=True C123_connected_partial; with missing values in pk1 C123_missing). The estimation and eigenvalues are left out."
 }
}