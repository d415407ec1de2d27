{"id": "C01", "title": "Scrambling work for multiprocessing loses nothing", "statement": "unscramble(scramble(xs)) == xs and scramble(unscramble(xs)) == xs; scramble(xs) is a reordering of xs with the same length. So splitting a job list over processes and unscrambling the results pairs every result with the job that produced it.", "quantifier": "every finite list of any length and element type; every function mapped over the scrambled jobs", "why_tests_cant": "The index arithmetic differs for odd and even lengths and is unbounded in the length; tests try a few lengths.", "anchors": ["pytwoway/util.py:scramble", "pytwoway/util.py:unscramble", "pytwoway/attrition.py:Attrition.attrition"]}
{"id": "C02", "title": "Weighted mean, variance and covariance obey the laws of a weighted sample", "statement": "With positive weights: weighted_mean lies between the smallest and the largest value; equal weights give the plain mean; multiplying all weights by a positive constant changes neither the mean nor (with dof=0) the variance and covariance; weighted_var(v,w) == weighted_cov(v,v,w,w); adding a constant shifts the mean and leaves variance and covariance unchanged; the variance is non-negative; the covariance is symmetric; with common weights var(v1+v2) == var(v1)+var(v2)+2cov(v1,v2).", "quantifier": "all non-empty real vectors, all positive weight vectors of the same length, all dof smaller than the total weight", "why_tests_cant": "Laws over all real vectors and weights.", "anchors": ["pytwoway/util.py:weighted_mean", "pytwoway/util.py:weighted_var", "pytwoway/util.py:weighted_cov"]}
{"id": "C03", "title": "Weighted quantiles stay inside the data and are monotone", "statement": "weighted_quantile raises ValueError exactly when a requested quantile is outside [0, 1]. Otherwise, for positive weights, each returned number lies between the smallest and the largest value, a larger requested quantile never returns a smaller number, and the returned quantiles move one for one with a shift of the values.", "quantifier": "all non-empty real samples, positive weights, all quantile vectors, any tie-breaking of the sort", "why_tests_cant": "Piecewise-linear interpolation over an arbitrary number of knots, with ties.", "anchors": ["pytwoway/util.py:weighted_quantile"]}
{"id": "C04", "title": "Fast diagonal products equal the true matrix products", "statement": "DxSP(d, m), DxM(d, m) equal diag(d) @ m; SPxD(m, d), MxD(m, d) equal m @ diag(d); when d is a single number (including the shortcut for 1) they equal d * m.", "quantifier": "all matrix shapes, all entries, every compressed sparse column layout (including unsorted or repeated row indices)", "why_tests_cant": "Sparse layout and shape are unbounded.", "anchors": ["pytwoway/util.py:DxSP", "pytwoway/util.py:SPxD", "pytwoway/util.py:DxM", "pytwoway/util.py:MxD"]}
{"id": "C05", "title": "Fast diagonal of a product equals the diagonal of the product", "statement": "For conforming matrices diag_of_prod(m1, m2) and diag_of_sp_prod(m1, m2) return, for every i, the (i, i) entry of m1 @ m2, and the function terminates.", "quantifier": "all conforming shapes and entries", "why_tests_cant": "Unbounded shapes; recursion with swapped transposes.", "anchors": ["pytwoway/util.py:diag_of_prod", "pytwoway/util.py:diag_of_sp_prod"]}
{"id": "C06", "title": "logsumexp is exact and yields a probability distribution", "statement": "logsumexp(a) equals log(sum(exp(a))) for every vector although it subtracts the maximum first; every exponential it evaluates is at most 1; and exp(a - logsumexp(a)), which the estimators use as posterior type probabilities, is strictly positive and sums to 1.", "quantifier": "all non-empty real vectors", "why_tests_cant": "Identity over all real vectors.", "anchors": ["pytwoway/util.py:logsumexp", "pytwoway/blm.py:BLMModel._fit_movers"]}
{"id": "C07", "title": "The two parameterisations of the normal log density agree", "statement": "lognormpdf raises ValueError exactly when both or neither of sd and var are given; lognormpdf(x, mu, sd=s) == lognormpdf(x, mu, var=s**2) == log of the normal density for every s > 0; fast_lognormpdf(x, mu, sd, G) equals lognormpdf(x, mu[G], sd=sd[G]) row by row.", "quantifier": "all real x, mu, all s > 0, all group assignments", "why_tests_cant": "Identity over reals and all group vectors.", "anchors": ["pytwoway/util.py:lognormpdf", "pytwoway/util.py:fast_lognormpdf"]}
{"id": "C08", "title": "melt labels every flattened cell with its own indices", "statement": "In the data frame returned by melt(a, cols), the row whose value is a[i0, i1, ...] carries i0, i1, ... in the index columns.", "quantifier": "all arrays of all shapes", "why_tests_cant": "Shape-dependent; symmetric or square arrays hide a transposition.", "anchors": ["pytwoway/util.py:melt"]}
{"id": "C09", "title": "Combining constraints means intersecting them", "statement": "After any sequence of add_constraints and clear_constraints calls on a QPConstrained, a parameter vector satisfies G x <= h and A x = b iff it satisfies every constraint added since the last clear of its kind; the order in which constraints are added and whether they come one by one or in a list do not matter; check_feasible leaves the constraints unchanged.", "quantifier": "all sequences of operations, all constraint matrices, all vectors", "why_tests_cant": "Histories of operations are unbounded.", "anchors": ["pytwoway/constraints/constraints.py:QPConstrained.add_constraints", "pytwoway/constraints/constraints.py:QPConstrained._add_constraint", "pytwoway/constraints/constraints.py:QPConstrained.clear_constraints", "pytwoway/constraints/constraints.py:QPConstrained.check_feasible"]}
{"id": "C10", "title": "Linear constrains exactly linear-in-worker-type effects", "statement": "For nl >= 2, a parameter vector satisfies the constraint built by Linear(nnt, nt) iff for every constrained period and every firm type the effects of consecutive worker types have equal steps. nl = 1 raises ValueError.", "quantifier": "all nl, nk, nt, all sets of constrained periods, all real parameter vectors", "why_tests_cant": "Index arithmetic over unbounded dimensions.", "anchors": ["pytwoway/constraints/constraints.py:Linear"]}
{"id": "C11", "title": "LinearAdditive constrains exactly linear and additive effects", "statement": "For nl >= 2, a parameter vector satisfies LinearAdditive iff in every constrained period there are firm intercepts a_k and one slope d with effect(l, k) = a_k + l d.", "quantifier": "all nl, nk, nt, periods, vectors", "why_tests_cant": "Index arithmetic over unbounded dimensions; needs an induction over worker types.", "anchors": ["pytwoway/constraints/constraints.py:LinearAdditive"]}
{"id": "C12", "title": "Monotonic constrains exactly monotone worker effects", "statement": "A vector satisfies Monotonic(md, increasing, nt) iff for every period and firm type each next worker type is at least md above (increasing) or below (decreasing) the previous one.", "quantifier": "all nl, nk, nt, md, vectors, both directions", "why_tests_cant": "Index arithmetic over unbounded dimensions.", "anchors": ["pytwoway/constraints/constraints.py:Monotonic"]}
{"id": "C13", "title": "MonotonicMean constrains exactly the means over firm types", "statement": "A vector satisfies MonotonicMean iff the mean over firm types (over the constrained periods jointly when cross_period_mean) of each next worker type exceeds the previous by at least md (or is below it by md when decreasing).", "quantifier": "all nl, nk >= 1, nt, distinct periods, md, vectors", "why_tests_cant": "Index arithmetic over unbounded dimensions.", "anchors": ["pytwoway/constraints/constraints.py:MonotonicMean"]}
{"id": "C14", "title": "MinFirmType constrains exactly the chosen firm type to be extreme", "statement": "A vector satisfies MinFirmType(k0) iff the mean over worker types of firm type k0 is at least md below (is_min) or above the mean of every other firm type, per period or jointly over the constrained periods.", "quantifier": "all nl >= 1, nk, k0 < nk, nt, distinct periods, md, vectors", "why_tests_cant": "Index arithmetic over unbounded dimensions and the gap at k0.", "anchors": ["pytwoway/constraints/constraints.py:MinFirmType"]}
{"id": "C15", "title": "NoWorkerTypeInteraction constrains exactly worker-independent effects", "statement": "A vector satisfies NoWorkerTypeInteraction iff in every constrained period and for every firm type all worker types have the same effect.", "quantifier": "all nl, nk, nt, periods, vectors", "why_tests_cant": "Index arithmetic over unbounded dimensions.", "anchors": ["pytwoway/constraints/constraints.py:NoWorkerTypeInteraction"]}
{"id": "C16", "title": "NormalizeLowest and NormalizeAll pin exactly the reference effects", "statement": "NormalizeLowest(k0) holds iff the effect of (worker type 0, firm type k0) is 0 in each constrained period (or on average over them); NormalizeAll(k0) holds iff the effects of (l, k0) are 0 for every worker type l (or on average).", "quantifier": "all nl, nk, k0, nt, distinct periods, vectors", "why_tests_cant": "Index arithmetic over unbounded dimensions.", "anchors": ["pytwoway/constraints/constraints.py:NormalizeLowest", "pytwoway/constraints/constraints.py:NormalizeAll"]}
{"id": "C17", "title": "Stationary constrains worker-firm effects to be equal in all periods", "statement": "Stationary(nwt=-1) holds iff every worker-firm effect is the same in all periods. Stationary(nwt=n) constrains the effects of the first n worker types, so that with NoWorkerTypeInteraction (n=1) or Linear (n=2), as documented, it implies full stationarity.", "quantifier": "all nl, nk, nt, nwt, vectors", "why_tests_cant": "Small square cases hide a wrong stride.", "anchors": ["pytwoway/constraints/constraints.py:Stationary"]}
{"id": "C18", "title": "StationaryFirmTypeVariation constrains exactly the firm variation", "statement": "A vector satisfies StationaryFirmTypeVariation iff for every constrained period t >= 1 and every worker type l the deviations of the effects from their mean over firm types equal those of the baseline period; i.e. A_t = mean(A_t) + A_0 - mean(A_0) per worker type.", "quantifier": "all nl, nk >= 1, nt, periods >= 1, vectors", "why_tests_cant": "Index arithmetic over unbounded dimensions.", "anchors": ["pytwoway/constraints/constraints.py:StationaryFirmTypeVariation"]}
{"id": "C19", "title": "BoundedBelow and BoundedAbove bound every effect", "statement": "A vector satisfies BoundedBelow(lb) (BoundedAbove(ub)) iff every component is >= lb (<= ub).", "quantifier": "all nl, nk, nt, bounds, vectors", "why_tests_cant": "Unbounded dimensions.", "anchors": ["pytwoway/constraints/constraints.py:BoundedBelow", "pytwoway/constraints/constraints.py:BoundedAbove"]}
{"id": "C20", "title": "Padding adds unconstrained parameters", "statement": "After pad(l, r), a vector of length l + n + r is feasible iff its middle n components were feasible before; in particular padding an unconstrained problem leaves it unconstrained.", "quantifier": "all l, r, all constraint states including none, all vectors", "why_tests_cant": "The empty state is a different code path; unbounded sizes.", "anchors": ["pytwoway/constraints/constraints.py:QPConstrained.pad", "pytwoway/constraints/constraints.py:QPConstrained.solve"]}
{"id": "C21", "title": "The two-way fixed effects solution solves the weighted least squares problem", "statement": "Whenever the inner solver returns an exact solution of the reduced firm system, the psi and alpha returned by the FE solver satisfy the weighted normal equations of the regression on firm and worker indicators, and therefore minimise the weighted sum of squared residuals over all coefficient vectors.", "quantifier": "all data sets, all positive weights, all outcome vectors", "why_tests_cant": "Real identity over data sets of all sizes.", "anchors": ["pytwoway/fe.py:FEEstimator._mult_AAinv", "pytwoway/fe.py:FEEstimator._solve", "pytwoway/fe.py:FEEstimator._prep_matrices"]}
{"id": "C22", "title": "Noise-free wages are recovered exactly up to the normalisation", "statement": "If wages are exactly psi_j + alpha_i and the reduced firm system is non-singular, the estimator returns psi_j - psi_0 for every firm and alpha_i + psi_0 for every worker, with psi_hat of firm 0 equal to 0.", "quantifier": "all connected data sets, all true effects", "why_tests_cant": "Over all graphs and effects.", "anchors": ["pytwoway/fe.py:FEEstimator._solve", "pytwoway/fe.py:FEEstimator._estimate_ols", "pytwoway/fe.py:FEEstimator._attach_fe_estimates"]}
{"id": "C23", "title": "The explicit inverse blocks form the inverse of the normal matrix", "statement": "When the exact (non-approximate) options are used, the four blocks computed by the estimator form the inverse of the normal matrix A.T @ Dp @ A.", "quantifier": "all data sets with non-singular reduced system", "why_tests_cant": "Requires checking off-diagonal entries for all sizes.", "anchors": ["pytwoway/fe.py:FEEstimator._construct_AAinv_components_full"]}
{"id": "C24", "title": "Exact leverages are the diagonal of the hat matrix", "statement": "The exact leverage computed for each observation equals the diagonal entry of sqrt(Dp) A (A.T Dp A)^-1 A.T sqrt(Dp); it lies in [0, 1] and the leverages sum to nf - 1 + nw.", "quantifier": "all data sets with non-singular normal matrix, all positive weights", "why_tests_cant": "Identity for all sizes.", "anchors": ["pytwoway/fe.py:FEEstimator._compute_Pii", "pytwoway/fe.py:FEEstimator._compute_leverages_Pii"]}
{"id": "C25", "title": "The homoskedastic residual variance estimate is unbiased", "statement": "With errors of mean zero and common variance s2, the expected value of the reported sigma^2_ho (the residual variance times nn / (nn - number of parameters)) is s2.", "quantifier": "all designs, all true coefficients, all finitely supported error distributions", "why_tests_cant": "Expectation over distributions.", "anchors": ["pytwoway/fe.py:FEEstimator._estimate_sigma_2_ho", "pytwoway/fe.py:FEEstimator._estimate_sigma_2_fe"]}
{"id": "C26", "title": "The homoskedastic correction removes the bias of the plug-in component", "statement": "With homoskedastic errors and exact traces, the expected value of the corrected variance component gamma_hat.T Q gamma_hat - sigma^2_ho tr(Q (A.T A)^-1) equals its true value gamma.T Q gamma.", "quantifier": "all designs, all true effects, all quadratic forms, all finitely supported error distributions", "why_tests_cant": "Expectation over distributions and all designs.", "anchors": ["pytwoway/fe.py:FEEstimator._estimate_approximate_trace_ho", "pytwoway/fe.py:FEEstimator._collect_res"]}
{"id": "C27", "title": "The heteroskedastic correction is unbiased under independent errors", "statement": "With uncorrelated mean-zero errors of arbitrary variances s2_i and leverages below one, the leave-one-out error variance estimate of every observation is unbiased for s2_i, and the heteroskedasticity-corrected component is unbiased for its true value.", "quantifier": "all designs with leverages < 1, all true effects, all variance profiles", "why_tests_cant": "Expectation over distributions and all designs.", "anchors": ["pytwoway/fe.py:FEEstimator._estimate_Sii_he", "pytwoway/fe.py:FEEstimator._estimate_approximate_trace_he"]}
{"id": "C28", "title": "The stochastic trace estimator has the exact trace as its mean", "statement": "The average of the approximate trace contribution over all equally likely sign vectors equals the exact trace, and the reported trace (mean over draws) has that mean for any number of draws >= 1.", "quantifier": "all sizes, all matrices, any number of draws", "why_tests_cant": "Expectation over 2^n sign vectors for all n.", "anchors": ["pytwoway/fe.py:FEEstimator._estimate_approximate_trace_ho", "pytwoway/fe.py:FEEstimator._estimate_approximate_trace_he"]}
{"id": "C29", "title": "Each Q option computes the component it is named after", "statement": "The quantity the estimator computes for Q.VarPsi, VarAlpha, VarPsiPlusAlpha and CovPsiAlpha is the weighted variance (covariance) over observations of the firm effects, worker effects, their sum, (firm and worker effects) of the rows, with firm 0 counted as 0; and it does not change if a constant is moved between firm and worker effects.", "quantifier": "all data sets, all coefficient vectors, all weights", "why_tests_cant": "Identity over all data.", "anchors": ["pytwoway/Q/Q.py:VarPsi", "pytwoway/Q/Q.py:VarAlpha", "pytwoway/Q/Q.py:VarPsiPlusAlpha", "pytwoway/Q/Q.py:CovPsiAlpha", "pytwoway/fe.py:FEEstimator._estimate_fe"]}
{"id": "C30", "title": "Reported components add up", "statement": "For the plug-in, and for every corrected estimator that uses the same exact traces, var(psi + alpha) = var(psi) + var(alpha) + 2 cov(psi, alpha).", "quantifier": "all data sets, coefficients and weights", "why_tests_cant": "Identity over all data.", "anchors": ["pytwoway/Q/Q.py:VarPsiPlusAlpha", "pytwoway/fe.py:FEEstimator._estimate_fe", "pytwoway/fe.py:FEEstimator._collect_res"]}
{"id": "C31", "title": "Averaging leverage batches equals one long run", "statement": "The leverages computed by averaging equal-sized batches over processes equal the average over all draws in one batch, whatever the number of processes; uneven splits are rejected up front.", "quantifier": "all numbers of draws and cores, all draws", "why_tests_cant": "Schedules and partitions are unbounded.", "anchors": ["pytwoway/fe.py:FEEstimator._compute_leverages_Pii", "pytwoway/fecontrol.py:FEControlEstimator.__init__"]}
{"id": "C32", "title": "Controls estimator: coefficients go to the right covariate", "statement": "In the controls estimator the coefficient vector is cut into firm, worker, categorical and continuous coefficients so that each observation's fitted value (sum of its attached effects, times the covariate for continuous ones, with first firm and first category equal to 0) equals the design-matrix row times the coefficient vector.", "quantifier": "all data sets, any number of categorical and continuous controls, any coefficient vector", "why_tests_cant": "Layout arithmetic over any number of controls.", "anchors": ["pytwoway/fecontrol.py:FEControlEstimator._prep_matrices", "pytwoway/fecontrol.py:FEControlEstimator._unpack_gamma_hat", "pytwoway/fecontrol.py:FEControlEstimator._attach_fe_estimates"]}
{"id": "C33", "title": "Clustered standard errors group exactly the observations that share a cluster", "statement": "With clustering on a column, two observations contribute a cross term to the clustered variance iff they share the value of some clustering column.", "quantifier": "all data sets, all cluster columns", "why_tests_cant": "Only shows up for pairs in the normalised category.", "anchors": ["pytwoway/fecontrol.py:FEControlEstimator._estimate_clustered_se"]}
{"id": "C34", "title": "A component between covariates is computed from aligned columns", "statement": "Q.VarCovariate(name) and Q.CovCovariate(a, b) select exactly the coefficient block of the named covariates; duplicate names are rejected; the covariance is symmetric.", "quantifier": "all sets of controls, all names", "why_tests_cant": "Column bookkeeping over any number of controls.", "anchors": ["pytwoway/Q/Q.py:VarCovariate", "pytwoway/Q/Q.py:CovCovariate"]}
{"id": "C35", "title": "Attrition draws are nested", "statement": "In increasing attrition the observations used at a smaller share are a subset of those at every larger share, and in decreasing attrition each step keeps a subset of the previous one, with the number of movers kept as rounded from the requested share.", "quantifier": "all data sets, all subset share sequences, all random draws", "why_tests_cant": "Over all random draws and share sequences.", "anchors": ["pytwoway/attrition_utils/attrition_utils.py:AttritionIncreasing", "pytwoway/attrition_utils/attrition_utils.py:AttritionDecreasing"]}
{"id": "C36", "title": "Attrition output is ordered by share and independent of the number of cores", "statement": "The results of Attrition.attrition are listed in the order of subset shares and are the same for any number of cores given the per-job random streams.", "quantifier": "all numbers of jobs, cores and completion orders", "why_tests_cant": "Schedules are unbounded.", "anchors": ["pytwoway/attrition.py:Attrition.attrition"]}
{"id": "C37", "title": "Sorting BLM types only relabels them", "statement": "Sorting estimated parameters by worker (and firm) type applies the same permutation of types to all parameters: the likelihood of any data set under the sorted parameters with relabelled types is unchanged, in particular pk1 of a pair of sorted types is the pk1 of the original pair.", "quantifier": "all parameter values, all nl, nk", "why_tests_cant": "Two-stage index permutation over unbounded nk.", "anchors": ["pytwoway/blm.py:BLMModel._sort_parameters"]}
{"id": "C38", "title": "BLM normalisation changes no predicted wage", "statement": "Normalising means against a categorical control leaves the predicted mean wage of every worker type, firm type, category and period unchanged, sets the reference effect to zero and keeps a stationary control stationary.", "quantifier": "all parameters, all control configurations", "why_tests_cant": "All branches and all dimensions.", "anchors": ["pytwoway/blm.py:BLMModel._normalize"]}
{"id": "C39", "title": "BLM type probabilities remain probabilities", "statement": "After every EM update each row of pk1 and pk0 is non-negative and sums to 1, and if a firm-type pair has no observation the estimator raises instead of returning an undefined row.", "quantifier": "all data, all posteriors, all d_prior >= 1", "why_tests_cant": "Invariant over all iterations and data.", "anchors": ["pytwoway/blm.py:BLMModel._fit_movers", "pytwoway/blm.py:BLMModel.fit_stayers"]}
{"id": "C40", "title": "The EM updates of the stayer proportions never lower the likelihood", "statement": "Each fit_stayers iteration (with d_prior = 1 and unit weights) gives a likelihood at least as large as the previous one.", "quantifier": "all data, all starting values, all iterations", "why_tests_cant": "Inequality over all data; needs convexity.", "anchors": ["pytwoway/blm.py:BLMModel.fit_stayers"]}
{"id": "C41", "title": "Best-of-many selection in BLM", "statement": "The model kept by the BLM estimator is one of the n_best highest likelihoods among the estimated models with a connectedness measure and has the highest connectedness among these; with force_min_firm_type the model kept has the highest likelihood over all choices of lowest firm type.", "quantifier": "any number of starting values, any likelihoods and connectedness values, ties", "why_tests_cant": "Over all result lists, ties included.", "anchors": ["pytwoway/blm.py:BLMEstimator.fit", "pytwoway/blm.py:BLMModel.fit_movers"]}
{"id": "C42", "title": "Estimation phases leave the user parameters as they were", "statement": "fit_movers_cstr_uncstr, fit_A, fit_S and fit_pk run the documented phases and afterwards the model parameters equal those before the call, also when an inner fit fails.", "quantifier": "all parameter dictionaries, all outcomes of the inner fits", "why_tests_cant": "Failure points are histories.", "anchors": ["pytwoway/blm.py:BLMModel.fit_movers_cstr_uncstr", "pytwoway/blm.py:BLMModel.fit_A", "pytwoway/blm.py:BLMModel.fit_S", "pytwoway/blm.py:BLMModel.fit_pk"]}
{"id": "C43", "title": "Type-pair proportions and mover counts are paired consistently", "statement": "Whenever mover counts by (origin type, destination type) are combined with the pk1 proportions (connectedness measure, type proportion plots, reallocation), the count of a pair multiplies the proportions of the same pair.", "quantifier": "all nk, nl, counts, proportions", "why_tests_cant": "Invisible when counts are symmetric.", "anchors": ["pytwoway/blm.py:BLMModel.compute_connectedness_measure", "pytwoway/blm.py:_simulate_types_wages"]}
{"id": "C44", "title": "The lower bound on standard deviations holds", "statement": "After an S update every estimated standard deviation is at least s_lower_bound.", "quantifier": "all data, all bounds", "why_tests_cant": "Over all bounds including those above 1.", "anchors": ["pytwoway/blm.py:BLMModel._fit_movers", "pytwoway/blm.py:BLMModel._gen_constraints"]}
{"id": "C45", "title": "Reallocated type proportions are a distribution common to all firms", "statement": "With reallocate=True all firm types (pairs) use the same worker type proportions, these are non-negative and sum to 1, for each documented setting of reallocate_jointly and reallocate_period.", "quantifier": "all counts, proportions, option settings", "why_tests_cant": "All option combinations and all sizes.", "anchors": ["pytwoway/blm.py:_simulate_types_wages"]}
{"id": "C46", "title": "SimBLM produces the requested counts and consistent firm types", "statement": "The simulated movers contain exactly NNm[k1, k2] workers for each pair of firm types, the stayers NNs[k], worker ids are distinct across both, movers change firm, and the firm a worker is at belongs to the firm type of that row.", "quantifier": "all counts, all random draws", "why_tests_cant": "Positional alignment over all counts and draws.", "anchors": ["pytwoway/simblm.py:SimBLM.simulate", "pytwoway/simblm.py:SimBLM._simulate_movers"]}
{"id": "C47", "title": "Simulated stationary firm-type variation", "statement": "With stationary_firm_type_variation=True the simulated A2 has the same variation over firm types as A1 for each worker type.", "quantifier": "all nl, nk, all draws", "why_tests_cant": "Broadcasting depends on nl = nk.", "anchors": ["pytwoway/simblm.py:SimBLM._gen_params"]}
{"id": "C48", "title": "Borovickova-Shimer pair products average out own observations", "statement": "The mean of squared (cross) products per worker and per firm used by the estimator equals the average of products over all ordered pairs of distinct observations of that unit.", "quantifier": "all group sizes and wages", "why_tests_cant": "Identity for all group sizes.", "anchors": ["pytwoway/borovickovashimer.py:_compute_mean_sq", "pytwoway/borovickovashimer.py:BSEstimator.fit"]}
{"id": "C49", "title": "Incomplete Cholesky factor reproduces the matrix on its pattern", "statement": "The incomplete Cholesky preconditioner returns a lower triangular factor L with (L L.T)[i, j] = A[i, j] wherever L is allowed to be non-zero, and applying it solves L L.T x = b.", "quantifier": "all symmetric sparse matrices for which it succeeds, all right-hand sides", "why_tests_cant": "All sizes and patterns.", "anchors": ["pytwoway/preconditioners/ichol.py"]}
{"id": "C50", "title": "Sorkin values solve the flow equations", "statement": "A fixed point of the Sorkin iteration satisfies the flow balance equations, each iterate is normalised, and in the attrition comparison the psi of each firm is matched with the value of the same firm.", "quantifier": "all mobility matrices, all iteration counts", "why_tests_cant": "Alignment over all data.", "anchors": ["pytwoway/sorkin.py:SorkinEstimator.fit", "pytwoway/sorkin.py:SorkinAttrition"]}
{"id": "C51", "title": "Command line booleans and parameter dictionaries", "statement": "str2bool maps exactly the documented spellings to True and False and rejects every other string; clear_dict removes exactly the unset entries.", "quantifier": "all strings, all dictionaries", "why_tests_cant": "All strings.", "anchors": ["pytwoway/command_line.py:str2bool", "pytwoway/command_line.py:clear_dict"]}
{"id": "C52", "title": "Dynamic BLM: stayers' variance equations are the covariances of the model", "statement": "The linear system used to initialise rho from stayers states, for each pair of periods, the covariance implied by the dynamic model in the unknown variances.", "quantifier": "all rho values, all variances", "why_tests_cant": "Identity in rho and variances.", "anchors": ["pytwoway/blm_dynamic.py:_var_stayers"]}
{"id": "C53", "title": "Interacted BLM fixed-point intercepts solve weighted least squares", "statement": "Given B, the A and alpha returned by the fixed-point estimator satisfy the weighted normal equations of y = A_j + B_j alpha_i with the last firm normalised to 0, and recover noise-free effects exactly.", "quantifier": "all data sets, all B with non-zero worker norms, all weights", "why_tests_cant": "Over all data.", "anchors": ["pytwoway/blm_interacted.py:InteractedBLMEstimator._fit_a_alpha_fixed_point"]}
{"id": "C54", "title": "check_feasible checks the constraints on the parameters they constrain", "statement": "check_feasible solves a problem whose unknowns are the parameters the added constraints speak about, so every constraint matrix it hands to the solver has as many columns as there are unknowns, whatever constraints were added for however many periods.", "quantifier": "all histories of constraint operations, all nl, nk, nt", "why_tests_cant": "Number of periods, types and constraint histories are unbounded; the method is not covered by the suite.", "anchors": ["pytwoway/constraints/constraints.py:QPConstrained.check_feasible"]}
{"id": "C55", "title": "Covariance of consecutive firm effects pairs consecutive observations of one worker", "statement": "With Q_cov = CovPsiPrevPsiNext(), the plug-in component is the covariance, over all pairs of adjacent rows belonging to the same worker, of the firm effect on the earlier row with the firm effect on the later row: the left and right selections have the same length, the k-th selected left row is immediately followed by the k-th selected right row, no pair mixes two workers, and every adjacent pair of rows of one worker is selected.", "quantifier": "all row orders, numbers of observations, workers and firms, all effect vectors", "why_tests_cant": "The pairing is a property of every row order; tests run one simulated panel in one order.", "anchors": ["pytwoway/Q/Q.py:CovPsiPrevPsiNext"]}
{"id": "C56", "title": "Approximate leverages are unbiased and stay in [0, 1]", "statement": "Averaged over the random signs, the draws that approximate the leverages give exactly P_ii and 1 - P_ii, for any number of draws, and the normalised leverages Pii / (Pii + Mii) lie between 0 and 1.", "quantifier": "all data sets, weights and numbers of draws", "why_tests_cant": "An expectation over all sign vectors and a bound over all data cannot be sampled exhaustively.", "anchors": ["pytwoway/fe.py:FEEstimator._leverage_approx", "pytwoway/fe.py:FEEstimator._estimate_approximate_leverages"]}
{"id": "C60", "title": "Drawing attrition subsets leaves the caller's cleaning parameters unchanged", "statement": "After AttritionIncreasing._gen_subsets the entry drop_single_stayers of the caller's clean_params has the value it had before the call.", "quantifier": "all data sets, shares, draws and cleaning outcomes, including those that raise", "why_tests_cant": "The dictionary is shared by all later simulations of an Attrition object, so the claim is over every path through the draw loop including exceptions.", "anchors": ["pytwoway/attrition_utils/attrition_utils.py:AttritionIncreasing._gen_subsets"]}
{"id": "C61", "title": "Combined attrition tables put every result at its simulation and share", "statement": "In the tables of Attrition._combine_res the entry (i, j) of an estimator is 100 times the estimated variance of firm effects (covariance) of simulation i at share j divided by var(y) of the same result, the x axis lists the shares in percent, and this works for increasing and for decreasing attrition.", "quantifier": "all numbers of simulations and shares, all results, all choices of estimators", "why_tests_cant": "Table sizes and contents are unbounded.", "anchors": ["pytwoway/attrition.py:Attrition._combine_res"]}
{"id": "C62", "title": "The movers-per-firm line lies where the subset reaches the full sample", "statement": "The x position of the movers-per-firm line is the linear interpolation between the two neighbouring shares whose (scaled) movers per firm enclose those of the full sample, the last share if none reaches it and the first if all do.", "quantifier": "all lists of shares and of movers per firm", "why_tests_cant": "Over all lists, including those where movers per firm are not monotone.", "anchors": ["pytwoway/attrition.py:Attrition._combine_res"]}
{"id": "C63", "title": "The BLM E-step computes the mixture likelihood and the Bayes posteriors", "statement": "With or without control variables, the likelihood recorded for the movers is the mean log density of the wages under the normal mixture with the type proportions of the row's own pair of firm types, and the posteriors are the Bayes posteriors of the worker types given the row.", "quantifier": "all parameters with positive standard deviations and proportions, all data, any controls", "why_tests_cant": "Needs the equality of log-sum-exp form and mixture density for all real inputs and every configuration of controls.", "anchors": ["pytwoway/blm.py:BLMModel._fit_movers", "pytwoway/blm.py:BLMModel._sum_by_non_nl", "pytwoway/blm.py:BLMModel._sum_by_nl_l"]}
{"id": "C64", "title": "The movers' likelihood does not fall during a fit", "statement": "Without control variables, with d_prior_movers = 1 and equal weights, the likelihoods recorded in liks1 by a movers fit start at the likelihood of the starting values and never fall, the final parameters have at least the last recorded likelihood, and lik1 is the last recorded value; constrained A included, whenever the starting values satisfy the constraints.", "quantifier": "all data with every pair of firm types observed, all numbers of iterations, worker and firm types, all constraint objects on A, all solvers that return exact solutions or give up", "why_tests_cant": "A statement about every iteration of every EM run; a test sees the runs it makes, and convergence thresholds hide small falls.", "anchors": ["pytwoway/blm.py:BLMModel._fit_movers", "pytwoway/blm.py:BLMModel._gen_constraints"]}
{"id": "C67", "title": "CRE cluster effects are least squares and identified exactly when movers link the clusters", "statement": "The between-cluster firm effects fitted by CREEstimator minimise the squared residuals of the movers' wage changes, are unique up to the normalisation of the last cluster exactly when movers link all clusters, are the true effects when there is no noise, and the wages handed to the within-cluster step average zero in each cell; with wo_btw nothing is removed from the wages.", "quantifier": "all data, all numbers of clusters, all solvers that solve their system", "why_tests_cant": "Optimality compares with all other effects and identification is about every pattern of moves.", "anchors": ["pytwoway/cre.py:CREEstimator.__estimate_between_cluster"]}
{"id": "C68", "title": "CRE leave-out moments leave out what they should and cover everybody", "statement": "A mover's leave-out mean is the average over movers who leave (join) the same firm for (from) another cluster, never containing the mover; the moments of leavers, joiners and stayers are sample covariances over exactly the workers with somebody to compare to.", "quantifier": "all data", "why_tests_cant": "Merges drop rows silently, and a covariance over the wrong set of workers is still a plausible number.", "anchors": ["pytwoway/cre.py:CREEstimator._estimate_within_cluster"]}
{"id": "C69", "title": "CRE within parameters are the model's variances and covariances", "statement": "If the within-cluster moments are those of the CRE model, the reported parameters are the variance of firm effects, the covariances of worker effects with firm effects for leavers, joiners and stayers, the covariances of coworkers' effects, and the variance of the noise in differences.", "quantifier": "all joint distributions of effects and independent noise", "why_tests_cant": "The true parameters are population quantities; a test compares with a noisy sample and cannot see a wrong coefficient in a small term.", "anchors": ["pytwoway/cre.py:CREEstimator.__estimate_within_parameters"]}
{"id": "C70", "title": "CRE posterior variance of firm effects", "statement": "The posterior mean of the firm effects minimises the penalised squared residuals of the movers' wage changes around the prior cluster effects, and the expectation of the reported posterior variance over the random draws is the posterior expectation of the variance of the firm effects over the cross section.", "quantifier": "all data, positive variances, all numbers of draws", "why_tests_cant": "The reported number is random and the target is an expectation over an unobserved posterior.", "anchors": ["pytwoway/cre.py:CREEstimator.__prior_in_diff", "pytwoway/cre.py:CREEstimator.__prep_posterior_var", "pytwoway/cre.py:CREEstimator.__compute_posterior_var"]}
{"id": "C71", "title": "CRE totals are the variance and covariance over the cross section", "statement": "When wages are exactly cluster effects plus worker effects, the reported totals are the variance of the firm effects and their covariance with the worker effects over the cross section, the within parts are zero, and all reported numbers are on the same scale as the reported total variance of wages.", "quantifier": "all noise-free data", "why_tests_cant": "Requires all data sets; a degrees-of-freedom mismatch is invisible at test tolerance.", "anchors": ["pytwoway/cre.py:CREEstimator.__collect_res", "pytwoway/cre.py:CREEstimator.fit"]}
{"id": "C72", "title": "CRE results do not depend on the wage level", "statement": "Adding a number to all wages paid in one cluster changes no within-cluster moment, parameter or result; adding one number to all wages changes nothing that is reported.", "quantifier": "all data, all shifts", "why_tests_cant": "Invariance over all data and all shifts.", "anchors": ["pytwoway/cre.py:CREEstimator.fit"]}
{"id": "C73", "title": "Borovickova-Shimer variances do not depend on the wage level", "statement": "Adding one number to every wage moves the reported mean by that number and leaves the variances, the covariance and the correlation unchanged, for both estimators, with and without weights.", "quantifier": "all data with two observations per unit, all shifts, all weights", "why_tests_cant": "Invariance over all data and shifts; with equal weights the tests cannot see a violation.", "anchors": ["pytwoway/borovickovashimer.py:BSEstimator.fit", "pytwoway/borovickovashimer.py:_compute_mean_sq"]}
{"id": "C74", "title": "Borovickova-Shimer weights", "statement": "Weights all equal to one give the unweighted results, multiplying all weights by one number changes nothing, and the reported variance of wages is the weighted variance of the wages.", "quantifier": "all data, all weights", "why_tests_cant": "The code itself says the reason for a factor two is unknown; a test on one sample cannot tell which factor is right for all.", "anchors": ["pytwoway/borovickovashimer.py:BSEstimator.fit"]}
{"id": "C75", "title": "Borovickova-Shimer leaves the data as they were", "statement": "After fit the caller's frame has the same rows in the same order with the same wages, for both estimators, with and without weights, whatever the sort by firm does with ties.", "quantifier": "all data, all results of an unstable sort", "why_tests_cant": "The order of ties in an unstable sort varies between platforms.", "anchors": ["pytwoway/borovickovashimer.py:BSEstimator.fit"]}
{"id": "C76", "title": "Borovickova-Shimer is robust to noise", "statement": "If wages of distinct observations are uncorrelated around expected wages, the expected estimates of the variances and of the covariance are the estimates at the expected wages less the variance of the mean wage: noise of single observations does not enter.", "quantifier": "all data, all finite distributions of uncorrelated wages", "why_tests_cant": "It is a statement about expectations over all distributions.", "anchors": ["pytwoway/borovickovashimer.py:BSEstimator.fit"]}
{"id": "C77", "title": "Error variances of stayers", "statement": "If the error variance of a row is s2 over its weight, the variance the heteroskedastic correction assigns to a stayer's row is right on average for every documented way to treat stayers, and the corrected components are unbiased.", "quantifier": "all data with movers at every firm, all weights, all finite distributions of errors, all exact solvers", "why_tests_cant": "It is a statement about expectations; one simulated sample cannot separate bias from noise.", "anchors": ["pytwoway/fe.py:FEEstimator._estimate_Sii_he", "pytwoway/fe.py:1620-1775"]}
{"id": "C78", "title": "Leverages from files and from draws", "statement": "Leverages read from files are the mean of the files. Those from random signs rest on unbiased moments, and the non-linearity factor removes the bias of 1/(1 - leverage) to first order in one over the number of draws.", "quantifier": "all data, all numbers of files and draws, the uniform distribution of signs", "why_tests_cant": "The order of a bias in the number of draws cannot be read off finitely many runs.", "anchors": ["pytwoway/fe.py:FEEstimator._extract_precomputed_leverages", "pytwoway/fe.py:FEEstimator._estimate_approximate_leverages"]}
{"id": "C79", "title": "Leverages are refused exactly outside the leave-one-observation-out set", "statement": "A row has leverage below one exactly if its worker and its firm stay linked when the row is left out; the estimator raises ValueError exactly when a row it needs is not, with exact leverages and with any draws of signs.", "quantifier": "all connected data, all positive weights, all draws of signs", "why_tests_cant": "Equivalence over all graphs.", "anchors": ["pytwoway/fe.py:FEEstimator._estimate_exact_leverages", "pytwoway/fe.py:FEEstimator._estimate_approximate_leverages"]}
{"id": "C57", "title": "Controls: the coefficients are weighted least squares", "statement": "FEControlEstimator's coefficients (firms, workers, categorical and continuous controls) minimise the weighted sum of squared residuals; residuals are orthogonal to every column; without collinearity they are the only minimiser and recover the true coefficients from wages without noise; without controls they are the estimates of FEEstimator.", "quantifier": "all data with well-formed ids, any number of controls of either kind, all positive weights, all solvers exact on systems that have a solution", "why_tests_cant": "Minimality is over all coefficient vectors and all data; a test sees one data set and compares with one other implementation.", "anchors": ["pytwoway/fecontrol.py:FEControlEstimator._estimate_ols", "pytwoway/fecontrol.py:FEControlEstimator._mult_A", "pytwoway/fecontrol.py:1300-1395"]}
{"id": "C58", "title": "Controls: bias corrections are unbiased", "statement": "With error variances s2 over weight, the estimated error variance and the homoskedastic-corrected variance or covariance of any sets of covariates are unbiased, for any number of draws; the heteroskedastic ones are unbiased for any error variances, given row variances that are right on average; these are right on average.", "quantifier": "all data and controls, all positive weights, all finite distributions of errors, all covariate sets, all numbers of draws", "why_tests_cant": "It is a statement about expectations over errors and draws; one simulated sample cannot separate bias from noise.", "anchors": ["pytwoway/fecontrol.py:FEControlEstimator._estimate_sigma_2_ho", "pytwoway/fecontrol.py:FEControlEstimator._estimate_approximate_trace_ho", "pytwoway/fecontrol.py:FEControlEstimator._estimate_approximate_trace_he", "pytwoway/fecontrol.py:FEControlEstimator._estimate_Sii_he"]}
{"id": "C59", "title": "Controls: standard errors", "statement": "The standard error of a coefficient is the root of a non-negative number; unit weights give the unweighted standard errors, rescaling all weights changes nothing, and with homoskedastic errors its square is on average the squared error of the coefficient.", "quantifier": "all data and controls, all positive weights, all sets of clusters, all finite distributions of errors", "why_tests_cant": "Invariance and expectations over all data; the negative number under the root needs a particular configuration of firms and controls.", "anchors": ["pytwoway/fecontrol.py:FEControlEstimator._estimate_clustered_se"]}
{"id": "C80", "title": "Interacted BLM fixed-point slopes", "statement": "On data without noise, y = A_j + B_j alpha_i, the slopes returned by the fixed-point estimator are the true slopes relative to firm 0, for every way of splitting the movers of a pair of firms into two groups; data with returns are refused with a ValueError.", "quantifier": "all data sets without noise, all splits, weightings and sets of pairs, all eigenvector routines that return a non-zero fixed vector when there is one", "why_tests_cant": "Exact recovery is over all data, splits and weights; it fails only when the weights of one worker differ between spells, or with spells of more than one period, which the tests do not have.", "anchors": ["pytwoway/blm_interacted.py:InteractedBLMEstimator._fit_b_fixed_point"]}
{"id": "C81", "title": "Interacted BLM linear estimators recover wages without noise", "statement": "On movers' wages without noise, y_t = A_t(j) + B_t(j) alpha, the linear estimators return the true slopes relative to the slope of norm_fid and the true intercepts with firm 0 normalised; with stationary_a the returned intercepts are the same in both periods and with stationary_b the slopes; method 'linear' is the weighted least squares of wage changes on firm indicators; every documented instrument works.", "quantifier": "all event-study data sets, all firm numbers, weights, instruments that identify the coefficients, and solvers exact on solvable systems", "why_tests_cant": "Recovery is over all data sets and instruments; the documented tests use noisy simulated data and loose tolerances.", "anchors": ["pytwoway/blm_interacted.py:InteractedBLMEstimator._fit_a_b_linear"]}
{"id": "C82", "title": "Interacted BLM returns the mean worker effect of each firm", "statement": "With estimator='linear' the third value returned by fit has one entry per firm, the weighted mean of the effects of its stayers on the scale of the returned A and B.", "quantifier": "all data sets of movers and stayers without noise, all weights", "why_tests_cant": "Alignment over all patterns of firms with and without stayers; the tests' simulated firms all have stayers.", "anchors": ["pytwoway/blm_interacted.py:InteractedBLMEstimator.fit"]}
{"id": "C83", "title": "Simulated parameters are ordered as documented", "statement": "SimBLM orders worker types by their mean of A1 and, by default, firm types by their mean over worker types; with strictly_monotone_a=True A1 and A2 are increasing by firm type for each worker type. Sorting only renames types (or sorts each worker type's values), in both periods alike, and keeps linear_additive parameters linearly additive.", "quantifier": "all nl, nk, all drawn A1 and A2, every tie-breaking of argsort", "why_tests_cant": "The order depends on the drawn means; ties and the second period are only hit by particular draws.", "anchors": ["pytwoway/simblm.py:SimBLM._sort_A", "pytwoway/simblm.py:SimBLM._gen_params"]}
{"id": "C84", "title": "Simulated wages use the row's own worker type and firm type", "statement": "The worker types of movers between firm types k1 and k2 are exactly those drawn for that pair and those of stayers of type k those drawn for k; the wage of each period has the mean A[l, k] and the standard deviation S[l, k] of the worker type and the firm type of that row in that period.", "quantifier": "all counts, all parameters, all random draws", "why_tests_cant": "Rows are filled block by block at running positions; a wrong offset shows only for some counts.", "anchors": ["pytwoway/simblm.py:SimBLM._simulate_movers", "pytwoway/simblm.py:SimBLM._simulate_stayers"]}
{"id": "C66", "title": "The bootstrap and the variance decomposition give the caller's data back unchanged", "statement": "BLMBootstrap.fit(jdata, sdata, ..., method='parametric') and BLMVarianceDecomposition.fit(jdata, sdata, ...) overwrite wages, firm types, firm ids, worker ids and (the latter) add a time column in the caller's frames while they run. When they return, both frames hold exactly the rows and columns they held before, for every number of samples, reallocation setting, firm_clusters_as_ids and worker_types_as_ids setting, and whatever the estimator, the clustering and the random draws return; the number of results is n_samples. A user expects the same when a sample fails with an exception.", "quantifier": "for all frames of movers and stayers, all models, all numbers of samples, all options, all behaviours of the estimator, the clustering, the regression and the generator, including exceptions in any sample", "why_tests_cant": "The restoration depends on every combination of options and on the state each earlier sample leaves behind; a test can only run a few samples with one estimator and rarely provokes a failure in the middle of the loop.", "anchors": ["pytwoway/blm.py:2530-2612", "pytwoway/blm.py:2788-2911"]}
{"id": "C85", "title": "Bootstrap and decomposition samples are drawn from the estimated model at the observed firm types", "statement": "In sample t the wages given to the estimator (or regression) are those of the estimated model: each mover gets a worker type with positive estimated (or reallocated) probability for its observed pair of firm types, each stayer one with positive probability for its firm type, and the wage is the model's mean for that worker type, the observed firm type and the row's controls plus the model's standard deviation times a standard normal shock; it never depends on the firm types or wages of earlier samples. Firm types of a bootstrap sample are those of one clustering of that sample. With weights, the simulated wage should have the distribution whose density the likelihood uses.", "quantifier": "for all frames, models, controls, weights, reallocation settings, sample numbers and draws of the generator", "why_tests_cant": "The draws are random and the wages of earlier samples remain in the frames while later samples are drawn, so leaks between samples or a wrong scale only show as a bias of the bootstrap distribution.", "anchors": ["pytwoway/blm.py:303-523", "pytwoway/blm.py:2570-2612", "pytwoway/blm.py:2822-2911"]}
{"id": "C65", "title": "With controls, the generated constraints pin the worker-firm effects down and rule nothing out", "statement": "In a BLM model with categorical controls, the effects of worker types, firm types and control categories are only determined up to shifts between them. With normalize=True, the constraints BLMModel builds for an EM iteration make the effects unique: two estimates that satisfy them and predict the same mean wage for every period, worker type, firm type and combination of categories have the same worker-firm effects. The normalisation never excludes a model: every set of effects whose controls satisfy their own constraints has an equivalent that satisfies the normalisation. Which columns are constrained, interacted or stationary matters, not their names or order. With normalize=False (for users whose own constraints identify the model) the returned estimates satisfy the user's constraints. Standard deviations are at least s_lower_bound, and a control without worker_type_interaction has the same effect for all worker types.", "quantifier": "for all numbers of worker and firm types, all lists of categorical and continuous controls, all user constraints, primary periods and settings of normalize and force_min_firm_type", "why_tests_cant": "Identification quantifies over all pairs of parameter vectors and all combinations of column kinds; a test checks that one fit returns, which it also does when the estimate is one of infinitely many.", "anchors": ["pytwoway/blm.py:718-850", "pytwoway/blm.py:1925-1938", "pytwoway/blm.py:965-1089"]}
{"id": "C86", "title": "Dynamic BLM: sorting types only gives them new names", "statement": "DynamicBLMModel sorts worker types (and firm types) by mean effects before and after estimation. Sorting permutes the types consistently in all effects A, standard deviations S, proportions pk1 and pk0 and mover and stayer counts, keeps the rho's, puts the mean effects of the primary period in order, and leaves the likelihoods of movers and stayers unchanged when firm types in the data get the same new names.", "quantifier": "for all numbers of types, all parameters, all primary periods, both directions, with and without sorting of firm types, all data", "why_tests_cant": "A wrong axis in one of ten arrays gives a model that still looks reasonable; that the likelihood is unchanged has to hold for every order the types can come out in.", "anchors": ["pytwoway/blm_dynamic.py:1462-1556"]}
{"id": "C87", "title": "Dynamic BLM: likelihood, posteriors and the course of a fit", "statement": "In every iteration of fit_movers and fit_stayers the likelihood is the mean log-likelihood of a mixture, over worker types, of four normal wages of which the first depends on the second, the third on the second and the fourth on the third through the rho's; the weights are Bayes' posterior probabilities, and the new proportions are the shares of posterior counts plus prior. The fit makes at most n_iters iterations, alternating between rho's and effects, stops early only when two successive likelihoods differ by less than the threshold, returns every likelihood it saw, and moves only parameters whose update is switched on; fit_movers never touches the stayers' parameters and conversely. If proportions are updated and a pair of firm types has no movers (a firm type no stayers), it raises ValueError.", "quantifier": "for all data, numbers of types, starting parameters with positive proportions and standard deviations, settings, numbers of iterations, and all solvers", "why_tests_cant": "The wage densities condition on each other with different firm types for different terms; a slip (a variance not scaled by rho^2, an index of the wrong firm) still gives finite likelihoods and estimates near the truth on simulated data.", "anchors": ["pytwoway/blm_dynamic.py:1701-1854", "pytwoway/blm_dynamic.py:1856-2904", "pytwoway/blm_dynamic.py:2906-3688"]}
{"id": "C88", "title": "Dynamic BLM: updated effects solve the constrained weighted least-squares problem", "statement": "When effects are updated, the new effects satisfy the user's constraints, the '2mb' and '3mb' effects do not depend on worker types (and are zero without endogeneity or state dependence), and no other such effects give a smaller weighted sum of squared differences between wages and expected wages over all movers (stayers), worker types and the four (two) periods, plus the ridge term of d_X_diag. If the solver gives up the effects stay as they were.", "quantifier": "for all data, parameters, constraints, settings and iterations, and all exact solvers", "why_tests_cant": "The normal equations are assembled block by block from grouped sums for six parameter blocks; a wrong block shows up only as slower or biased convergence.", "anchors": ["pytwoway/blm_dynamic.py:2252-2520", "pytwoway/blm_dynamic.py:3190-3400"]}
{"id": "C89", "title": "Dynamic BLM: reported likelihoods do not fall", "statement": "liks1 of fit_movers never falls from one iteration to the next, as for every EM algorithm.", "quantifier": "for all data, starting parameters and settings", "why_tests_cant": "EM monotonicity is a statement about all data and parameters; runs on simulated data nearly always rise even with a wrong weight in the M-step.", "anchors": ["pytwoway/blm_dynamic.py:2118-2150", "pytwoway/blm_dynamic.py:2252-2640"]}
{"id": "C90", "title": "Dynamic BLM: updated rho's are least-squares coefficients", "statement": "When a rho is updated, the new value minimises the sum over rows and worker types of posterior probability times the squared residual of the dependent wage after subtracting rho times the residual of the wage it depends on, divided by the variance of the dependent wage; all other parameters (except proportions) stay.", "quantifier": "for all data and parameters with a residual to regress on, all settings and iterations", "why_tests_cant": "Data are stacked over worker types before the regression; a misordered stack gives another plausible number between 0 and 1.", "anchors": ["pytwoway/blm_dynamic.py:2196-2250", "pytwoway/blm_dynamic.py:3160-3188"]}
{"id": "C91", "title": "Dynamic BLM: updated standard deviations fit the squared residuals", "statement": "When standard deviations are updated, the new variances are at least s_lower_bound, satisfy the user's constraints, and no others fit the squared residuals better, the variance of each wage being that of its own component plus rho^2 times that of the wage it depends on (the variance the likelihood uses).", "quantifier": "for all data, parameters (all rho's), constraints and settings", "why_tests_cant": "With rho's near the values of the simulations the wrong sign of one term changes standard deviations by amounts that look like sampling error.", "anchors": ["pytwoway/blm_dynamic.py:2640-2860", "pytwoway/blm_dynamic.py:3400-3600"]}
{"id": "C92", "title": "Dynamic BLM: bootstrap and decomposition simulate the estimated model", "statement": "The wages that DynamicBLMBootstrap (parametric) and DynamicBLMVarianceDecomposition simulate have the distribution the likelihood of the dynamic model assigns to them: given the worker type, each wage is the expected wage given the wages it depends on, plus its conditional standard deviation times an independent standard normal shock, with the worker type drawn from the (optionally reallocated) proportions of the worker's own firm types. Every bootstrap model is estimated on such a sample of the caller's workers and firms, with firm types from one clustering of this sample in all four periods. Every decomposition is the regression on such a sample, with firm types as firm ids in all periods if firm_clusters_as_ids, and the drawn worker types as worker ids if worker_types_as_ids.", "quantifier": "for all models with non-negative standard deviations, all data, numbers of samples, reallocation settings and options, and all behaviours of the generator, the estimator, the clustering and the regression", "why_tests_cant": "Equality of a simulated and an assumed distribution is a statement about all shocks and parameters; a wrong firm type or sign in one of sixteen terms still gives plausible wages.", "anchors": ["pytwoway/blm_dynamic.py:806-1087", "pytwoway/blm_dynamic.py:4195-4246", "pytwoway/blm_dynamic.py:4455-4534"]}
{"id": "C93", "title": "Dynamic BLM: bootstrap and decomposition give the caller's data back unchanged", "statement": "DynamicBLMBootstrap.fit (parametric) and DynamicBLMVarianceDecomposition.fit overwrite wages, firm types, firm ids and worker ids of the caller's frames while they run. When they return, both frames hold the values they held before, and the number of results is n_samples. A user expects the same after an exception.", "quantifier": "for all frames of movers and stayers, all models, numbers of samples and options, and all behaviours of the generator, the estimator, the clustering and the regression", "why_tests_cant": "Tests look at results, rarely at the inputs afterwards, and every combination of options restores other columns.", "anchors": ["pytwoway/blm_dynamic.py:4195-4246", "pytwoway/blm_dynamic.py:4455-4534"]}
{"id": "C94", "title": "BLM: the connectedness measure is 0 exactly if movers of some worker type do not link all firm types", "statement": "compute_connectedness_measure stores a number between 0 and 2 in connectedness. It is 0 exactly if for some worker type the firm types fall into two groups between which no mover of this worker type moves, and positive if for every worker type the movers link all firm types. (BLMEstimator prefers models with a large value.) With all=True it stores the measures of all worker types.", "quantifier": "for all mover counts, type proportions, numbers of worker and firm types, and all routines that compute eigenvalues of symmetric matrices", "why_tests_cant": "The claim relates the second smallest eigenvalue of a matrix to paths in a graph of any size; a test can compare the number on examples only.", "anchors": ["pytwoway/blm.py:2213-2241", "pytwoway/blm_dynamic.py:3842-3870"]}
{"id": "C95", "title": "Dynamic BLM: the estimator runs its phases in order, picks the best-connected of the most likely models, and respects the user's options", "statement": "DynamicBLMModel.fit_movers_cstr_uncstr first fits with A fixed, then (with several worker types) under LinearAdditive, then under StationaryFirmTypeVariation, each time from the previous estimates and in addition to the user's constraints, and last without the extra constraints; the estimates, likelihood and mover counts of the last fit are kept, and connectedness is set. DynamicBLMEstimator.fit does so for every starting value (the even ones start from the static model, if given), sets apart the n_best with the highest likelihoods, chooses among them the one with the highest connectedness, and fits the stayers from its estimates without changing those for movers. The options update_a_movers, update_s_movers, update_pk1, force_min_firm_type and compute_NNm are respected.", "quantifier": "for all data with all pairs of firm types, all starting values with positive standard deviations and proportions, all valid parameters, all numbers of types and of starting values, and every solver whose solutions are right", "why_tests_cant": "Every phase iterates to data-dependent estimates; a test sees the final numbers of a few random starts and cannot show the order of phases, the choice, and the absence of exceptions for all data.", "anchors": ["pytwoway/blm_dynamic.py:3690-3777", "pytwoway/blm_dynamic.py:3999-4087", "pytwoway/blm_dynamic.py:1856-1909", "pytwoway/blm_dynamic.py:1181-1282"]}
{"id": "C96", "title": "Dynamic BLM: the model can be estimated with control variables", "statement": "A DynamicBLMModel with categorical or continuous control variables can be built for every choice of endogeneity and state_dependence, and fit_movers_cstr_uncstr completes, whether or not the controls interact with worker types and whatever their number of categories.", "quantifier": "for all lists of control variables with distinct names, all numbers of worker and firm types, all data with valid category codes, all starting values and all outcomes of the quadratic programs", "why_tests_cant": "Whether arrays fit depends on which combination of options, interactions and numbers of categories is met and in which iteration; tests try a few combinations.", "anchors": ["pytwoway/blm_dynamic.py:1216-1278", "pytwoway/blm_dynamic.py:1509-1521", "pytwoway/blm_dynamic.py:1619-1643", "pytwoway/blm_dynamic.py:1742-1849", "pytwoway/blm_dynamic.py:2334-2338", "pytwoway/blm_dynamic.py:2484-2602"]}
{"id": "C97", "title": "BLM with control variables: every iteration fits effects and variances and the likelihood does not fall", "statement": "fit_movers with categorical and continuous control variables runs from the given parameters: in each iteration every block of effects (firm types, each column) is the best of the values its constraints allow given the others, the predicted variance matches the squared residuals, the recorded likelihood does not fall, iterations stop the first time the likelihood settles, and if the lowest firm type is forced or cycles the best of the runs over all firm types is returned. Each of update_a, update_s and update_pk1 can be switched off.", "quantifier": "for all numbers of worker and firm types, all lists of control variables with their constraints and interactions, all data in which every firm type and category is observed, all starting values and options, all exact and complete solvers", "why_tests_cant": "Tests with controls compare estimates with simulated truth within wide tolerances and look at few iterations; whether each block is optimal, and whether the likelihood can fall, is a statement about all data and all iterations.", "anchors": ["pytwoway/blm.py:1226-1948", "pytwoway/blm.py:1465-1560", "pytwoway/blm.py:1590-1760", "pytwoway/blm.py:1440-1453"]}
{"id": "C98", "title": "Dynamic BLM: constraints of the user hold for movers and stayers", "statement": "Constraints given as cons_a, cons_a_all, cons_s or cons_s_all restrict the effects and standard deviations estimated by fit_movers and by fit_stayers: both fits run and both return estimates that were updated subject to the constraints.", "quantifier": "for all constraint objects that exclude something, whatever number of periods they were made for, all data, starting values, options and all solvers that solve only problems of which the sizes agree", "why_tests_cant": "No test of the dynamic estimator passes constraints and fits both samples; an estimate that silently stays at its starting value looks like an estimate.", "anchors": ["pytwoway/blm_dynamic.py:1307-1355", "pytwoway/blm_dynamic.py:2459-2481", "pytwoway/blm_dynamic.py:3325-3343", "pytwoway/blm_dynamic.py:3595-3610", "pytwoway/constraints.py:75-90"]}
{"id": "C99", "title": "SimBS: numbers of matches and assortative matching", "statement": "SimBS.simulate (before cleaning) gives every one of the workers and firms asked for the number of observations drawn for it, raised to at least 2; further workers or firms, with at least 2 observations, are added until both totals agree. Every observation has one worker and one firm. Firms are numbered in the order of mu_j, and an observation with a larger match score chi is at a firm with a number at least as large. The wage is the column lambda_i plus the column mu_j plus the error.", "quantifier": "for all parameters, all random draws, all sorting functions that sort, all numbers of rounds after which the loop ends", "why_tests_cant": "The tests of simbs look at correlations of one seed; counts and order for all draws, in particular with added firms and ties, are not checked.", "anchors": ["pytwoway/simbs.py:77-114", "pytwoway/simbs.py:136-166"]}
{"id": "C100", "title": "SimBS: moments of the simulated wages", "statement": "If SimBS accepts the parameters and the drawn effects have variances sigma_lambda_sq and sigma_mu_sq and correlation rho, wages have standard deviation sigma_wages, and lambda_i and mu_j are the best linear predictions of the wage by worker and by firm effect. Parameters are refused only if no wages with such effects can have the standard deviation asked for. The columns lambda_i and mu_j of the data are lambda_i and mu_j.", "quantifier": "for all finite probability spaces with these moments, all rho strictly between -1 and 1, all positive variances, all sigma_wages", "why_tests_cant": "A property of the distribution, not of one sample; the tests compare one sample with tolerances.", "anchors": ["pytwoway/simbs.py:60-75", "pytwoway/simbs.py:116-118", "pytwoway/simbs.py:158-166"]}
{"id": "C101", "title": "V-cycle preconditioner: coarse-grid correction", "statement": "The 'vcycle' preconditioner smooths, corrects the residual on a coarser grid and smooths again. The coarse grid takes every second cell, and a coarse value averages the three by three cells around it, with weights 1/4, 1/2, 1/4 in each dimension. After an exact solution on the coarse grid the averaged residual is zero there. With as many sweeps before as after it is a symmetric linear map if the matrix is symmetric. The estimators use it with a coarse grid.", "quantifier": "for all matrices, grid shapes, numbers of sweeps, omega, solvers of the coarse systems, right-hand sides", "why_tests_cant": "A preconditioner does not change the limit of the iteration, so tests of the estimates cannot see whether the coarse grid is used or the map is symmetric.", "anchors": ["pytwoway/preconditioners/vcycle.py:5-99", "pytwoway/fe.py:523-530", "pytwoway/fecontrol.py:612-619"]}
{"id": "C102", "title": "FEEstimator: preconditioners for conjugate gradients", "statement": "For connected data with positive weights in which every worker is observed, the 'jacobi' and 'vcycle' preconditioners of FEEstimator are linear, symmetric and positive definite, as the conjugate gradient solver (and minres) needs, for every omega between 0 and 1 and every number of sweeps.", "quantifier": "for all data sets, weights, numbers of sweeps (at least one), omega in (0, 1)", "why_tests_cant": "A statement about all vectors and all data sets; a preconditioner that is indefinite for some data makes the solver fail only there.", "anchors": ["pytwoway/fe.py:517-530", "pytwoway/preconditioners/jacobi.py:27-35", "pytwoway/preconditioners/vcycle.py:31-99"]}
{"id": "C103", "title": "FEControlEstimator: preconditioners for conjugate gradients", "statement": "For data without collinear columns, the 'jacobi' and 'vcycle' preconditioners of FEControlEstimator with the default options are symmetric and positive definite, as the conjugate gradient solver needs.", "quantifier": "for all data sets with any control variables", "why_tests_cant": "A statement about all vectors and all data sets; a preconditioner that is indefinite for some data makes the solver fail only there.", "anchors": ["pytwoway/fecontrol.py:606-619", "pytwoway/preconditioners/jacobi.py:27-35", "pytwoway/preconditioners/vcycle.py:31-99"]}
{"id": "C104", "title": "SimDynamicBLM: order of the simulated parameters", "statement": "By default the simulated means A are relabelled so that worker types are in increasing order of their mean in period '12' and firm types are increasing over the average for all worker types in each period; with strictly_monotone_a they are increasing by firm type for each worker type in each period. All periods are relabelled alike, the standard deviations are those drawn, effects switched off are zero, and linear_additive holds in the result.", "quantifier": "for all draws, numbers of types, options without stationarity, control variables", "why_tests_cant": "A statement about all draws; a random test finds an order violated in one period only by chance, and no test can rule it out.", "anchors": ["pytwoway/simdblm.py:223-226", "pytwoway/simdblm.py:608-645", "pytwoway/simdblm.py:647-843"]}
{"id": "C105", "title": "SimDynamicBLM: stationarity options", "statement": "stationary_A and stationary_S make the means and standard deviations (of the model, or of a control variable) equal in all periods in which the effect is not switched off; stationary_firm_type_variation makes the differences between types equal in all periods.", "quantifier": "for all draws, numbers of types, movers and stayers, combinations of the options, control variables", "why_tests_cant": "A statement about every combination of options and every draw; the effect of shared arrays appears only for some combinations.", "anchors": ["pytwoway/simdblm.py:227-242", "pytwoway/simdblm.py:747-834", "pytwoway/simdblm.py:900-936"]}
{"id": "C106", "title": "SimDynamicBLM: workers, firms and types of the simulated data", "statement": "There are mmult * NNm movers between each pair of firm types and smult * NNs stayers of each, numbered without gaps; movers change firm once, between periods 2 and 3; firms are numbered without gaps, have one firm type, at least two firms per type with stayers; the firm types of a row are those of its firms in all four periods.", "quantifier": "for all draws, counts, numbers of types, options, control variables", "why_tests_cant": "A statement about all draws, in particular about the order in which firms are assigned to rows.", "anchors": ["pytwoway/simdblm.py:845-898", "pytwoway/simdblm.py:974-1016", "pytwoway/simdblm.py:1101-1183"]}
{"id": "C107", "title": "SimDynamicBLM: wages follow the dynamic model with the returned parameters", "statement": "Without control variables the four wages of every mover and every stayer are those of the dynamic model at the returned parameters A, S and R, with the same conditional means and variances as in the likelihood of DynamicBLMModel and the normal draws as shocks.", "quantifier": "for all draws, parameters, counts, numbers of types, options", "why_tests_cant": "A relation between the generating process and the likelihood for all parameters and draws; a test can only compare moments.", "anchors": ["pytwoway/simdblm.py:900-967", "pytwoway/simdblm.py:1018-1094"]}
{"id": "C108", "title": "SimDynamicBLM: control variables in the wages", "statement": "With control variables each adds its effect to the mean of a period and the square of its standard deviation to the variance, as in DynamicBLMModel and in SimBLM.", "quantifier": "for all draws, numbers of control variables of both kinds, with and without interaction, options without stationarity", "why_tests_cant": "A statement about the distribution of the wages for all parameters; wrong variances change no mean.", "anchors": ["pytwoway/simdblm.py:914-936", "pytwoway/simdblm.py:1042-1064", "pytwoway/simblm.py:508-560"]}
{"id": "C109", "title": "SimBLM: control variables of the simulated data", "statement": "With control variables simulate() returns the workers, firms, firm types and worker types it returns without them for the same draws, records in each row the control variables drawn for it, and adds their effects and one normal shock to each wage, so that mean and variance of the wage given all types and controls are those of the likelihood of BLMModel.", "quantifier": "for all draws, parameters, counts, numbers of categorical and continuous control variables with and without worker type interaction", "why_tests_cant": "A relation between the generating process and the likelihood for all parameters and draws; a test can only compare moments of samples.", "anchors": ["pytwoway/simblm.py:446-567", "pytwoway/simblm.py:569-686", "pytwoway/simblm.py:688-761"]}
{"id": "C110", "title": "SimBLM: options of control variables", "statement": "For each control variable the simulated effects and standard deviations vary with worker type exactly if worker_type_interaction is set; stationary_A and stationary_S make the periods equal; stationary_firm_type_variation makes the differences between categories (worker types, for continuous variables) equal in both periods; without options both periods are as drawn.", "quantifier": "for all draws, numbers of worker types and categories, numbers of control variables, combinations of the options", "why_tests_cant": "A statement about every combination of options and sizes; broadcasting hides the error if there are as many categories as worker types.", "anchors": ["pytwoway/simblm.py:121-226", "pytwoway/simblm.py:364-430"]}
{"id": "C111", "title": "Dynamic bootstrap and variance decomposition with control variables", "statement": "With control variables the parametric bootstrap and the variance decomposition of the dynamic model simulate their samples from the estimated model, the effects of the control variables included, reading each control variable in the period it belongs to.", "quantifier": "for all models with control variables of either kind, data, options of reallocation, draws", "why_tests_cant": "A statement about all models and data; a test of one specification cannot show that none works.", "anchors": ["pytwoway/blm_dynamic.py:806-1087", "pytwoway/blm_dynamic.py:4195-4246", "pytwoway/blm_dynamic.py:4455-4534"]}
{"id": "C112", "title": "Monte Carlo results belong together", "statement": "After monte_carlo(N) the results have one entry per simulation for the truth and every estimator; the entries number i are all about the same simulated data set, and the true values are those of the sample the estimators are run on. With several cores the results do not depend on how many; a run with more simulations begins with the results of a run with fewer.", "quantifier": "for all simulators, cleaning and estimation procedures, generators, N, numbers of cores", "why_tests_cant": "Mixing up simulations gives results of the same shape and distribution; seeds and N are unbounded.", "anchors": ["pytwoway/montecarlo.py:95-188", "pytwoway/montecarlo.py:190-230"]}
{"id": "C113", "title": "Monte Carlo histograms show the error of each simulation", "statement": "MonteCarlo.hist plots, for every estimator asked for, the difference of each simulation's estimate from the truth of the same simulation, and the common range of the histograms contains all of them.", "quantifier": "for all results, choices of estimators, N > 0", "why_tests_cant": "The range is scaled by factors depending on the signs of the extreme differences; one value outside would silently be left out of the picture.", "anchors": ["pytwoway/montecarlo.py:232-317"]}
{"id": "C114", "title": "The results of the fixed-effects estimators are complete and consistently named", "statement": "After fit, results hold for every variance and covariance asked for the plug-in estimate NAME_fe, with the homoskedastic correction NAME_ho = plug-in minus sigma^2 times the mean of the trace draws, with the heteroskedastic correction NAME_he = plug-in minus the mean of the trace draws, and the mean and standard deviation of the draws under tr_NAME_ho, tr_NAME_ho_sd, tr_NAME_he, tr_NAME_he_sd; the residual variances var(eps)_fe and var(eps)_ho; no entry overwrites another and other entries are unchanged. The summary holds exactly the variance and covariance entries, equal to the results, and the results are numbers.", "quantifier": "for all lists of variances and covariances, estimates, draws, choices of corrections", "why_tests_cant": "Names are made by concatenation from names that include user-chosen control variables; a collision shows only for particular names and order of assignment.", "anchors": ["pytwoway/fe.py:1133-1264", "pytwoway/fecontrol.py:1161-1292"]}
{"id": "C115", "title": "Every combination of options of FEEstimator.fit can be served", "statement": "FEEstimator.fit returns for every combination of options, also when fit was called before on the same object: every step finds the matrices it needs, the estimates asked for are left on the object and the working matrices are deleted. The documented exception is an analytical trace for the variance of psi + alpha.", "quantifier": "for all combinations of options, states left by earlier calls", "why_tests_cant": "Thirteen switches decide which attributes are stored and which are read; tests run a few combinations.", "anchors": ["pytwoway/fe.py:280-404", "pytwoway/fe.py:440-548", "pytwoway/fe.py:895-975", "pytwoway/fe.py:1448-1480"]}
{"id": "C116", "title": "Event study plots show each transition once", "statement": "plot_extendedeventstudy draws for every pair of firm classes (i, j) the number of moves, mean earnings and standard errors, period by period counted from the move, of exactly the workers whose class is i right before and j right after the move, so that every move is in one subplot; periods_pre and periods_post may be any positive numbers, and data that are not clustered are plotted in a single figure.", "quantifier": "for all data, numbers of classes, numbers of periods before and after", "why_tests_cant": "A figure is only looked at; which rows went into which subplot, and which position belongs to which period, cannot be seen in it.", "anchors": ["pytwoway/diagnostics/plot_extendedeventstudy.py:32-86"]}
{"id": "C117", "title": "Standard bootstrap of the BLM models: samples keep firms and classes together", "statement": "BLMBootstrap.fit and DynamicBLMBootstrap.fit with method='standard' return n_samples models; each is estimated from movers and stayers drawn with replacement from the data (in the static model with probabilities proportional to w1 + w2 if weighted), in which every class is the one that clustering this sample gives to the worker's firm in that period.", "quantifier": "for all data, drawing, clustering and estimation procedures, generators, numbers of samples", "why_tests_cant": "A sample with wrong classes gives estimates of the right shape; whether classes and firms stay together depends on how the firms are numbered in the sample.", "anchors": ["pytwoway/blm.py:2612-2647", "pytwoway/blm_dynamic.py:4247-4277"]}
{"id": "C118", "title": "Bootstrap plots of log earnings show mean and percentiles of comparable types", "statement": "BLMBootstrap.plot_log_earnings and DynamicBLMBootstrap.plot_log_earnings draw, for each worker type and firm type, the mean over the bootstrap models of the effects of the pair with these ranks (types ranked by mean effect in the primary period of each model), with a bar from the 2.5 to the 97.5 percentile; the plot does not depend on the names the types happen to have in each model, and can be drawn for any number of samples.", "quantifier": "for all lists of estimated models, numbers of worker and firm types, periods", "why_tests_cant": "Types get their names from random starting values, so a wrong pairing shows only for some draws; whether bars have negative length depends on the estimates and on the number of samples.", "anchors": ["pytwoway/blm.py:2649-2696", "pytwoway/blm_dynamic.py:4279-4327"]}
{"id": "C119", "title": "The plot of likelihoods and connectedness shows each estimated model once", "statement": "After BLMEstimator.fit or DynamicBLMEstimator.fit, plot_liks_connectedness draws one point per starting value at its likelihood and connectedness: the model kept as a star, the others among the n_best as triangles, the rest, with lower likelihoods, as circles.", "quantifier": "for all estimated models, all n_best up to the number of models", "why_tests_cant": "Which points exist depends on the estimates of random starts, in particular on whether some start ended without a connectedness measure.", "anchors": ["pytwoway/blm.py:2413-2445", "pytwoway/blm.py:2483-2512", "pytwoway/blm_dynamic.py:4117-4146"]}
{"id": "C120", "title": "Switching off the update of a parameter keeps it", "statement": "With update_a=False the estimation of a static BLM model without control variables does not update A1 and A2, with update_s=False not S1 and S2, with update_pk1=False not pk1: BLMModel.fit_movers ends with the values it started from, up to the names of the worker types, and BLMEstimator respects the options as well.", "quantifier": "for all data, starting values, parameters, constraints, numbers of types and iterations, and every solver", "why_tests_cant": "A test sees the parameters after one run on one data set; whether every path of the EM loop leaves a parameter alone, and whether every combination of the options can be run, is a statement about all of them.", "anchors": ["pytwoway/blm.py:130-141", "pytwoway/blm.py:1389-1899", "pytwoway/blm.py:2092-2148", "pytwoway/blm.py:2370-2383"]}
{"id": "C121", "title": "The stored numbers of movers and stayers belong to their firm types", "statement": "After fit_movers, entry (a, b) of NNm is the number of movers from firm type a to b; after fit_stayers, entry k of NNs is the number of stayers at firm type k (static and dynamic BLM); the plot of type proportions of all workers weights each firm type with the number of its stayers.", "quantifier": "for all movers and stayers data, numbers and orders of firm types", "why_tests_cant": "Every test has workers at all firm types; what the arrays look like if a type has none depends on which one, and the consequences on the order of the estimated effects.", "anchors": ["pytwoway/blm.py:1947-1948", "pytwoway/blm.py:2086-2090", "pytwoway/blm.py:925-956", "pytwoway/blm.py:2297-2321", "pytwoway/blm_dynamic.py:2902-2904", "pytwoway/blm_dynamic.py:3684-3688"]}
{"id": "C122", "title": "The bootstrap plot of type proportions shows mean shares of comparable types", "statement": "BLMBootstrap.plot_type_proportions stacks, for each firm type, rectangles for the worker types that fill the space from 0 to 1; each is as high as the mean over the bootstrap models of the share of the worker type at the firm type with these ranks, among stayers, or among movers in the period asked for; the plot does not depend on the names of the types in each model.", "quantifier": "for all lists of estimated models, counts, proportions, numbers of types, subsets and periods", "why_tests_cant": "The types of each bootstrap model have arbitrary names, and a wrong pairing of counts and proportions changes heights without leaving [0, 1]; no finite set of plots shows that they are right.", "anchors": ["pytwoway/blm.py:2698-2766", "pytwoway/blm.py:852-956"]}
{"id": "C123", "title": "Counts of movers and stayers are available exactly after fits that compute them", "statement": "After any sequence of calls on a BLMModel or DynamicBLMModel, NNm and NNs are the counts of the last data fitted with compute_NNm=True or compute_NNs=True. plot_type_proportions works exactly if the counts that its subset needs have been computed, and otherwise says which fit is missing. fit_movers_cstr_uncstr works for both values of compute_NNm, and connectedness is that of the data fitted.", "quantifier": "for all sequences of calls of the fits and plots, with all data and options", "why_tests_cant": "What a call does depends on all earlier calls; there are infinitely many sequences, and the failures need unusual options.", "anchors": ["pytwoway/blm.py:1226-1282", "pytwoway/blm.py:2092-2148", "pytwoway/blm.py:2289-2300", "pytwoway/blm_dynamic.py:1856-1909", "pytwoway/blm_dynamic.py:3690-3777", "pytwoway/blm_dynamic.py:3918-3929"]}
