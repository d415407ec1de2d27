{
 "claims": [
  {
   "property": "C01",
   "status": "proved",
   "theorems": [
    "C01_unscramble_scramble",
    "C01_scramble_unscramble",
    "C01_results_paired"
   ],
   "note": ""
  },
  {
   "property": "C02",
   "status": "proved",
   "theorems": [
    "C02_mean_between",
    "C02_mean_unweighted",
    "C02_mean_equal_weights",
    "C02_scale_weights",
    "C02_var_is_cov",
    "C02_var_is_cov_unweighted",
    "C02_shift",
    "C02_var_nonneg",
    "C02_cov_sym",
    "C02_var_sum",
    "C02_cov_formula"
   ],
   "note": ""
  },
  {
   "property": "C03",
   "status": "proved",
   "theorems": [
    "C03_error_iff",
    "C03_between",
    "C03_monotone",
    "C03_shift",
    "C03_value"
   ],
   "note": "argsort is a parameter with the contract is_argsort; the shift law assumes the sort gives the same order for shifted values (numpy's argsort is deterministic on the order pattern)."
  },
  {
   "property": "C04",
   "status": "proved",
   "theorems": [
    "C04_DxSP",
    "C04_SPxD",
    "C04_DxM",
    "C04_MxD",
    "C04_scalar"
   ],
   "note": ""
  },
  {
   "property": "C05",
   "status": "proved",
   "theorems": [
    "C05_diag_of_prod",
    "C05_terminates",
    "C05_excess"
   ],
   "note": "diag_of_sp_prod is the same text on sparse arguments and is covered on their dense meaning."
  },
  {
   "property": "C06",
   "status": "proved",
   "theorems": [
    "C06_logsumexp",
    "C06_no_overflow",
    "C06_posterior",
    "C06_posterior_shift"
   ],
   "note": "numpy branch; real arithmetic instead of floating point."
  },
  {
   "property": "C07",
   "status": "proved",
   "theorems": [
    "C07_error_iff",
    "C07_density",
    "C07_fast"
   ],
   "note": ""
  },
  {
   "property": "C08",
   "status": "partial",
   "theorems": [
    "C08_melt_refuted",
    "C08_melt_refuted_general",
    "C08_melt_partial"
   ],
   "note": "REFUTED in general: meshgrid's default 'xy' indexing swaps the first two axes. C08_melt_refuted gives a witness, C08_melt_refuted_general all shapes with two leading dimensions >= 2; C08_melt_partial proves the claim where it holds."
  },
  {
   "property": "C09",
   "status": "proved",
   "theorems": [
    "C09_history",
    "C09_builtin",
    "C09_order_irrelevant",
    "C09_batching_irrelevant",
    "C09_check_feasible_keeps",
    "C09_sparse_solver_then_add"
   ],
   "note": "Histories of add_constraints, _add_constraint, clear_constraints, check_feasible and dense solve. C09_sparse_solver_then_add records that a sparse solver breaks later additions. qpsolvers itself is outside the model."
  },
  {
   "property": "C10",
   "status": "proved",
   "theorems": [
    "C10_linear",
    "C10_one_worker_type"
   ],
   "note": ""
  },
  {
   "property": "C11",
   "status": "proved",
   "theorems": [
    "C11_linear_additive",
    "C11_one_worker_type"
   ],
   "note": ""
  },
  {
   "property": "C12",
   "status": "proved",
   "theorems": [
    "C12_monotonic"
   ],
   "note": ""
  },
  {
   "property": "C13",
   "status": "proved",
   "theorems": [
    "C13_monotonic_mean"
   ],
   "note": ""
  },
  {
   "property": "C14",
   "status": "proved",
   "theorems": [
    "C14_min_firm_type"
   ],
   "note": "min_firm_type is a valid non-negative index."
  },
  {
   "property": "C15",
   "status": "proved",
   "theorems": [
    "C15_no_worker_type_interaction"
   ],
   "note": ""
  },
  {
   "property": "C16",
   "status": "proved",
   "theorems": [
    "C16_normalize_lowest",
    "C16_normalize_all"
   ],
   "note": "min_firm_type is a valid non-negative index."
  },
  {
   "property": "C17",
   "status": "partial",
   "theorems": [
    "C17_stationary_partial",
    "C17_stationary_exact",
    "C17_one_type_coprime",
    "C17_one_type_refuted",
    "C17_two_types_refuted"
   ],
   "note": "REFUTED for nwt >= 1 below nl: the stride is nl*k + l instead of l*nk + k. C17_stationary_partial proves the claim for nwt=-1 or nwt>=nl; C17_stationary_exact gives the exact meaning for every nwt; C17_one_type_coprime/C17_one_type_refuted decide nwt=1 with NoWorkerTypeInteraction for all sizes; C17_two_types_refuted is the Linear case."
  },
  {
   "property": "C18",
   "status": "proved",
   "theorems": [
    "C18_stationary_firm_type_variation"
   ],
   "note": ""
  },
  {
   "property": "C19",
   "status": "proved",
   "theorems": [
    "C19_bounded_below",
    "C19_bounded_above"
   ],
   "note": ""
  },
  {
   "property": "C20",
   "status": "partial",
   "theorems": [
    "C20_pad_partial",
    "C20_pad_refuted"
   ],
   "note": "REFUTED for objects without constraints of one kind; C20_pad_partial proves it when both kinds are present or nothing is padded."
  },
  {
   "property": "C21",
   "status": "proved",
   "theorems": [
    "C21_normal_equations",
    "C21_minimises",
    "C21_unique",
    "C21_worker_equations_any_solver"
   ],
   "note": "The inner linear solver is a parameter with the contract exact_solver (it solves the system it is given); C21_worker_equations_any_solver needs no contract."
  },
  {
   "property": "C22",
   "status": "proved",
   "theorems": [
    "C22_recovery",
    "C22_nonsingular"
   ],
   "note": ""
  },
  {
   "property": "C23",
   "status": "partial",
   "theorems": [
    "C23_inverse_blocks_partial",
    "C23_inverse_blocks_refuted"
   ],
   "note": "REFUTED for the worker-worker block: line 1280 adds a vector to every row instead of a diagonal. C23_inverse_blocks_partial proves the other three blocks; C23_inverse_blocks_refuted characterises exactly when the fourth is right."
  },
  {
   "property": "C24",
   "status": "proved",
   "theorems": [
    "C24_exact_leverage",
    "C24_range",
    "C24_sum",
    "C24_reported",
    "C24_refused"
   ],
   "note": "np.sqrt is a parameter with the contract root_ok on the weights of the data; exact inner solver."
  },
  {
   "property": "C25",
   "status": "proved",
   "theorems": [
    "C25_sigma_unbiased",
    "C25_sigma_unweighted"
   ],
   "note": "Expectation over an arbitrary finite probability space with uncorrelated mean-zero errors."
  },
  {
   "property": "C26",
   "status": "partial",
   "theorems": [
    "C26_var_psi",
    "C26_cov",
    "C26_var_alpha_refuted",
    "C26_approximate_partial",
    "C26_custom_forms"
   ],
   "note": "REFUTED for the exact trace of var(alpha): bias s2 (nw-1)/sum w, C26_var_alpha_refuted. Unbiasedness proved for var(psi), cov(psi, alpha), every custom form and every approximate trace in expectation (C26_approximate_partial)."
  },
  {
   "property": "C27",
   "status": "partial",
   "theorems": [
    "C27_sii_homoskedastic_partial",
    "C27_corrected_homoskedastic_partial",
    "C27_corrected_partial",
    "C27_sii_exact",
    "C27_corrected_exact",
    "C27_exact_trace",
    "C27_exact_trace_weighted_refuted",
    "C27_sii_refuted",
    "C27_corrected_refuted"
   ],
   "note": "REFUTED under heteroskedasticity: the leave-out variances centre by the sample mean, bias 12/875 on a five-row data set; exact HE traces use the weight once instead of twice. Proved: exact bias formulas for every data set (C27_sii_exact, C27_corrected_exact), unbiasedness for equal error variances and for any errors when the correction is given the true variances."
  },
  {
   "property": "C28",
   "status": "proved",
   "theorems": [
    "C28_ho_trace",
    "C28_he_trace",
    "C28_sigma_trace",
    "C28_hutchpp",
    "C28_exact_sigma",
    "C28_exact_psi",
    "C28_exact_cov",
    "C28_form_exists"
   ],
   "note": "Average over all sign vectors; Hutch++ for any matrix Q with orthonormal columns."
  },
  {
   "property": "C29",
   "status": "proved",
   "theorems": [
    "C29_variances",
    "C29_covariance",
    "C29_shift",
    "C29_shift_cov"
   ],
   "note": ""
  },
  {
   "property": "C30",
   "status": "proved",
   "theorems": [
    "C30_plug_in",
    "C30_corrected_ho",
    "C30_corrected_he"
   ],
   "note": "Plug-in and corrected components given the same traces; the code's exact traces do not implement VarPsiPlusAlpha (NotImplementedError)."
  },
  {
   "property": "C31",
   "status": "proved",
   "theorems": [
    "C31_batches",
    "C31_uneven"
   ],
   "note": ""
  },
  {
   "property": "C32",
   "status": "proved",
   "theorems": [
    "C32_layout",
    "C32_columns",
    "C32_width",
    "C32_attached",
    "C32_fitted",
    "C32_refused"
   ],
   "note": ""
  },
  {
   "property": "C33",
   "status": "partial",
   "theorems": [
    "C33_partial",
    "C33_names_partial",
    "C33_full_partial",
    "C33_zero_refuted",
    "C33_refuted"
   ],
   "note": "REFUTED as stated: rows that share the normalised firm or category 0 get no cross term, and no own term, when every clustering column has them in category 0 (C33_refuted, C33_zero_refuted). C33_partial gives the exact set of pairs the code counts; C33_full_partial proves the full statement when no row is in a normalised category (e.g. clustering by worker)."
  },
  {
   "property": "C34",
   "status": "proved",
   "theorems": [
    "C34_effect",
    "C34_duplicates",
    "C34_unknown",
    "C34_var",
    "C34_cov",
    "C34_symmetric"
   ],
   "note": ""
  },
  {
   "property": "C35",
   "status": "partial",
   "theorems": [
    "C35_increasing_nested",
    "C35_increasing_size",
    "C35_increasing_firms",
    "C35_increasing_min",
    "C35_increasing_count",
    "C35_round",
    "C35_connected",
    "C35_decreasing_nested",
    "C35_decreasing_total",
    "C35_decreasing_step",
    "C35_decreasing_count",
    "C35_decreasing_used_refuted"
   ],
   "note": "Nestedness and mover counts are proved for all draws, for increasing attrition for every cleaning that keeps a set of firms and workers with all observations between them and leaves out no mover of the kept firms (proved of the largest connected set). REFUTED for decreasing attrition when read as the observations used after cleaning: the largest connected set may switch to another component (C35_decreasing_used_refuted)."
  },
  {
   "property": "C36",
   "status": "proved",
   "theorems": [
    "C36_order",
    "C36_cores"
   ],
   "note": ""
  },
  {
   "property": "C37",
   "status": "proved",
   "theorems": [
    "C37_sort_relabels",
    "C37_likelihood_unchanged"
   ],
   "note": "np.argsort is a parameter with the contract is_argsort. All arguments of _sort_parameters given."
  },
  {
   "property": "C38",
   "status": "proved",
   "theorems": [
    "C38_normalise"
   ],
   "note": "The shared-array effect of the shallow dictionary copy on the caller is outside the model."
  },
  {
   "property": "C39",
   "status": "partial",
   "theorems": [
    "C39_pk1_rows",
    "C39_pk1_missing_pair",
    "C39_stayers_partial",
    "C39_stayers_missing_last",
    "C39_stayers_refuted"
   ],
   "note": "Proved for pk1 (any posteriors, any pair unobserved raises ValueError) and for the rows of pk0 with stayers through the whole loop. REFUTED for pk0: a firm type without stayers other than the last gets a nan row silently."
  },
  {
   "property": "C40",
   "status": "proved",
   "theorems": [
    "C40_stayers_monotone"
   ],
   "note": "Equal weights and d_prior = 1 as in the statement; every firm type has stayers (otherwise the recorded likelihood is nan, see C39). np.log(0) = -inf is outside the model: starting proportions are positive."
  },
  {
   "property": "C41",
   "status": "proved",
   "theorems": [
    "C41_selection",
    "C41_force_min",
    "C41_force_min_error"
   ],
   "note": "Selection for all lists of models, with ties, missing measures and the error cases; force_min_firm_type for any number of firm types. The estimated models are arbitrary values."
  },
  {
   "property": "C42",
   "status": "partial",
   "theorems": [
    "C42_restored_partial",
    "C42_phases",
    "C42_parts",
    "C42_failure_refuted",
    "C42_fit_A_refuted"
   ],
   "note": "Normal end proved for arbitrary inner methods, phases proved. REFUTED on exceptions: the parameters of the failing call remain; every fit_A call that iterates raises (weights1 unbound) and leaves update_s, update_pk1 off."
  },
  {
   "property": "C43",
   "status": "partial",
   "theorems": [
    "C43_counts",
    "C43_pairing",
    "C43_graph_partial",
    "C43_graph_refuted",
    "C43_shares_refuted",
    "C43_shares_all_refuted",
    "C43_draws"
   ],
   "note": "REFUTED: NNm[a, b] multiplies the pk1 row of the pair (b, a). Graph proved for symmetric counts; the period shares are exchanged even then."
  },
  {
   "property": "C44",
   "status": "partial",
   "theorems": [
    "C44_bound_partial",
    "C44_variance",
    "C44_refuted"
   ],
   "note": "REFUTED for bounds above 1: the bound is put on the variances, so a fit with s_lower_bound = 4 returns standard deviations of 2. Proved for bounds in (0, 1] over whole fits (any data, any valid constraints), and for every bound as a bound on the variances. Models without control variables."
  },
  {
   "property": "C45",
   "status": "partial",
   "theorems": [
    "C45_distribution_partial",
    "C45_refuted",
    "C45_shares",
    "C45_shares_apart",
    "C45_plotted",
    "C45_plotted_stayers"
   ],
   "note": "Distribution proved for reallocate_jointly=True (all periods) and for period 'first'; REFUTED for reallocate_jointly=False with 'second' or 'all' (pk0_period2 unbound)."
  },
  {
   "property": "C46",
   "status": "partial",
   "theorems": [
    "C46_counts",
    "C46_ids",
    "C46_firms",
    "C46_two_firms",
    "C46_first_firm",
    "C46_second_order",
    "C46_second_firm",
    "C46_firm_types_refuted"
   ],
   "note": "Counts, ids, contiguous firms with one type each, movers move, first firms of the row's type: proved for all counts and draws. REFUTED for the second firm: draws for movers' second firms are laid out by increasing second type while rows are ordered by first type, so with two or more firm types some mover's second firm is of another type (C46_firm_types_refuted, for all draws); C46_second_firm says exactly when it is right. Without control variables; an endless redraw loop is OutOfFuel."
  },
  {
   "property": "C47",
   "status": "partial",
   "theorems": [
    "C47_one_worker_type",
    "C47_square",
    "C47_refuted"
   ],
   "note": "Proved with one worker type. REFUTED otherwise: np.mean(A, axis=1) is lined up with the firm types, so nl != nk is refused with ValueError for all draws, and nl = nk gives other variation (C47_square says exactly when it is right)."
  },
  {
   "property": "C48",
   "status": "partial",
   "theorems": [
    "C48_unweighted",
    "C48_weighted_partial",
    "C48_returns_refused"
   ],
   "note": "Proved without weights for both estimators and all results, and with weights for the standard estimator except var(y). Not true of the alternative estimator with weights, see C74."
  },
  {
   "property": "C49",
   "status": "partial",
   "theorems": [
    "C49_safe",
    "C49_factor",
    "C49_first",
    "C49_refused",
    "C49_apply",
    "C49_preconditioner",
    "C49_exact",
    "C49_unstored_refuted"
   ],
   "note": "Proved for matrices in canonical format whose diagonal elements are stored, with the thresholds, both treatments of the diagonal, the shifts and the arrays reused between them; also that no array access leaves its bounds, and exactness without thresholds. REFUTED where a diagonal element is not stored: t[j] stays 0 and the elements of earlier columns are read into column j (C49_unstored_refuted)."
  },
  {
   "property": "C50",
   "status": "partial",
   "theorems": [
    "C50_flow_partial",
    "C50_exact",
    "C50_normalised",
    "C50_unique",
    "C50_refuted",
    "C50_no_iterations",
    "C50_only_joined",
    "C50_only_left",
    "C50_never_joined",
    "C50_alignment",
    "C50_alignment_refuted"
   ],
   "note": "If the iteration stops, the returned values solve the flow equations up to the tolerance (C50_flow_partial), fixed points are exactly solutions, normalised and unique. REFUTED in general: on two firms the iteration can oscillate for ever and the values returned after max_iters do not solve the equations (C50_refuted); max_iters = 0 fails; firms that are only joined or only left raise IndexError / ValueError; the reported correlation pairs firm values with firm effects of other firms (C50_alignment_refuted)."
  },
  {
   "property": "C51",
   "status": "partial",
   "theorems": [
    "C51_true",
    "C51_false",
    "C51_refused",
    "C51_clear",
    "C51_clear_order",
    "C51_fe_options_partial",
    "C51_cre_options_partial",
    "C51_integers_refuted"
   ],
   "note": "str2bool and clear_dict are proved in full. The use made of them is modelled too: options that are accepted reach the estimator unchanged and the rest are defaults, but every integer option is passed on as text and refused (C51_integers_refuted), as are --ndp and --wo_btw. ParamsDict is an outside package and is modelled by the declarations it is given."
  },
  {
   "property": "C52",
   "status": "partial",
   "theorems": [
    "C52_moments",
    "C52_equations_partial",
    "C52_equations_refuted",
    "C52_true_rho_refuted",
    "C52_no_persistence_partial",
    "C52_minimises",
    "C52_weights_partial",
    "C52_weights_refuted",
    "C52_differences_refuted",
    "C52_differences_zero",
    "C52_differences_moments"
   ],
   "note": "REFUTED: three of the ten equations per group are wrong (the coefficient meant for cov(y3, y4) overwrites the one for var(y1), and var(y4) has a sum for a product), so the true rhos never fit exactly (C52_equations_refuted, C52_true_rho_refuted); the default weights are repeated in the wrong order (C52_weights_refuted); the version in differences works for eight firm types only and then fixes two variances at zero (C52_differences_refuted, C52_differences_zero). Proved: the moments, the other seven equations, optimality of the fit, exact recovery without persistence."
  },
  {
   "property": "C53",
   "status": "proved",
   "theorems": [
    "C53_normal_equations",
    "C53_least_squares",
    "C53_noise_free"
   ],
   "note": ""
  },
  {
   "property": "C54",
   "status": "partial",
   "theorems": [
    "C54_check_feasible_partial",
    "C54_check_feasible_refuted"
   ],
   "note": "REFUTED for two or more periods: P is nl*nk by nl*nk while constraints have nt*nl*nk columns. C54_check_feasible_partial proves it for one period."
  },
  {
   "property": "C55",
   "status": "proved",
   "theorems": [
    "C55_pairs",
    "C55_value",
    "C55_unbiased"
   ],
   "note": ""
  },
  {
   "property": "C56",
   "status": "proved",
   "theorems": [
    "C56_draws",
    "C56_reported"
   ],
   "note": ""
  },
  {
   "property": "C60",
   "status": "partial",
   "theorems": [
    "C60_partial",
    "C60_refuted"
   ],
   "note": "REFUTED on exceptions: drop_single_stayers stays off (C60_refuted). Proved when subsets are returned."
  },
  {
   "property": "C61",
   "status": "partial",
   "theorems": [
    "C61_tables",
    "C61_estimators",
    "C61_axis",
    "C61_succeeds",
    "C61_decreasing_refuted"
   ],
   "note": "Proved whenever the function returns. REFUTED for decreasing attrition: np.flip of the dictionary of tables always raises (C61_decreasing_refuted)."
  },
  {
   "property": "C62",
   "status": "partial",
   "theorems": [
    "C62_partial",
    "C62_lines",
    "C62_refuted"
   ],
   "note": "Proved when movers per firm do not go down along the shares. REFUTED otherwise: unbound variable or a position outside the neighbouring shares (C62_refuted)."
  },
  {
   "property": "C63",
   "status": "proved",
   "theorems": [
    "C63_likelihood",
    "C63_posteriors"
   ],
   "note": "Real arithmetic; positive standard deviations and proportions."
  },
  {
   "property": "C64",
   "status": "proved",
   "theorems": [
    "C64_movers_monotone",
    "C64_penalised",
    "C64_prior_refuted",
    "C64_weights_refuted"
   ],
   "note": "Models without control variables. Also: for d_prior above 1 the penalised likelihood does not fall; REFUTED without the hypotheses: the recorded values fall for d_prior above 1 (the first value has no prior term) and for unequal weights (pk1 is updated with weights the likelihood does not use)."
  },
  {
   "property": "C67",
   "status": "proved",
   "theorems": [
    "C67_minimises",
    "C67_unique",
    "C67_recovery",
    "C67_linked",
    "C67_net_zero",
    "C67_without_between"
   ],
   "note": ""
  },
  {
   "property": "C68",
   "status": "partial",
   "theorems": [
    "C68_leave_out_leavers",
    "C68_leave_out_joiners",
    "C68_excludes",
    "C68_moments_leavers",
    "C68_moments_joiners",
    "C68_moments_stayers_movers_partial",
    "C68_moments_stayers_partial",
    "C68_moments_stayers_refuted"
   ],
   "note": "REFUTED for the moments of stayers: inner merges with the tables of leavers and of joiners drop every stayer of a firm that nobody leaves or nobody joins, even for the moment that involves stayers only (C68_moments_stayers_refuted). Proved for leavers and joiners in full, and for stayers over the firms that remain."
  },
  {
   "property": "C69",
   "status": "partial",
   "theorems": [
    "C69_movers_partial",
    "C69_stayers_values",
    "C69_stayers_refuted",
    "C69_cov_wt_overstated",
    "C69_totals"
   ],
   "note": "REFUTED for stayers: cov_AsPsi1 is the sum of two estimates of cov(A, psi) + var(psi) minus var(psi) once, that is 2 cov + var(psi); cov_AsAs and the reported cov_wt and tot_cov inherit the error (C69_stayers_values, C69_stayers_refuted, C69_cov_wt_overstated). The other parameters are proved right."
  },
  {
   "property": "C70",
   "status": "partial",
   "theorems": [
    "C70_mean",
    "C70_mean_unique",
    "C70_solvable",
    "C70_expected_partial",
    "C70_expected_refuted",
    "C70_prior_partial",
    "C70_prior_stayers",
    "C70_prior_refuted"
   ],
   "note": "REFUTED twice: the trace term divides by n - 1 where the direct term divides by n, so the expected report is not the posterior expectation of the variance (C70_expected_partial gives the exact value, C70_expected_refuted a witness), and firms seen only with stayers get prior mean 0 instead of their cluster's effect (C70_prior_refuted). Proved: the posterior mean is the unique penalised least-squares solution."
  },
  {
   "property": "C71",
   "status": "partial",
   "theorems": [
    "C71_exact",
    "C71_shares_refuted"
   ],
   "note": "REFUTED for the scale: var_y divides by n, tot_var and tot_cov by n - 1 (C71_shares_refuted). The totals themselves are proved (C71_exact)."
  },
  {
   "property": "C72",
   "status": "proved",
   "theorems": [
    "C72_cluster_shift",
    "C72_level"
   ],
   "note": ""
  },
  {
   "property": "C73",
   "status": "partial",
   "theorems": [
    "C73_shift_partial",
    "C73_weighted_refuted"
   ],
   "note": "REFUTED with unequal weights: pairs are weighted by the products of square roots of weights and units by sums of weights, so the part linear in the shift does not cancel (C73_weighted_refuted). Proved without weights."
  },
  {
   "property": "C74",
   "status": "partial",
   "theorems": [
    "C74_unit_weights_partial",
    "C74_rescale_partial",
    "C74_var_y_refuted",
    "C74_alternative_refuted"
   ],
   "note": "REFUTED twice. var(y) is the weighted variance of weight times wage, positive for constant wages (C74_var_y_refuted), and scales with the square of the weights (C74_rescale_partial). The alternative estimator with unit weights halves the average products of pairs (C74_alternative_refuted, the two factors marked FIXME in the code are 2 and 1). Proved for the other results of the standard estimator."
  },
  {
   "property": "C75",
   "status": "proved",
   "theorems": [
    "C75_data_unchanged"
   ],
   "note": ""
  },
  {
   "property": "C76",
   "status": "partial",
   "theorems": [
    "C76_uncorrelated_noise_partial",
    "C76_repeated_pairs_refuted"
   ],
   "note": "REFUTED for the covariance when a worker-firm pair is observed more than once, which long data without returns allow: a wage is multiplied with itself (C76_repeated_pairs_refuted). Proved for the variances and, with single spells, for the covariance; unweighted only."
  },
  {
   "property": "C77",
   "status": "partial",
   "theorems": [
    "C77_firm_mean",
    "C77_firm_mean_corrected",
    "C77_upper_bound_weighted_partial",
    "C77_upper_bound_weighted_refuted"
   ],
   "note": "Proved for firm means, with and without weights (homoskedastic errors). REFUTED for upper bounds with weights: the mean is s2/w times (T - w)/((T - 1) w), T the worker's total weight, right only if w = 1 (C77_upper_bound_weighted_refuted)."
  },
  {
   "property": "C78",
   "status": "partial",
   "theorems": [
    "C78_files",
    "C78_moments",
    "C78_bias",
    "C78_factor_partial",
    "C78_factor_refuted"
   ],
   "note": "Proved: files, unbiased moments, the first-order bias c/k. REFUTED for the non-linearity factor: it is 1 - (c + delta)/k, the term Bi has the wrong sign and twice the cross moment; with three rows of one worker 8/(27k) is removed where 5/(9k) is needed (C78_factor_refuted)."
  },
  {
   "property": "C79",
   "status": "proved",
   "theorems": [
    "C79_leave_one_out",
    "C79_refused",
    "C79_refused_approximate"
   ],
   "note": ""
  },
  {
   "property": "C57",
   "status": "proved",
   "theorems": [
    "C57_minimises",
    "C57_orthogonal",
    "C57_residuals",
    "C57_unique",
    "C57_recovers",
    "C57_no_controls"
   ],
   "note": ""
  },
  {
   "property": "C58",
   "status": "partial",
   "theorems": [
    "C58_sigma",
    "C58_sigma_trace",
    "C58_sigma_draws",
    "C58_collinear_refuted",
    "C58_ho",
    "C58_he",
    "C58_leverage",
    "C58_sii",
    "C58_sii_partial",
    "C58_sii_refuted"
   ],
   "note": "Proved for data without collinear columns. REFUTED otherwise: with collinear columns (for example a control that is constant for every worker) the unweighted sigma^2 divides by n minus the number of columns instead of the rank and is too large on average, and the analytical trace raises LinAlgError (C58_collinear_refuted, C58_sigma_trace). REFUTED for the row variances under heteroskedastic errors: wages are centred by a mean that contains the row (C58_sii gives the mean, C58_sii_refuted an example); right for variances s2 over weight (C58_sii_partial)."
  },
  {
   "property": "C59",
   "status": "partial",
   "theorems": [
    "C59_standard",
    "C59_unit_weights",
    "C59_scale_refuted",
    "C59_negative_refuted"
   ],
   "note": "Proved: unit weights. REFUTED: weights times c divide the squared standard errors by c^2 while the estimates stay (C59_scale_refuted); without weights the squared standard error is on average (n - k)/n of the squared error, no degrees of freedom are deducted (C59_standard); with the default clusters the number under the root can be negative, as pairs of rows in the normalised firm do not count (C59_negative_refuted)."
  },
  {
   "property": "C80",
   "status": "partial",
   "theorems": [
    "C80_fixed_point",
    "C80_recovered",
    "C80_returns_refused",
    "C80_weights_refuted",
    "C80_long_refuted"
   ],
   "note": "Proved for collapsed data whose weights are the same for all spells of a worker: the true slopes are a fixed point of the matrix used (C80_fixed_point) and are returned by the alternative estimator when the pairs link all firms (C80_recovered). REFUTED for weights that differ between spells, as collapsing produces: default options return 7/8 instead of 1 (C80_weights_refuted). REFUTED on the long format: spells of more than one period end in an IndexError (C80_long_refuted). Missing: that the fixed vector is unique for the other estimator (alternative_estimator=False)."
  },
  {
   "property": "C81",
   "status": "partial",
   "theorems": [
    "C81_iv",
    "C81_linear",
    "C81_default_refuted",
    "C81_worker_ids_refuted",
    "C81_refused",
    "C81_normalised",
    "C81_stationary_a_refuted"
   ],
   "note": "Proved for methods 'iv' (C81_iv) and 'linear' (C81_linear). REFUTED: the default method 'liml_1' inverts a singular matrix on wages without noise (C81_default_refuted); stationary_a constrains A/B, not A, so the returned A1 and A2 differ (C81_stationary_a_refuted); worker_ids with coarse > 0 reads an unassigned variable and worker ids of movers that are not numbered from 0 are refused (C81_worker_ids_refuted). Missing: methods 'liml_2', 'hful' and profiling are not modelled."
  },
  {
   "property": "C82",
   "status": "partial",
   "theorems": [
    "C82_alpha",
    "C82_missing_refuted"
   ],
   "note": "Proved for method 'iv': entries are the weighted means of the firms that have stayers (C82_alpha). REFUTED when a firm has no stayers: its entry is dropped and later ones move up, so alpha is not aligned with A and B (C82_missing_refuted)."
  },
  {
   "property": "C83",
   "status": "partial",
   "theorems": [
    "C83_order",
    "C83_monotone",
    "C83_additive",
    "C83_second_period_refuted"
   ],
   "note": "Proved for A1, for strictly_monotone_a in both periods, and for additivity. REFUTED for A2 by default: firm types are ordered by A1 only, although the documentation requires A2 to be increasing on average as well."
  },
  {
   "property": "C84",
   "status": "proved",
   "theorems": [
    "C84_worker_types",
    "C84_wages"
   ],
   "note": ""
  },
  {
   "property": "C66",
   "status": "partial",
   "theorems": [
    "C66_bootstrap",
    "C66_decomposition",
    "C66_bootstrap_error_refuted",
    "C66_decomposition_error_refuted",
    "C66_no_samples_refuted"
   ],
   "note": "Proved for every fit that returns (C66_bootstrap, C66_decomposition; stayers have one firm and one firm type). REFUTED when a sample raises: wages, firm types, ids and the added time column stay replaced (C66_*_error_refuted); with n_samples=0 the decomposition always raises IndexError and leaves the column (C66_no_samples_refuted). The standard bootstrap (resampling of workers) is not modelled."
  },
  {
   "property": "C85",
   "status": "partial",
   "theorems": [
    "C85_bootstrap",
    "C85_decomposition",
    "C85_unweighted",
    "C85_weights_refuted"
   ],
   "note": "Proved for every sample of the parametric bootstrap and of the decomposition (C85_bootstrap, C85_decomposition, C85_unweighted); the generator is assumed to return only types with positive probability and the right number of them. REFUTED with weights other than 1: the simulation divides the standard deviation by the weight, the likelihood corresponds to division by its square root (C85_weights_refuted)."
  },
  {
   "property": "C65",
   "status": "partial",
   "theorems": [
    "C65_meaning",
    "C65_identified",
    "C65_attainable",
    "C65_order_refuted",
    "C65_normalize_false_refuted"
   ],
   "note": "Proved: the exact meaning of all generated constraints (C65_meaning), uniqueness of the effects when normalize=True and a constrained column is reached (C65_identified, Stationary objects for all worker types), and that the normalisation excludes no model when the user adds only Stationary (C65_attainable). REFUTED: the scan of the columns breaks at the first time-varying interacting column, so an unconstrained one that comes first by name switches all normalisation off (C65_order_refuted); normalize=False still normalises the stored estimates and can break the user's constraints (C65_normalize_false_refuted)."
  },
  {
   "property": "C86",
   "status": "proved",
   "theorems": [
    "C86_sort"
   ],
   "note": "No control variables."
  },
  {
   "property": "C87",
   "status": "proved",
   "theorems": [
    "C87_count_movers",
    "C87_count_stayers",
    "C87_movers",
    "C87_stayers",
    "C87_fit_movers",
    "C87_fit_stayers",
    "C87_unobserved_movers",
    "C87_unobserved_stayers"
   ],
   "note": "No control variables (with control variables a fit with updates does not complete, see DESIGN.md), force_min_firm_type=False, return_qi=False. The QP solver is a parameter assumed exact."
  },
  {
   "property": "C88",
   "status": "proved",
   "theorems": [
    "C88_movers",
    "C88_stayers"
   ],
   "note": "No control variables. Each squared difference is divided by the standard deviation (that is what the code does, and why C89 fails), stated in sqdev."
  },
  {
   "property": "C89",
   "status": "partial",
   "theorems": [
    "C89_falls_refuted",
    "C89_partial"
   ],
   "note": "REFUTED (C89_falls_refuted): the A-step divides by standard deviations instead of variances, so with unequal variances the likelihood can fall even if only effects are updated. Proved (C89_partial) without updates of rhos and standard deviations, for equal variances if effects are updated, and without prior."
  },
  {
   "property": "C90",
   "status": "proved",
   "theorems": [
    "C90_movers",
    "C90_stayers"
   ],
   "note": "No control variables. If every residual regressed on is zero the code divides by zero; that case is excluded."
  },
  {
   "property": "C91",
   "status": "partial",
   "theorems": [
    "C91_rho_refuted",
    "C91_movers_partial",
    "C91_stayers_partial"
   ],
   "note": "REFUTED (C91_rho_refuted): the regression for variances reuses the design matrix of the effects, with -rho in place of rho^2. Proved (C91_movers_partial, C91_stayers_partial) when every rho is 0 or -1."
  },
  {
   "property": "C92",
   "status": "partial",
   "theorems": [
    "C92_mover_wages",
    "C92_stayer_wages",
    "C92_mover_density",
    "C92_stayer_density",
    "C92_bootstrap",
    "C92_decomposition",
    "C92_firm_types_as_ids_refuted",
    "C92_reallocate_refuted"
   ],
   "note": "REFUTED for firm_clusters_as_ids (C92_firm_types_as_ids_refuted): only the firm ids of the first and the last period are replaced by firm types, so the regression mixes firm types and firms; and for reallocate_jointly=False with period 'second' or 'all' (C92_reallocate_refuted: UnboundLocalError). The rest is proved. No control variables."
  },
  {
   "property": "C93",
   "status": "partial",
   "theorems": [
    "C93_bootstrap",
    "C93_decomposition_partial",
    "C93_decomposition_refuted",
    "C93_bootstrap_error_refuted",
    "C93_decomposition_error_refuted"
   ],
   "note": "REFUTED for the decomposition (C93_decomposition_refuted): with firm_clusters_as_ids (the default) the stayers' first-period firm ids remain firm types after every run, because j4 is restored twice and j1 never; and after exceptions. Proved for the bootstrap, the movers, and the decomposition without firm_clusters_as_ids. The column t is left out."
  },
  {
   "property": "C94",
   "status": "partial",
   "theorems": [
    "C94_measure_partial",
    "C94_direction_refuted",
    "C94_isolated",
    "C94_one_firm_type_refuted",
    "C94_all_refuted"
   ],
   "note": "REFUTED where movers between two firm types go in one direction only (C94_direction_refuted: counts are paired with the proportions of the opposite direction), for a single firm type (C94_one_firm_type_refuted: IndexError) and for all=True (C94_all_refuted: the vector is overwritten). Proved where movers go both ways or not at all (C94_measure_partial), with LinAlgError if a firm type has no mover of some worker type (C94_isolated). Exact arithmetic; np.linalg.eig is a parameter that returns the real eigenvalues."
  },
  {
   "property": "C95",
   "status": "partial",
   "theorems": [
    "C95_movers",
    "C95_estimator",
    "C95_switches_refuted",
    "C95_force_refuted",
    "C95_counts_refuted"
   ],
   "note": "REFUTED for the options: update_a_movers, update_s_movers and update_pk1 change nothing (C95_switches_refuted), force_min_firm_type raises TypeError on all data (C95_force_refuted), compute_NNm=False never completes on a new model (C95_counts_refuted). Phases, choice and stayers proved (C95_movers, C95_estimator), without control variables; drawn starting values, rho_init and eigenvalues are parameters. C95_estimator needs constraints valid for movers and stayers, so by C98 no user constraint that excludes something."
  },
  {
   "property": "C96",
   "status": "partial",
   "theorems": [
    "C96_controls_refuted",
    "C96_errors",
    "C96_no_controls_partial"
   ],
   "note": "REFUTED: with any control variable the movers' estimation never completes (C96_controls_refuted, for all data and all outcomes of the numerical parts), and C96_errors says which exception is raised when. Without control variables it completes (C96_no_controls_partial). Modelled at the level of dictionary keys and array shapes; numbers are parameters."
  },
  {
   "property": "C97",
   "status": "partial",
   "theorems": [
    "C97_em",
    "C97_variance_refuted",
    "C97_likelihood_refuted",
    "C97_update_a_refuted"
   ],
   "note": "REFUTED in three parts. C97_em: what fit_movers does, for all data and options: the run, its stopping, the optimality of every block of effects in turn, the regression that gives the variances, the shares, the best of the forced runs, which happen only if asked for or after a run that ended with its first cycle. But every block of standard deviations is fitted to the whole squared residual, so with control variables the predicted variance exceeds it for every worker type, firm type and period after an iteration (C97_variance_refuted), the recorded likelihood can fall (C97_likelihood_refuted), and update_a without update_s always raises (C97_update_a_refuted)."
  },
  {
   "property": "C98",
   "status": "partial",
   "theorems": [
    "C98_effects_refuted",
    "C98_spread_refuted",
    "C98_refuses_refuted"
   ],
   "note": "REFUTED. The movers have four to six periods, the stayers two, and the same objects go to both fits. For any number of periods the constraint is made for, one of the fits keeps the effects (C98_effects_refuted) or standard deviations (C98_spread_refuted) it started from, since the ValueError of the solver is caught; with an inequality for the standard deviations one of the fits never returns (C98_refuses_refuted). For constraints of the right size the updates are the best allowed ones: C88, C91."
  },
  {
   "property": "C99",
   "status": "proved",
   "theorems": [
    "C99_matches"
   ],
   "note": "The cleaning by bipartitepandas that follows (returns dropped, connectedness) is not modelled; it removes rows. The generator is a parameter; the loop may go on for ever for some draws, the theorem is about the data it returns."
  },
  {
   "property": "C100",
   "status": "partial",
   "theorems": [
    "C100_moments",
    "C100_refused",
    "C100_column_lambda",
    "C100_column_mu",
    "C100_columns_refuted"
   ],
   "note": "REFUTED for the last sentence: the columns are a * lambda_i and b * mu_j (C100_column_lambda, C100_column_mu: equal to the effects only in special cases; C100_columns_refuted: with the default parameters the column is 4/5 of the effect, so its variance is 0.64 * sigma_lambda_sq). The moments of the wages are proved (C100_moments, C100_refused). rho = 1 or -1 and zero variances, where the code divides by 0, are excluded."
  },
  {
   "property": "C101",
   "status": "partial",
   "theorems": [
    "C101_no_coarse_refuted",
    "C101_symmetric",
    "C101_coarse",
    "C101_weights"
   ],
   "note": "REFUTED for the last sentence (C101_no_coarse_refuted): both estimators pass the shape (n, 1) and direct_solve_size 0, so the coarse grid has no cells and the preconditioner is num_pre_iter + num_post_iter sweeps of damped Jacobi, or always raises if spsolve refuses an empty system. The rest is proved for all shapes (C101_symmetric, C101_coarse; C101_weights gives the entries of the downsampling matrix). The cache of a shape's matrices is left out."
  },
  {
   "property": "C102",
   "status": "proved",
   "theorems": [
    "C102_fe"
   ],
   "note": "Over an arbitrary real field; rounding is not modelled. spsolve is assumed to accept the empty system (see C101); a single firm is excluded for the V-cycle."
  },
  {
   "property": "C103",
   "status": "partial",
   "theorems": [
    "C103_jacobi",
    "C103_small_omega",
    "C103_when",
    "C103_default_refuted"
   ],
   "note": "REFUTED for the V-cycle (C103_default_refuted): six rows with one categorical control and no collinear columns, for which the default V-cycle is not positive definite. C103_when says exactly when it is, with two sweeps in all; C103_small_omega: it is if omega < 2 / (2 + number of control columns), so the default 0.8 is safe only without controls. C103_jacobi: Jacobi always is."
  },
  {
   "property": "C104",
   "status": "partial",
   "theorems": [
    "C104_order",
    "C104_monotone",
    "C104_sds",
    "C104_additive",
    "C104_other_periods_refuted"
   ],
   "note": "REFUTED for the other periods (C104_other_periods_refuted): firm types are ordered by period '12' only, and with strictly_monotone_a the effects '2mb' and '3mb' are left as drawn. The rest is proved for all draws. Ties are not excluded, so 'increasing' is not strict."
  },
  {
   "property": "C105",
   "status": "partial",
   "theorems": [
    "C105_refuted",
    "C105_interacted_refuted",
    "C105_continuous_refuted",
    "C105_categorical",
    "C105_categorical_refuted",
    "C105_continuous",
    "C105_variation"
   ],
   "note": "REFUTED: with any stationarity option of the model and at least one mover the simulation raises, whatever is drawn (C105_refuted), as it does for interacted categorical controls (C105_interacted_refuted) and, with endogeneity or state dependence, for interacted continuous controls unless the number of movers happens to equal nl (C105_continuous_refuted); a stationary categorical control is zero in all periods if endogeneity or state dependence is off (C105_categorical_refuted, the arrays are shared). The option works for continuous controls, and for categorical ones if both are on (C105_continuous, C105_categorical, C105_variation)."
  },
  {
   "property": "C106",
   "status": "partial",
   "theorems": [
    "C106_counts",
    "C106_ids",
    "C106_firms",
    "C106_first_firm",
    "C106_worker_types",
    "C106_second_firm",
    "C106_second_firm_refuted"
   ],
   "note": "REFUTED for the second firms (C106_second_firm_refuted), as in C46: they are assigned in order of the second type to rows in order of the first. Everything else is proved. Types and firms are drawn by the same code as in SimBLM and share its model."
  },
  {
   "property": "C107",
   "status": "proved",
   "theorems": [
    "C107_movers",
    "C107_stayers"
   ],
   "note": "mover_shocks and stayer_shocks (DBootSpec) use the means and variances of the likelihood. For stayers the standard deviations '2s' are taken to be nonnegative, as the parameters' bounds make them."
  },
  {
   "property": "C108",
   "status": "partial",
   "theorems": [
    "C108_recorded",
    "C108_movers",
    "C108_stayers",
    "C108_variance_refuted"
   ],
   "note": "REFUTED for the variances (C108_variance_refuted): standard deviations are added to squared ones without being squared, so for the default range 0.3 to 0.5 no row has the right wage. The means are proved (C108_movers, C108_stayers), with the variance the code uses."
  },
  {
   "property": "C109",
   "status": "proved",
   "theorems": [
    "C109_rows"
   ],
   "note": "The control variables are added to the run without them (C109_rows), to which C46 and C84 apply; 'adds' uses the mean and variance of the likelihood (mu1, var1, ...)."
  },
  {
   "property": "C110",
   "status": "partial",
   "theorems": [
    "C110_shapes",
    "C110_categorical",
    "C110_variation_partial",
    "C110_continuous",
    "C110_interacted_refuted",
    "C110_square",
    "C110_square_refuted"
   ],
   "note": "REFUTED for stationary_firm_type_variation of a categorical variable that interacts with worker type: the means by worker type are lined up with the categories, so the simulation raises ValueError for different numbers of both (C110_interacted_refuted) and for equal numbers changes the variation (C110_square, C110_square_refuted). Proved without interaction or for one worker type (C110_variation_partial), for continuous variables (C110_continuous) and for the other options (C110_categorical)."
  },
  {
   "property": "C111",
   "status": "partial",
   "theorems": [
    "C111_no_controls",
    "C111_refuted",
    "C111_key_error_refuted"
   ],
   "note": "REFUTED (C111_refuted): the column of a control variable is looked up under the number of the period, 0 or 1, which is no label of the data, so every simulation with at least one control variable raises; KeyError if everything else is in order (C111_key_error_refuted). Every round of the bootstrap and the decomposition begins with this call (4212, 4488). Without control variables C92 applies (C111_no_controls)."
  },
  {
   "property": "C112",
   "status": "partial",
   "theorems": [
    "C112_keys",
    "C112_single",
    "C112_parallel",
    "C112_cores",
    "C112_extends",
    "C112_returns",
    "C112_refuted"
   ],
   "note": "REFUTED in one point (C112_refuted): the true values are computed from all simulated observations before cleaning, the estimates from the observations left after cleaning, so even an estimator without error differs from the truth if cleaning drops anything. Everything else is proved: keys and lengths, alignment for one core (with the generator passed on from simulation to simulation) and several cores, prefix, independence of the number of cores, and that nothing raises if the parts return."
  },
  {
   "property": "C113",
   "status": "proved",
   "theorems": [
    "C113_plots"
   ],
   "note": "For at least one simulation and one estimator plotted. np.sort and drawing are not modelled (they do not change which values are plotted)."
  },
  {
   "property": "C114",
   "status": "partial",
   "theorems": [
    "C114_results",
    "C114_eps_refuted",
    "C114_output_refuted"
   ],
   "note": "REFUTED in two points: a control variable named eps takes the key var(eps)_fe of the residual variance (C114_eps_refuted), and with an output file all results are replaced by text (C114_output_refuted). C114_results proves the rest for all names other than var(eps)."
  },
  {
   "property": "C115",
   "status": "partial",
   "theorems": [
    "C115_completes",
    "C115_levfile_refuted",
    "C115_empty_refuted",
    "C115_left_refuted"
   ],
   "note": "REFUTED in three points: given leverages (levfile) with exact_trace_he raise AttributeError (C115_levfile_refuted); an empty list Q_var or Q_cov, which the type check of the parameter admits if it only looks at the members, with an approximate trace raises UnboundLocalError (C115_empty_refuted). With he and statsonly or feonly the square-root matrices are left on the object (C115_left_refuted). C115_completes proves all other combinations, for every state of the object. The numerical work of each step is taken to succeed."
  },
  {
   "property": "C116",
   "status": "partial",
   "theorems": [
    "C116_subplots",
    "C116_once",
    "C116_periods_refuted",
    "C116_unclustered_refuted"
   ],
   "note": "REFUTED in two points: with periods_pre different from periods_post the function raises ValueError (C116_periods_refuted), and for data that are not clustered, or have one class, it raises (C116_unclustered_refuted). C116_subplots and C116_once prove the rest. What plt.subplots, errorbar and enumerate refuse is taken from the documentation of matplotlib."
  },
  {
   "property": "C117",
   "status": "partial",
   "theorems": [
    "C117_samples",
    "C117_returns",
    "C117_renumbered_refuted"
   ],
   "note": "C117_samples and C117_returns hold for a clustering that keeps the firms' numbers. REFUTED if the cleaning that precedes it numbers the firms of the sample anew without gaps, as bipartitepandas documents for clean (C117_renumbered_refuted): classes are looked up under the old numbers and movers at firms with high numbers get none. bipartitepandas is not part of the repository, so which case applies is not settled here."
  },
  {
   "property": "C118",
   "status": "partial",
   "theorems": [
    "C118_shown",
    "C118_shown_dynamic",
    "C118_drawn_partial",
    "C118_drawn_refuted",
    "C118_labels",
    "C118_labels_dynamic"
   ],
   "note": "What is drawn is right for every number of models (C118_shown, C118_shown_dynamic) and independent of names if no two types tie (C118_labels, C118_labels_dynamic). It can be drawn for up to 40 samples (C118_drawn_partial); for every larger number REFUTED by models with one outlier: the mean lies above the 97.5 percentile and plt.errorbar raises ValueError for the negative length (C118_drawn_refuted)."
  },
  {
   "property": "C119",
   "status": "partial",
   "theorems": [
    "C119_points",
    "C119_zeros_refuted"
   ],
   "note": "Holds if every model has a connectedness measure (C119_points). REFUTED otherwise: for each model without the measure the plot has a point at (0, 0) that belongs to no model (C119_zeros_refuted). Jitter is not modelled."
  },
  {
   "property": "C120",
   "status": "partial",
   "theorems": [
    "C120_kept",
    "C120_s_alone_refuted",
    "C120_estimator_refuted"
   ],
   "note": "Every fit_movers that returns keeps what is switched off (C120_kept). REFUTED: update_s=False with update_a=True never returns, since the statement del XwX, weights1, weights2 names variables that are only set when S is updated (C120_s_alone_refuted); and fit_movers_cstr_uncstr, used by BLMEstimator, overwrites all three options, so they have no effect there (C120_estimator_refuted)."
  },
  {
   "property": "C121",
   "status": "partial",
   "theorems": [
    "C121_stayers_partial",
    "C121_movers_partial",
    "C121_stayers_refuted",
    "C121_movers_refuted",
    "C121_columns_refuted",
    "C121_totals",
    "C121_used_partial",
    "C121_used_refuted",
    "C121_one_type_refuted",
    "C121_connected_partial",
    "C121_connected_refuted",
    "C121_connected_joined_refuted"
   ],
   "note": "Holds if every firm type occurs (C121_stayers_partial, C121_movers_partial, C121_used_partial). REFUTED otherwise: a type that does not occur is left out of the arrays, all higher types move down (C121_stayers_refuted, C121_movers_refuted); the plot then raises (C121_used_refuted) or, if one type has stayers, gives each firm type all of them (C121_one_type_refuted). fit_stayers does return on such data (C39). C121_columns_refuted is the same for types that no mover joins; C121_totals: no worker is lost or counted twice, for all data. Connectedness, computed at the end of fit_movers_cstr_uncstr, uses the right counts if every type is left and joined (C121_connected_partial); REFUTED otherwise: it raises ValueError if two other types are left or joined (C121_connected_refuted, C121_connected_joined_refuted)."
  },
  {
   "property": "C122",
   "status": "partial",
   "theorems": [
    "C122_stacked",
    "C122_stayers",
    "C122_movers_partial",
    "C122_periods_refuted",
    "C122_all_partial",
    "C122_all_periods_refuted",
    "C122_labels"
   ],
   "note": "Stacking (C122_stacked), stayers (C122_stayers) and independence of names (C122_labels) hold for all subsets and periods. For movers and for all workers the average of the two periods is right if counts are symmetric (C122_movers_partial, C122_all_partial); REFUTED for single periods: the plots of the first and second period are exchanged (C122_periods_refuted, C122_all_periods_refuted); for other counts the pairing of counts and proportions is wrong (C43)."
  },
  {
   "property": "C123",
   "status": "partial",
   "theorems": [
    "C123_counts",
    "C123_static",
    "C123_dynamic_partial",
    "C123_dynamic_refuted",
    "C123_connected_partial",
    "C123_missing",
    "C123_no_counts_refuted",
    "C123_old_counts_refuted"
   ],
   "note": "Counts (C123_counts), plots of static models (C123_static), and of dynamic models except for stayers without counts of movers or the reverse (C123_dynamic_partial) hold. REFUTED for dynamic models and stayers: the code checks NNm instead of NNs (C123_dynamic_refuted). REFUTED for fit_movers_cstr_uncstr with compute_NNm=False: it raises AttributeError or uses the counts of earlier data (C123_no_counts_refuted, C123_old_counts_refuted; with compute_NNm=True C123_connected_partial; with missing values in pk1 C123_missing). The estimation and eigenvalues are left out."
  }
 ]
}