# Formal model of pytwoway: design

This file says what is modelled, how each property of `properties.jsonl` is
stated and proved, and what has to be trusted.  The plan of section 4 was written
before the proofs and is brought up to date with them.

## 1. Approach

The subject is the Python package in `/repo/pytwoway`.  It is read as text and
rewritten, function by function, as Gallina functions.  Each definition cites
the file and the lines it follows and says where it simplifies.

* Python exceptions are values (`Err e` of the result type `res`).
* `for` loops are folds over the list the loop iterates over, or structural
  recursion; `while` loops carry fuel and return an error when it runs out, and
  theorems either exclude that case or show that it does not arise.
* Arrays are lists (1-D), or a shape with an entry function (2-D); index
  assignments check bounds and give `IndexError`; `np.zeros` with a negative
  dimension gives `ValueError`.
* Floating-point numbers are modelled as real numbers.  Rounding, overflow,
  NaN and infinities are not modelled, except where the code tests for NaN
  (a 0/0 row of proportions), which is an explicit error value.
* External calls (linear solvers, quadratic programming, random numbers,
  eigenvalues, argsort, clustering, connected sets) are parameters of the model
  functions with only the contract a theorem states as hypothesis; none is an
  axiom.

Two number systems are used.

* Index-heavy and likelihood code uses the standard library reals `R`.  This
  brings axioms of `Coq.Reals` and `Coq.Logic` (section 5).
* Least-squares and trace code uses mathcomp matrices over an arbitrary
  `realFieldType`.  This is axiom free.

A property that the code does not have is not weakened until it holds.  Its
statement stays in `properties.jsonl`; a theorem whose name ends in `_refuted`
proves that the modelled code violates it, with a witness or a general
characterisation; further theorems prove the part that does hold.  Such
properties have status `partial` in `MANIFEST.json`.  A theorem whose name ends
in `_partial` proves the property under a hypothesis the statement does not have;
the note in the manifest says what is missing.

## 2. Trusted base

* Coq 8.16.1's kernel, and the axioms `Print Assumptions` prints beneath each
  property theorem (section 5).  No axioms are added, no kernel check is switched
  off, nothing is admitted.
* Libraries: the Coq standard library and mathcomp (ssreflect, algebra).
* The reading of the Python text: the model is tied to the code only by the
  citations.  numpy, scipy, pandas and bipartitepandas calls are replaced by
  their documented meaning.
* The specifications: the `*Spec.v` files and the statements in `*Props.v`.

What is modelled, by source file:

| source | modelled | not modelled |
|---|---|---|
| `util.py` | `weighted_mean/var/cov/quantile`, `DxSP`, `SPxD`, `DxM`, `MxD`, `diag_of_sp_prod`, `diag_of_prod`, `logsumexp`, `lognormpdf`, `fast_lognormpdf`, `scramble`, `unscramble`, `melt` | torch versions, jitter plots |
| `constraints/constraints.py` | everything (`QPConstrained` and all constraint classes); the QP solver is a parameter | |
| `fe.py` | matrices, `_mult_*`, `_solve`, `_proj`, `_construct_AAinv_components_*`, OLS, plug-in components, sigma^2 (FE, HO), exact and approximate traces (HO, HE, sigma^2), leverages (exact, approximate, from file), `_leverage_approx`, `Sii` and the corrections for stayers, the attributes each step of `fit` needs, results and summary (C114, C115) | `__init__` and parameter checks, the solvers, the text written to the output file |
| `Q/Q.py` | all classes | |
| `fecontrol.py` | column layout, `_unpack_gamma_hat`, `_pack_Z`, OLS, clustered standard errors, sigma^2, traces, leverages, `Sii` | as for `fe.py`; `attach_fe_estimates` into the frame |
| `cre.py` | between and within steps, leave-out means, moments, parameters, totals, posterior variance | preparation of the cross section, saving |
| `blm.py` | `_min_firm_type`, `_gen_constraints`, `_sort_parameters`, `_normalize`, `_fit_movers` without and with control variables, `fit_stayers` (without and with control variables), `fit_movers` and its phases, `fit_A/S/pk`, `BLMEstimator.fit`, mover counts, graph weights, connectedness measure, plotted proportions, `_simulate_types_wages`, parametric and standard bootstrap, variance decomposition | starting values, figures |
| `blm_dynamic.py` | `_var_stayers` (C52); `_sort_parameters`, `_min_firm_type`, `_gen_constraints`, `_sum_by_*`, `_fit_movers`, `fit_stayers`, starting values, `fit_movers_cstr_uncstr`, `DynamicBLMEstimator.fit` without control variables and with return_qi=False; `_simulate_types_wages`, parametric bootstrap and decomposition without control variables; keys and shapes of control variables in `_fit_movers` (C96) and `_simulate_types_wages` (C111) | values of control variables, `rho_init`, figures |
| `blm_interacted.py` | `_fit_b_fixed_point`, `_fit_a_alpha_fixed_point`, `_fit_a_b_linear` with methods linear, iv, liml_1 | liml_2, hful, profiling |
| `borovickovashimer.py` | everything | |
| `sorkin.py` | the estimator, the alignment of its attrition | multiprocessing, plot |
| `attrition.py`, `attrition_utils` | drawing of subsets, jobs, `_combine_res`, the movers-per-firm line | the estimators called on each subset, figures |
| `command_line.py` | `str2bool`, `clear_dict`, option dictionaries | argument parsing, reading data |
| `simblm.py` | `_sort_A`, `_gen_params`, `_simulate_movers/stayers`, `simulate`, without and with control variables | validation of the options, column order, bipartitepandas |
| `preconditioners/ichol.py` | everything | |
| `simbs.py` | all of SimBS up to the cleaning | cleaning by bipartitepandas |
| `preconditioners/jacobi.py`, `vcycle.py` | everything but the cache | cache |
| `simdblm.py` | everything but clean-up of the data frame (column order, bipartitepandas) | column order, bipartitepandas |
| `montecarlo.py` | `_monte_carlo_interior`, `monte_carlo`, the values and range plotted by `hist` (C112, C113) | the constructor, drawing |
| `diagnostics` | the rows, positions and moments of every subplot (C116) | tick marks, drawing |

Nowhere modelled: plotting, progress bars, printing, file input and output, GPU
code, the data cleaning of bipartitepandas, floating-point error, the quality of
random numbers, run time and memory.

## 3. Files

`rocq/theories` holds groups of files with a common prefix: `XxxModel.v`
(definitions only, with citations), `XxxSpec.v` (small independent
specification), `Xxx...Lemmas.v` (proofs) and `XxxProps.v` (only the property
theorems, each closed by `exact`, with `Print Assumptions`, and an `Example` that
the hypotheses can be met).

| prefix | source | properties |
|---|---|---|
| `Util` | `util.py` | C01-C08 |
| `Cons` | `constraints/constraints.py` | C09-C20, C54 |
| `FE` (also `FEGram`, `FEMx`, `FELink`) | `fe.py`, `Q/Q.py` | C21-C31, C56 |
| `FEPair` | `Q/Q.py` | C55 |
| `FESii` | `fe.py` (variances of errors, leverages) | C77-C79 |
| `FECtl` | `fecontrol.py`, `Q/Q.py` (columns, clusters) | C32-C34 |
| `FEReg` | `fecontrol.py` (regression, corrections) | C57-C59 |
| `Attr` (also `AttrComb`) | `attrition.py`, `attrition_utils` | C35, C36, C60-C62 |
| `BLM` (also `BLMEM`) | `blm.py` (sorting, normalisation, EM of stayers) | C37-C40, C63 |
| `BLMRun` (also `BLMReal`) | `blm.py` (phases, selection, proportions) | C41-C43, C45 |
| `BLMFit` | `blm.py` (EM of movers) | C43, C44, C64 |
| `BLMGen` | `blm.py` (constraints with controls) | C65 |
| `BLMCtl` | `blm.py` (`fit_movers` with controls) | C97 |
| `Boot` | `blm.py` (bootstrap, decomposition) | C43, C66, C85 |
| `Sim` | `simblm.py` | C46, C47, C83, C84 |
| `Bs` | `borovickovashimer.py` | C48, C73-C76 |
| `Ichol` | `preconditioners/ichol.py` | C49 |
| `Sorkin` | `sorkin.py` | C50 |
| `Cli` | `command_line.py` | C51 |
| `Dyn` | `blm_dynamic.py` (`_var_stayers`) | C52 |
| `DBLM` | `blm_dynamic.py` (estimator without controls) | C86-C91 |
| `DBoot` | `blm_dynamic.py` (simulation, bootstrap, decomposition) | C92, C93 |
| `DBootCtl` | `blm_dynamic.py` (`_simulate_types_wages` with control variables) | C111 |
| `FEFit` (and `FEFitFlow`) | `fe.py` (`fit`: which attributes each step needs; `_collect_res`, `_save_res`) | C114, C115 |
| `Ev` | `diagnostics/plot_extendedeventstudy.py` | C116 |
| `SBoot` | `blm.py`, `blm_dynamic.py`: bootstrap with method='standard' | C117 |
| `Plot` | `blm.py`, `blm_dynamic.py`: plots of the bootstrap and of likelihoods | C118, C119 |
| `Upd` | `blm.py`: the options update_a, update_s, update_pk1 (on the models of `BLMFit` and `BLMRun`) | C120 |
| `Cnt` | `blm.py`, `blm_dynamic.py`: the counts NNm and NNs and their use in the plot of type proportions | C121 |
| `PropPlot` | `blm.py`: the bootstrap plot of type proportions | C122 |
| `Avail` | `blm.py`, `blm_dynamic.py`: calls that store and use the counts of movers and stayers | C123 |
| `MC` | `montecarlo.py` (`_monte_carlo_interior`, `monte_carlo`, differences and range of `hist`) | C112, C113 |
| `DRun` | `blm_dynamic.py` (`fit_movers_cstr_uncstr`, starting values, `DynamicBLMEstimator.fit`) | C95 |
| `DCons` | `blm_dynamic.py` (user constraints for movers and stayers) | C98 |
| `SBs` | `simbs.py` (SimBS) | C99, C100 |
| `Prec` | `preconditioners/jacobi.py`, `preconditioners/vcycle.py` and their use in `fe.py` and `fecontrol.py` | C101-C103 |
| `SimCtl` | `simblm.py` (control variables) | C109, C110 |
| `SimD` | `simdblm.py` | C104-C108 |
| `DCtl` | `blm_dynamic.py` (control variables: keys and shapes) | C96 |
| `Conn` | `blm.py`, `blm_dynamic.py` (`compute_connectedness_measure`) | C94 |
| `Inter`, `Fixb`, `Lin` | `blm_interacted.py` | C53, C80, C81, C82 |
| `Cre`, `CrePost` | `cre.py` | C67-C72 |

`Base.v` has the result type, Python lists and finite sums; `FieldTac.v` makes
`ring` and `field` available over a `realFieldType`.

`tools/manifest.py` writes `MANIFEST.json` from the names of the theorems and
`tools/notes.json`; `tools/axioms.py` prints section 5.  `seeded/LOG.jsonl` records
the wrong programs the theorems were tested against.  There, `theorems_failed`
lists the property theorems that no longer go through after the edit, directly or
because a lemma they need fails; an edit that repairs a bug is expected to break
the `_refuted` theorems.

## 4. Properties

For each property: what is modelled and how it is proved; the theorems; what is
missing or refuted.

- **C01** Scrambling work for multiprocessing loses nothing (proved)
  `scramble`, `unscramble` on polymorphic lists, loops as in the code. Round
  trips by induction from both ends; corollary for mapped jobs.
  Theorems: `C01_unscramble_scramble`, `C01_scramble_unscramble`,
  `C01_results_paired`.
- **C02** Weighted mean, variance and covariance obey the laws of a weighted sample (proved)
  `weighted_mean/var/cov` on lists of reals with a scalar-or-vector weight
  argument. Algebra on finite sums.
  Theorems: `C02_mean_between`, `C02_mean_unweighted`, `C02_mean_equal_weights`,
  `C02_scale_weights`, `C02_var_is_cov`, `C02_var_is_cov_unweighted`,
  `C02_shift`, `C02_var_nonneg`, `C02_cov_sym`, `C02_var_sum`,
  `C02_cov_formula`.
- **C03** Weighted quantiles stay inside the data and are monotone (proved)
  `weighted_quantile`: argsort as an arbitrary sorting permutation, `cumsum`,
  `np.interp` as its documented piecewise-linear function. Bounds and
  monotonicity by induction on the knots.
  Theorems: `C03_error_iff`, `C03_between`, `C03_monotone`, `C03_shift`,
  `C03_value`.
  argsort is a parameter with the contract is_argsort; the shift law assumes the
  sort gives the same order for shifted values (numpy's argsort is deterministic
  on the order pattern).
- **C04** Fast diagonal products equal the true matrix products (proved)
  Dense helpers on entry functions; `DxSP` on the compressed sparse column
  representation (data, indices, indptr) with the dense meaning of a layout as
  specification.
  Theorems: `C04_DxSP`, `C04_SPxD`, `C04_DxM`, `C04_MxD`, `C04_scalar`.
- **C05** Fast diagonal of a product equals the diagonal of the product (proved)
  `diag_of_prod` with its transposing recursion (fuel 2 shown enough).
  Theorems: `C05_diag_of_prod`, `C05_terminates`, `C05_excess`.
  diag_of_sp_prod is the same text on sparse arguments and is covered on their
  dense meaning.
- **C06** logsumexp is exact and yields a probability distribution (proved)
  `logsumexp` on non-empty lists of reals; algebra of exp and ln.
  Theorems: `C06_logsumexp`, `C06_no_overflow`, `C06_posterior`,
  `C06_posterior_shift`.
  numpy branch; real arithmetic instead of floating point.
- **C07** The two parameterisations of the normal log density agree (proved)
  `lognormpdf`, `fast_lognormpdf` against the normal density.
  Theorems: `C07_error_iff`, `C07_density`, `C07_fast`.
- **C08** melt labels every flattened cell with its own indices (partial)
  `melt` for two dimensions with numpy's default `xy` meshgrid; refuted in
  general, true of symmetric square arrays.
  Theorems: `C08_melt_refuted`, `C08_melt_refuted_general`, `C08_melt_partial`.
  REFUTED in general: meshgrid's default 'xy' indexing swaps the first two axes.
  C08_melt_refuted gives a witness, C08_melt_refuted_general all shapes with two
  leading dimensions >= 2; C08_melt_partial proves the claim where it holds.
- **C09** Combining constraints means intersecting them (proved)
  `QPConstrained` as a record with operations; the feasible set as a predicate;
  induction over arbitrary lists of operations.
  Theorems: `C09_history`, `C09_builtin`, `C09_order_irrelevant`,
  `C09_batching_irrelevant`, `C09_check_feasible_keeps`,
  `C09_sparse_solver_then_add`.
  Histories of add_constraints, _add_constraint, clear_constraints,
  check_feasible and dense solve. C09_sparse_solver_then_add records that a
  sparse solver breaks later additions. qpsolvers itself is outside the model.
- **C10** Linear constrains exactly linear-in-worker-type effects (proved)
  The loops of `_get_constraints` with invariants over the matrix; satisfied iff
  the English meaning, over a parameter function of period, worker type and firm
  type. The same for C11 to C19.
  Theorems: `C10_linear`, `C10_one_worker_type`.
- **C100** SimBS: moments of the simulated wages (partial)
  Expected values over a finite weighted space; the coefficients solve the
  normal equations. The bound of a refused sigma_wages is the residual variance
  of the projection being nonnegative.
  Theorems: `C100_moments`, `C100_refused`, `C100_column_lambda`,
  `C100_column_mu`, `C100_columns_refuted`.
  REFUTED for the last sentence: the columns are a * lambda_i and b * mu_j
  (C100_column_lambda, C100_column_mu: equal to the effects only in special
  cases; C100_columns_refuted: with the default parameters the column is 4/5 of
  the effect, so its variance is 0.64 * sigma_lambda_sq). The moments of the
  wages are proved (C100_moments, C100_refused). rho = 1 or -1 and zero
  variances, where the code divides by 0, are excluded.
- **C101** V-cycle preconditioner: coarse-grid correction (partial)
  The sweeps are the powers of one matrix; the coarse system of shape (n, 1) has
  no unknowns. Symmetry by induction on the depth: the sweeps before and after
  are transposes of each other.
  Theorems: `C101_no_coarse_refuted`, `C101_symmetric`, `C101_coarse`,
  `C101_weights`.
  REFUTED for the last sentence (C101_no_coarse_refuted): both estimators pass
  the shape (n, 1) and direct_solve_size 0, so the coarse grid has no cells and
  the preconditioner is num_pre_iter + num_post_iter sweeps of damped Jacobi, or
  always raises if spsolve refuses an empty system. The rest is proved for all
  shapes (C101_symmetric, C101_coarse; C101_weights gives the entries of the
  downsampling matrix). The cache of a shape's matrices is left out.
- **C102** FEEstimator: preconditioners for conjugate gradients (proved)
  The matrix has nonpositive entries off the diagonal and nonnegative row sums
  (computed from the data), hence M and 2D - M are positive semidefinite; with
  invertibility (FELsLemmas) M is positive definite. Pairs of sweeps add
  positive definite terms.
  Theorems: `C102_fe`.
  Over an arbitrary real field; rounding is not modelled. spsolve is assumed to
  accept the empty system (see C101); a single firm is excluded for the V-cycle.
- **C103** FEControlEstimator: preconditioners for conjugate gradients (partial)
  Cauchy-Schwarz over the non-zero columns of a row gives the safe omega; two
  sweeps are 2G - GAG, congruent to 2D - omega A, which gives the exact
  condition and the witness.
  Theorems: `C103_jacobi`, `C103_small_omega`, `C103_when`,
  `C103_default_refuted`.
  REFUTED for the V-cycle (C103_default_refuted): six rows with one categorical
  control and no collinear columns, for which the default V-cycle is not
  positive definite. C103_when says exactly when it is, with two sweeps in all;
  C103_small_omega: it is if omega < 2 / (2 + number of control columns), so the
  default 0.8 is safe only without controls. C103_jacobi: Jacobi always is.
- **C104** SimDynamicBLM: order of the simulated parameters (partial)
  The sorting of all periods is that of SimBLM applied to each period with the
  order of period '12' (SimParamLemmas); dictionaries of arrays keep names, so
  that relabelled and zeroed arrays are followed through _gen_params.
  Theorems: `C104_order`, `C104_monotone`, `C104_sds`, `C104_additive`,
  `C104_other_periods_refuted`.
  REFUTED for the other periods (C104_other_periods_refuted): firm types are
  ordered by period '12' only, and with strictly_monotone_a the effects '2mb'
  and '3mb' are left as drawn. The rest is proved for all draws. Ties are not
  excluded, so 'increasing' is not strict.
- **C105** SimDynamicBLM: stationarity options (partial)
  Dictionaries over periods map keys to names of arrays: aliasing is a shared
  name, [:] = 0 changes the array behind the name. A two-dimensional array under
  '2mb' stops the sum of the first mover.
  Theorems: `C105_refuted`, `C105_interacted_refuted`,
  `C105_continuous_refuted`, `C105_categorical`, `C105_categorical_refuted`,
  `C105_continuous`, `C105_variation`.
  REFUTED: with any stationarity option of the model and at least one mover the
  simulation raises, whatever is drawn (C105_refuted), as it does for interacted
  categorical controls (C105_interacted_refuted) and, with endogeneity or state
  dependence, for interacted continuous controls unless the number of movers
  happens to equal nl (C105_continuous_refuted); a stationary categorical
  control is zero in all periods if endogeneity or state dependence is off
  (C105_categorical_refuted, the arrays are shared). The option works for
  continuous controls, and for categorical ones if both are on (C105_continuous,
  C105_categorical, C105_variation).
- **C106** SimDynamicBLM: workers, firms and types of the simulated data (partial)
  The rows are those of SimBLM's model with four periods; each statement is
  carried over along the row-by-row correspondence.
  Theorems: `C106_counts`, `C106_ids`, `C106_firms`, `C106_first_firm`,
  `C106_worker_types`, `C106_second_firm`, `C106_second_firm_refuted`.
  REFUTED for the second firms (C106_second_firm_refuted), as in C46: they are
  assigned in order of the second type to rows in order of the first. Everything
  else is proved. Types and firms are drawn by the same code as in SimBLM and
  share its model.
- **C107** SimDynamicBLM: wages follow the dynamic model with the returned parameters (proved)
  Inversion of a run into row sums, then the identity between the generated
  wages and the model's wages (DBootLemmas).
  Theorems: `C107_movers`, `C107_stayers`.
  mover_shocks and stayer_shocks (DBootSpec) use the means and variances of the
  likelihood. For stayers the standard deviations '2s' are taken to be
  nonnegative, as the parameters' bounds make them.
- **C108** SimDynamicBLM: control variables in the wages (partial)
  The loops over control variables are sums over the list of controls
  (induction); x^2 < x for 0 < x < 1 makes the variances differ strictly.
  Theorems: `C108_recorded`, `C108_movers`, `C108_stayers`,
  `C108_variance_refuted`.
  REFUTED for the variances (C108_variance_refuted): standard deviations are
  added to squared ones without being squared, so for the default range 0.3 to
  0.5 no row has the right wage. The means are proved (C108_movers,
  C108_stayers), with the variance the code uses.
- **C109** SimBLM: control variables of the simulated data (proved)
  The loops over columns are sums over the list of columns (induction); the run
  is that of SimModel with the control variables added row by row.
  Theorems: `C109_rows`.
  The control variables are added to the run without them (C109_rows), to which
  C46 and C84 apply; 'adds' uses the mean and variance of the likelihood (mu1,
  var1, ...).
- **C11** LinearAdditive constrains exactly linear and additive effects (proved)
  As C10.
  Theorems: `C11_linear_additive`, `C11_one_worker_type`.
- **C110** SimBLM: options of control variables (partial)
  Inversion of _gen_params column by column; the broadcast of line 398 is the
  one of line 442 (C47).
  Theorems: `C110_shapes`, `C110_categorical`, `C110_variation_partial`,
  `C110_continuous`, `C110_interacted_refuted`, `C110_square`,
  `C110_square_refuted`.
  REFUTED for stationary_firm_type_variation of a categorical variable that
  interacts with worker type: the means by worker type are lined up with the
  categories, so the simulation raises ValueError for different numbers of both
  (C110_interacted_refuted) and for equal numbers changes the variation
  (C110_square, C110_square_refuted). Proved without interaction or for one
  worker type (C110_variation_partial), for continuous variables
  (C110_continuous) and for the other options (C110_categorical).
- **C111** Dynamic bootstrap and variance decomposition with control variables (partial)
  Model of the columns and dictionary entries that are read; the first read of
  the first control variable raises for any frame whose columns have names.
  Theorems: `C111_no_controls`, `C111_refuted`, `C111_key_error_refuted`.
  REFUTED (C111_refuted): the column of a control variable is looked up under
  the number of the period, 0 or 1, which is no label of the data, so every
  simulation with at least one control variable raises; KeyError if everything
  else is in order (C111_key_error_refuted). Every round of the bootstrap and
  the decomposition begins with this call (4212, 4488). Without control
  variables C92 applies (C111_no_controls).
- **C112** Monte Carlo results belong together (partial)
  Simulation, cleaning and estimators are parameters threading the state of the
  generator. Induction over the simulations and over the loop that copies the
  results into arrays.
  Theorems: `C112_keys`, `C112_single`, `C112_parallel`, `C112_cores`,
  `C112_extends`, `C112_returns`, `C112_refuted`.
  REFUTED in one point (C112_refuted): the true values are computed from all
  simulated observations before cleaning, the estimates from the observations
  left after cleaning, so even an estimator without error differs from the truth
  if cleaning drops anything. Everything else is proved: keys and lengths,
  alignment for one core (with the generator passed on from simulation to
  simulation) and several cores, prefix, independence of the number of cores,
  and that nothing raises if the parts return.
- **C113** Monte Carlo histograms show the error of each simulation (proved)
  The extremes are folds of min and max; case analysis on the sign for the
  scaling.
  Theorems: `C113_plots`.
  For at least one simulation and one estimator plotted. np.sort and drawing are
  not modelled (they do not change which values are plotted).
- **C114** The results of the fixed-effects estimators are complete and consistently named (partial)
  The assignments are a list of writes; every write is one of the reported
  entries (or repeats a reserved one), and reported entries are a function of
  the key because every key ends in three characters that determine its kind.
  Invariant for the summary.
  Theorems: `C114_results`, `C114_eps_refuted`, `C114_output_refuted`.
  REFUTED in two points: a control variable named eps takes the key var(eps)_fe
  of the residual variance (C114_eps_refuted), and with an output file all
  results are replaced by text (C114_output_refuted). C114_results proves the
  rest for all names other than var(eps).
- **C115** Every combination of options of FEEstimator.fit can be served (partial)
  Attributes present or absent as a boolean store; case analysis over the
  options with an arbitrary initial store.
  Theorems: `C115_completes`, `C115_levfile_refuted`, `C115_empty_refuted`,
  `C115_left_refuted`.
  REFUTED in three points: given leverages (levfile) with exact_trace_he raise
  AttributeError (C115_levfile_refuted); an empty list Q_var or Q_cov, which the
  type check of the parameter admits if it only looks at the members, with an
  approximate trace raises UnboundLocalError (C115_empty_refuted). With he and
  statsonly or feonly the square-root matrices are left on the object
  (C115_left_refuted). C115_completes proves all other combinations, for every
  state of the object. The numerical work of each step is taken to succeed.
- **C116** Event study plots show each transition once (partial)
  Rows with lists of earnings and classes; the selection of rows is compared
  with an inductive definition, the moments with their defining equations.
  Theorems: `C116_subplots`, `C116_once`, `C116_periods_refuted`,
  `C116_unclustered_refuted`.
  REFUTED in two points: with periods_pre different from periods_post the
  function raises ValueError (C116_periods_refuted), and for data that are not
  clustered, or have one class, it raises (C116_unclustered_refuted).
  C116_subplots and C116_once prove the rest. What plt.subplots, errorbar and
  enumerate refuse is taken from the documentation of matplotlib.
- **C117** Standard bootstrap of the BLM models: samples keep firms and classes together (partial)
  Drawing, cleaning with clustering, and estimation are parameters threading the
  generator; induction over the samples.
  Theorems: `C117_samples`, `C117_returns`, `C117_renumbered_refuted`.
  C117_samples and C117_returns hold for a clustering that keeps the firms'
  numbers. REFUTED if the cleaning that precedes it numbers the firms of the
  sample anew without gaps, as bipartitepandas documents for clean
  (C117_renumbered_refuted): classes are looked up under the old numbers and
  movers at firms with high numbers get none. bipartitepandas is not part of the
  repository, so which case applies is not settled here.
- **C118** Bootstrap plots of log earnings show mean and percentiles of comparable types (partial)
  np.percentile by sorting and interpolation; the model of _sort_parameters of
  C37 and C86; uniqueness of a sorted permutation; a mean is a combination of
  order statistics.
  Theorems: `C118_shown`, `C118_shown_dynamic`, `C118_drawn_partial`,
  `C118_drawn_refuted`, `C118_labels`, `C118_labels_dynamic`.
  What is drawn is right for every number of models (C118_shown,
  C118_shown_dynamic) and independent of names if no two types tie (C118_labels,
  C118_labels_dynamic). It can be drawn for up to 40 samples
  (C118_drawn_partial); for every larger number REFUTED by models with one
  outlier: the mean lies above the 97.5 percentile and plt.errorbar raises
  ValueError for the negative length (C118_drawn_refuted).
- **C119** The plot of likelihoods and connectedness shows each estimated model once (partial)
  On the model of the selection of C41; deletion of the star from the list of
  triangles as a permutation.
  Theorems: `C119_points`, `C119_zeros_refuted`.
  Holds if every model has a connectedness measure (C119_points). REFUTED
  otherwise: for each model without the measure the plot has a point at (0, 0)
  that belongs to no model (C119_zeros_refuted). Jitter is not modelled.
- **C12** Monotonic constrains exactly monotone worker effects (proved)
  As C10.
  Theorems: `C12_monotonic`.
- **C120** Switching off the update of a parameter keeps it (partial)
  Induction over the EM loop of the model of C64 (a relation saying which fields
  are equal), composed with the two sorts; case analysis of the phases of C40
  for the estimator.
  Theorems: `C120_kept`, `C120_s_alone_refuted`, `C120_estimator_refuted`.
  Every fit_movers that returns keeps what is switched off (C120_kept). REFUTED:
  update_s=False with update_a=True never returns, since the statement del XwX,
  weights1, weights2 names variables that are only set when S is updated
  (C120_s_alone_refuted); and fit_movers_cstr_uncstr, used by BLMEstimator,
  overwrites all three options, so they have no effect there
  (C120_estimator_refuted).
- **C121** The stored numbers of movers and stayers belong to their firm types (partial)
  pandas' value_counts, sort_index and unstack as lists over the values that
  occur; position of a value among those that occur; numpy's broadcasting.
  Theorems: `C121_stayers_partial`, `C121_movers_partial`,
  `C121_stayers_refuted`, `C121_movers_refuted`, `C121_columns_refuted`,
  `C121_totals`, `C121_used_partial`, `C121_used_refuted`,
  `C121_one_type_refuted`, `C121_connected_partial`,
  `C121_connected_refuted`, `C121_connected_joined_refuted`.
  Holds if every firm type occurs (C121_stayers_partial, C121_movers_partial,
  C121_used_partial). REFUTED otherwise: a type that does not occur is left out
  of the arrays, all higher types move down (C121_stayers_refuted,
  C121_movers_refuted); the plot then raises (C121_used_refuted) or, if one type
  has stayers, gives each firm type all of them (C121_one_type_refuted).
  fit_stayers does return on such data (C39). C121_columns_refuted is the same
  for types that no mover joins; C121_totals: no worker is lost or counted
  twice, for all data.
  Connectedness, computed at the end of fit_movers_cstr_uncstr, uses the right
  counts if every type is left and joined (C121_connected_partial); REFUTED
  otherwise: it raises ValueError if two other types are left or joined
  (C121_connected_refuted, C121_connected_joined_refuted).
- **C122** The bootstrap plot of type proportions shows mean shares of comparable types (partial)
  The proportions are shown to be compatible with renaming of types (reindexing
  of sums); with uniqueness of ranks (C118) the plot is a mean over models in
  terms of ranks.
  Theorems: `C122_stacked`, `C122_stayers`, `C122_movers_partial`,
  `C122_periods_refuted`, `C122_all_partial`, `C122_all_periods_refuted`,
  `C122_labels`.
  Stacking (C122_stacked), stayers (C122_stayers) and independence of names
  (C122_labels) hold for all subsets and periods. For movers and for all workers
  the average of the two periods is right if counts are symmetric
  (C122_movers_partial, C122_all_partial); REFUTED for single periods: the plots
  of the first and second period are exchanged (C122_periods_refuted,
  C122_all_periods_refuted); for other counts the pairing of counts and
  proportions is wrong (C43).
- **C123** Counts of movers and stayers are available exactly after fits that compute them (partial)
  The calls are a transition system; an invariant over histories, by induction
  on the list of calls, gives the counts, and the other theorems follow by
  cases.
  Theorems: `C123_counts`, `C123_static`, `C123_dynamic_partial`,
  `C123_dynamic_refuted`, `C123_connected_partial`, `C123_missing`,
  `C123_no_counts_refuted`, `C123_old_counts_refuted`.
  Counts (C123_counts), plots of static models (C123_static), and of dynamic
  models except for stayers without counts of movers or the reverse
  (C123_dynamic_partial) hold. REFUTED for dynamic models and stayers: the code
  checks NNm instead of NNs (C123_dynamic_refuted). REFUTED for
  fit_movers_cstr_uncstr with compute_NNm=False: it raises AttributeError or
  uses the counts of earlier data (C123_no_counts_refuted,
  C123_old_counts_refuted; with compute_NNm=True C123_connected_partial; with
  missing values in pk1 C123_missing). The estimation and eigenvalues are left
  out.
- **C13** MonotonicMean constrains exactly the means over firm types (proved)
  As C10.
  Theorems: `C13_monotonic_mean`.
- **C14** MinFirmType constrains exactly the chosen firm type to be extreme (proved)
  As C10.
  Theorems: `C14_min_firm_type`.
  min_firm_type is a valid non-negative index.
- **C15** NoWorkerTypeInteraction constrains exactly worker-independent effects (proved)
  As C10.
  Theorems: `C15_no_worker_type_interaction`.
- **C16** NormalizeLowest and NormalizeAll pin exactly the reference effects (proved)
  As C10.
  Theorems: `C16_normalize_lowest`, `C16_normalize_all`.
  min_firm_type is a valid non-negative index.
- **C17** Stationary constrains worker-firm effects to be equal in all periods (partial)
  As C10; refuted for a number of worker types nwt >= 1.
  Theorems: `C17_stationary_partial`, `C17_stationary_exact`,
  `C17_one_type_coprime`, `C17_one_type_refuted`, `C17_two_types_refuted`.
  REFUTED for nwt >= 1 below nl: the stride is nl*k + l instead of l*nk + k.
  C17_stationary_partial proves the claim for nwt=-1 or nwt>=nl;
  C17_stationary_exact gives the exact meaning for every nwt;
  C17_one_type_coprime/C17_one_type_refuted decide nwt=1 with
  NoWorkerTypeInteraction for all sizes; C17_two_types_refuted is the Linear
  case.
- **C18** StationaryFirmTypeVariation constrains exactly the firm variation (proved)
  As C10.
  Theorems: `C18_stationary_firm_type_variation`.
- **C19** BoundedBelow and BoundedAbove bound every effect (proved)
  As C10.
  Theorems: `C19_bounded_below`, `C19_bounded_above`.
- **C20** Padding adds unconstrained parameters (partial)
  `pad`; refuted for objects without constraints of one kind.
  Theorems: `C20_pad_partial`, `C20_pad_refuted`.
  REFUTED for objects without constraints of one kind; C20_pad_partial proves it
  when both kinds are present or nothing is padded.
- **C21** The two-way fixed effects solution solves the weighted least squares problem (proved)
  mathcomp model of `_prep_matrices`, `_mult_AAinv`, `_solve`; Schur complement
  algebra; completing the square for the minimum.
  Theorems: `C21_normal_equations`, `C21_minimises`, `C21_unique`,
  `C21_worker_equations_any_solver`.
  The inner linear solver is a parameter with the contract exact_solver (it
  solves the system it is given); C21_worker_equations_any_solver needs no
  contract.
- **C22** Noise-free wages are recovered exactly up to the normalisation (proved)
  Corollary of C21 with a connectedness hypothesis on the data; non-singularity
  from connectedness by propagation along observations.
  Theorems: `C22_recovery`, `C22_nonsingular`.
- **C23** The explicit inverse blocks form the inverse of the normal matrix (partial)
  Block inverse by Schur complements; the fourth block characterised exactly.
  Theorems: `C23_inverse_blocks_partial`, `C23_inverse_blocks_refuted`.
  REFUTED for the worker-worker block: line 1280 adds a vector to every row
  instead of a diagonal. C23_inverse_blocks_partial proves the other three
  blocks; C23_inverse_blocks_refuted characterises exactly when the fourth is
  right.
- **C24** Exact leverages are the diagonal of the hat matrix (proved)
  `_compute_Pii` from the blocks that are right; diagonal of the hat matrix,
  range by the projection property, sum by the trace.
  Theorems: `C24_exact_leverage`, `C24_range`, `C24_sum`, `C24_reported`,
  `C24_refused`.
  np.sqrt is a parameter with the contract root_ok on the weights of the data;
  exact inner solver.
- **C25** The homoskedastic residual variance estimate is unbiased (proved)
  Expectation over an arbitrary finite probability space; trace of the residual
  projection.
  Theorems: `C25_sigma_unbiased`, `C25_sigma_unweighted`.
  Expectation over an arbitrary finite probability space with uncorrelated
  mean-zero errors.
- **C26** The homoskedastic correction removes the bias of the plug-in component (partial)
  Expectation of quadratic forms; each Q option with its exact or approximate
  trace.
  Theorems: `C26_var_psi`, `C26_cov`, `C26_var_alpha_refuted`,
  `C26_approximate_partial`, `C26_custom_forms`.
  REFUTED for the exact trace of var(alpha): bias s2 (nw-1)/sum w,
  C26_var_alpha_refuted. Unbiasedness proved for var(psi), cov(psi, alpha),
  every custom form and every approximate trace in expectation
  (C26_approximate_partial).
- **C27** The heteroskedastic correction is unbiased under independent errors (partial)
  Expectation of the leave-out variances and corrected components for arbitrary
  error variances; exact bias formulas; a five-row counterexample.
  Theorems: `C27_sii_homoskedastic_partial`,
  `C27_corrected_homoskedastic_partial`, `C27_corrected_partial`,
  `C27_sii_exact`, `C27_corrected_exact`, `C27_exact_trace`,
  `C27_exact_trace_weighted_refuted`, `C27_sii_refuted`,
  `C27_corrected_refuted`.
  REFUTED under heteroskedasticity: the leave-out variances centre by the sample
  mean, bias 12/875 on a five-row data set; exact HE traces use the weight once
  instead of twice. Proved: exact bias formulas for every data set
  (C27_sii_exact, C27_corrected_exact), unbiasedness for equal error variances
  and for any errors when the correction is given the true variances.
- **C28** The stochastic trace estimator has the exact trace as its mean (proved)
  Average over all functions to {-1, 1}; Hutch++ for any matrix with orthonormal
  columns.
  Theorems: `C28_ho_trace`, `C28_he_trace`, `C28_sigma_trace`, `C28_hutchpp`,
  `C28_exact_sigma`, `C28_exact_psi`, `C28_exact_cov`, `C28_form_exists`.
  Average over all sign vectors; Hutch++ for any matrix Q with orthonormal
  columns.
- **C29** Each Q option computes the component it is named after (proved)
  Quadratic forms computed by `_estimate_fe` from the Q options, equal to
  weighted variances and covariances.
  Theorems: `C29_variances`, `C29_covariance`, `C29_shift`, `C29_shift_cov`.
- **C30** Reported components add up (proved)
  Linearity of the forms of C29.
  Theorems: `C30_plug_in`, `C30_corrected_ho`, `C30_corrected_he`.
  Plug-in and corrected components given the same traces; the code's exact
  traces do not implement VarPsiPlusAlpha (NotImplementedError).
- **C31** Averaging leverage batches equals one long run (proved)
  Mean of batch means; exact value for batches of different size.
  Theorems: `C31_batches`, `C31_uneven`.
- **C32** Controls estimator: coefficients go to the right covariate (proved)
  List model of the column layout; coefficient attached to each name and
  category.
  Theorems: `C32_layout`, `C32_columns`, `C32_width`, `C32_attached`,
  `C32_fitted`, `C32_refused`.
- **C33** Clustered standard errors group exactly the observations that share a cluster (partial)
  Cluster matrix from the design columns; exact set of pairs that count.
  Theorems: `C33_partial`, `C33_names_partial`, `C33_full_partial`,
  `C33_zero_refuted`, `C33_refuted`.
  REFUTED as stated: rows that share the normalised firm or category 0 get no
  cross term, and no own term, when every clustering column has them in category
  0 (C33_refuted, C33_zero_refuted). C33_partial gives the exact set of pairs
  the code counts; C33_full_partial proves the full statement when no row is in
  a normalised category (e.g. clustering by worker).
- **C34** A component between covariates is computed from aligned columns (proved)
  `VarCovariate`, `CovCovariate` as quadratic forms on the layout of C32.
  Theorems: `C34_effect`, `C34_duplicates`, `C34_unknown`, `C34_var`, `C34_cov`,
  `C34_symmetric`.
- **C35** Attrition draws are nested (partial)
  Attrition sets as lists with oracles for the random choice and the cleaning;
  induction along the shares.
  Theorems: `C35_increasing_nested`, `C35_increasing_size`,
  `C35_increasing_firms`, `C35_increasing_min`, `C35_increasing_count`,
  `C35_round`, `C35_connected`, `C35_decreasing_nested`, `C35_decreasing_total`,
  `C35_decreasing_step`, `C35_decreasing_count`, `C35_decreasing_used_refuted`.
  Nestedness and mover counts are proved for all draws, for increasing attrition
  for every cleaning that keeps a set of firms and workers with all observations
  between them and leaves out no mover of the kept firms (proved of the largest
  connected set). REFUTED for decreasing attrition when read as the observations
  used after cleaning: the largest connected set may switch to another component
  (C35_decreasing_used_refuted).
- **C36** Attrition output is ordered by share and independent of the number of cores (proved)
  Jobs as lists; results in the order of the arguments for any number of cores.
  Theorems: `C36_order`, `C36_cores`.
- **C37** Sorting BLM types only relabels them (proved)
  Index model of `_sort_parameters`; the likelihood the code computes is
  invariant under the renaming.
  Theorems: `C37_sort_relabels`, `C37_likelihood_unchanged`.
  np.argsort is a parameter with the contract is_argsort. All arguments of
  _sort_parameters given.
- **C38** BLM normalisation changes no predicted wage (proved)
  All branches of `_normalize`.
  Theorems: `C38_normalise`.
  The shared-array effect of the shallow dictionary copy on the caller is
  outside the model.
- **C39** BLM type probabilities remain probabilities (partial)
  Update of pk1 and pk0 from posteriors, loop invariants; 0/0 as an explicit
  error.
  Theorems: `C39_pk1_rows`, `C39_pk1_missing_pair`, `C39_stayers_partial`,
  `C39_stayers_missing_last`, `C39_stayers_refuted`.
  Proved for pk1 (any posteriors, any pair unobserved raises ValueError) and for
  the rows of pk0 with stayers through the whole loop. REFUTED for pk0: a firm
  type without stayers other than the last gets a nan row silently.
- **C40** The EM updates of the stayer proportions never lower the likelihood (proved)
  EM monotonicity by ln x <= x - 1 for the stayers' loop.
  Theorems: `C40_stayers_monotone`.
  Equal weights and d_prior = 1 as in the statement; every firm type has stayers
  (otherwise the recorded likelihood is nan, see C39). np.log(0) = -inf is
  outside the model: starting proportions are positive.
- **C41** Best-of-many selection in BLM (proved)
  Stable descending sort and selection on lists of fitted models.
  Theorems: `C41_selection`, `C41_force_min`, `C41_force_min_error`.
  Selection for all lists of models, with ties, missing measures and the error
  cases; force_min_firm_type for any number of firm types. The estimated models
  are arbitrary values.
- **C42** Estimation phases leave the user parameters as they were (partial)
  Parameter dictionary as state, inner fits as oracles that may fail.
  Theorems: `C42_restored_partial`, `C42_phases`, `C42_parts`,
  `C42_failure_refuted`, `C42_fit_A_refuted`.
  Normal end proved for arbitrary inner methods, phases proved. REFUTED on
  exceptions: the parameters of the failing call remain; every fit_A call that
  iterates raises (weights1 unbound) and leaves update_s, update_pk1 off.
- **C43** Type-pair proportions and mover counts are paired consistently (partial)
  Counts, row-major reshape and products of counts and proportions.
  Theorems: `C43_counts`, `C43_pairing`, `C43_graph_partial`,
  `C43_graph_refuted`, `C43_shares_refuted`, `C43_shares_all_refuted`,
  `C43_draws`.
  REFUTED: NNm[a, b] multiplies the pk1 row of the pair (b, a). Graph proved for
  symmetric counts; the period shares are exchanged even then.
- **C44** The lower bound on standard deviations holds (partial)
  Whole fits: each S is the square root of a solution bounded below.
  Theorems: `C44_bound_partial`, `C44_variance`, `C44_refuted`.
  REFUTED for bounds above 1: the bound is put on the variances, so a fit with
  s_lower_bound = 4 returns standard deviations of 2. Proved for bounds in (0,
  1] over whole fits (any data, any valid constraints), and for every bound as a
  bound on the variances. Models without control variables.
- **C45** Reallocated type proportions are a distribution common to all firms (partial)
  Reallocation algebra over counts and proportions.
  Theorems: `C45_distribution_partial`, `C45_refuted`, `C45_shares`,
  `C45_shares_apart`, `C45_plotted`, `C45_plotted_stayers`.
  Distribution proved for reallocate_jointly=True (all periods) and for period
  'first'; REFUTED for reallocate_jointly=False with 'second' or 'all'
  (pk0_period2 unbound).
- **C46** SimBLM produces the requested counts and consistent firm types (partial)
  Positional model of the simulated tables for arbitrary draws.
  Theorems: `C46_counts`, `C46_ids`, `C46_firms`, `C46_two_firms`,
  `C46_first_firm`, `C46_second_order`, `C46_second_firm`,
  `C46_firm_types_refuted`.
  Counts, ids, contiguous firms with one type each, movers move, first firms of
  the row's type: proved for all counts and draws. REFUTED for the second firm:
  draws for movers' second firms are laid out by increasing second type while
  rows are ordered by first type, so with two or more firm types some mover's
  second firm is of another type (C46_firm_types_refuted, for all draws);
  C46_second_firm says exactly when it is right. Without control variables; an
  endless redraw loop is OutOfFuel.
- **C47** Simulated stationary firm-type variation (partial)
  numpy broadcasting of the row means.
  Theorems: `C47_one_worker_type`, `C47_square`, `C47_refuted`.
  Proved with one worker type. REFUTED otherwise: np.mean(A, axis=1) is lined up
  with the firm types, so nl != nk is refused with ValueError for all draws, and
  nl = nk gives other variation (C47_square says exactly when it is right).
- **C48** Borovickova-Shimer pair products average out own observations (partial)
  Pair-product identity on groups of rows.
  Theorems: `C48_unweighted`, `C48_weighted_partial`, `C48_returns_refused`.
  Proved without weights for both estimators and all results, and with weights
  for the standard estimator except var(y). Not true of the alternative
  estimator with weights, see C74.
- **C49** Incomplete Cholesky factor reproduces the matrix on its pattern (partial)
  Array-by-array model of the incomplete Cholesky loop with invariants for the
  linked lists; every access checked.
  Theorems: `C49_safe`, `C49_factor`, `C49_first`, `C49_refused`, `C49_apply`,
  `C49_preconditioner`, `C49_exact`, `C49_unstored_refuted`.
  Proved for matrices in canonical format whose diagonal elements are stored,
  with the thresholds, both treatments of the diagonal, the shifts and the
  arrays reused between them; also that no array access leaves its bounds, and
  exactness without thresholds. REFUTED where a diagonal element is not stored:
  t[j] stays 0 and the elements of earlier columns are read into column j
  (C49_unstored_refuted).
- **C50** Sorkin values solve the flow equations (partial)
  Fixed-point iteration with fuel max_iters; solutions of the flow equations;
  uniqueness on strongly connected flows.
  Theorems: `C50_flow_partial`, `C50_exact`, `C50_normalised`, `C50_unique`,
  `C50_refuted`, `C50_no_iterations`, `C50_only_joined`, `C50_only_left`,
  `C50_never_joined`, `C50_alignment`, `C50_alignment_refuted`.
  If the iteration stops, the returned values solve the flow equations up to the
  tolerance (C50_flow_partial), fixed points are exactly solutions, normalised
  and unique. REFUTED in general: on two firms the iteration can oscillate for
  ever and the values returned after max_iters do not solve the equations
  (C50_refuted); max_iters = 0 fails; firms that are only joined or only left
  raise IndexError / ValueError; the reported correlation pairs firm values with
  firm effects of other firms (C50_alignment_refuted).
- **C51** Command line booleans and parameter dictionaries (partial)
  Strings and association lists; dictionaries of main.
  Theorems: `C51_true`, `C51_false`, `C51_refused`, `C51_clear`,
  `C51_clear_order`, `C51_fe_options_partial`, `C51_cre_options_partial`,
  `C51_integers_refuted`.
  str2bool and clear_dict are proved in full. The use made of them is modelled
  too: options that are accepted reach the estimator unchanged and the rest are
  defaults, but every integer option is passed on as text and refused
  (C51_integers_refuted), as are --ndp and --wo_btw. ParamsDict is an outside
  package and is modelled by the declarations it is given.
- **C52** Dynamic BLM: stayers' variance equations are the covariances of the model (partial)
  Moment vector, design matrix and weights of `_var_stayers` entry by entry; the
  covariances of the model derived from independent shocks.
  Theorems: `C52_moments`, `C52_equations_partial`, `C52_equations_refuted`,
  `C52_true_rho_refuted`, `C52_no_persistence_partial`, `C52_minimises`,
  `C52_weights_partial`, `C52_weights_refuted`, `C52_differences_refuted`,
  `C52_differences_zero`, `C52_differences_moments`.
  REFUTED: three of the ten equations per group are wrong (the coefficient meant
  for cov(y3, y4) overwrites the one for var(y1), and var(y4) has a sum for a
  product), so the true rhos never fit exactly (C52_equations_refuted,
  C52_true_rho_refuted); the default weights are repeated in the wrong order
  (C52_weights_refuted); the version in differences works for eight firm types
  only and then fixes two variances at zero (C52_differences_refuted,
  C52_differences_zero). Proved: the moments, the other seven equations,
  optimality of the fit, exact recovery without persistence.
- **C53** Interacted BLM fixed-point intercepts solve weighted least squares (proved)
  Schur algebra as in C21 with slopes in the worker columns.
  Theorems: `C53_normal_equations`, `C53_least_squares`, `C53_noise_free`.
- **C54** check_feasible checks the constraints on the parameters they constrain (partial)
  Dimensions of the QP built by `check_feasible`.
  Theorems: `C54_check_feasible_partial`, `C54_check_feasible_refuted`.
  REFUTED for two or more periods: P is nl*nk by nl*nk while constraints have
  nt*nl*nk columns. C54_check_feasible_partial proves it for one period.
- **C55** Covariance of consecutive firm effects pairs consecutive observations of one worker (proved)
  `CovPsiPrevPsiNext` on sorted rows.
  Theorems: `C55_pairs`, `C55_value`, `C55_unbiased`.
- **C56** Approximate leverages are unbiased and stay in [0, 1] (proved)
  Expectation of the drawn leverages; clipping.
  Theorems: `C56_draws`, `C56_reported`.
- **C57** Controls: the coefficients are weighted least squares (proved)
  Normal equations of the stacked design; completing the square.
  Theorems: `C57_minimises`, `C57_orthogonal`, `C57_residuals`, `C57_unique`,
  `C57_recovers`, `C57_no_controls`.
- **C58** Controls: bias corrections are unbiased (partial)
  Expectations as in C25 to C27 with the rank of the design.
  Theorems: `C58_sigma`, `C58_sigma_trace`, `C58_sigma_draws`,
  `C58_collinear_refuted`, `C58_ho`, `C58_he`, `C58_leverage`, `C58_sii`,
  `C58_sii_partial`, `C58_sii_refuted`.
  Proved for data without collinear columns. REFUTED otherwise: with collinear
  columns (for example a control that is constant for every worker) the
  unweighted sigma^2 divides by n minus the number of columns instead of the
  rank and is too large on average, and the analytical trace raises LinAlgError
  (C58_collinear_refuted, C58_sigma_trace). REFUTED for the row variances under
  heteroskedastic errors: wages are centred by a mean that contains the row
  (C58_sii gives the mean, C58_sii_refuted an example); right for variances s2
  over weight (C58_sii_partial).
- **C59** Controls: standard errors (partial)
  Sandwich formula against the covariance of the estimates.
  Theorems: `C59_standard`, `C59_unit_weights`, `C59_scale_refuted`,
  `C59_negative_refuted`.
  Proved: unit weights. REFUTED: weights times c divide the squared standard
  errors by c^2 while the estimates stay (C59_scale_refuted); without weights
  the squared standard error is on average (n - k)/n of the squared error, no
  degrees of freedom are deducted (C59_standard); with the default clusters the
  number under the root can be negative, as pairs of rows in the normalised firm
  do not count (C59_negative_refuted).
- **C60** Drawing attrition subsets leaves the caller's cleaning parameters unchanged (partial)
  State of the cleaning parameters as a dictionary.
  Theorems: `C60_partial`, `C60_refuted`.
  REFUTED on exceptions: drop_single_stayers stays off (C60_refuted). Proved
  when subsets are returned.
- **C61** Combined attrition tables put every result at its simulation and share (partial)
  Nested loops filling tables; every cell by induction.
  Theorems: `C61_tables`, `C61_estimators`, `C61_axis`, `C61_succeeds`,
  `C61_decreasing_refuted`.
  Proved whenever the function returns. REFUTED for decreasing attrition:
  np.flip of the dictionary of tables always raises (C61_decreasing_refuted).
- **C62** The movers-per-firm line lies where the subset reaches the full sample (partial)
  Search for the first share and interpolation.
  Theorems: `C62_partial`, `C62_lines`, `C62_refuted`.
  Proved when movers per firm do not go down along the shares. REFUTED
  otherwise: unbound variable or a position outside the neighbouring shares
  (C62_refuted).
- **C63** The BLM E-step computes the mixture likelihood and the Bayes posteriors (proved)
  The E-step entry by entry: log densities with categorical and continuous
  controls, mixture, posteriors.
  Theorems: `C63_likelihood`, `C63_posteriors`.
  Real arithmetic; positive standard deviations and proportions.
- **C64** The movers' likelihood does not fall during a fit (proved)
  EM argument for the movers' loop: M-step as exact minimisation (contract of
  the QP solver), Jensen, induction over iterations.
  Theorems: `C64_movers_monotone`, `C64_penalised`, `C64_prior_refuted`,
  `C64_weights_refuted`.
  Models without control variables. Also: for d_prior above 1 the penalised
  likelihood does not fall; REFUTED without the hypotheses: the recorded values
  fall for d_prior above 1 (the first value has no prior term) and for unequal
  weights (pk1 is updated with weights the likelihood does not use).
- **C65** With controls, the generated constraints pin the worker-firm effects down and rule nothing out (partial)
  `_gen_constraints` with control variables as lists of constraint objects;
  meaning from C10 to C19; shifts between effects and controls for
  identification.
  Theorems: `C65_meaning`, `C65_identified`, `C65_attainable`,
  `C65_order_refuted`, `C65_normalize_false_refuted`.
  Proved: the exact meaning of all generated constraints (C65_meaning),
  uniqueness of the effects when normalize=True and a constrained column is
  reached (C65_identified, Stationary objects for all worker types), and that
  the normalisation excludes no model when the user adds only Stationary
  (C65_attainable). REFUTED: the scan of the columns breaks at the first
  time-varying interacting column, so an unconstrained one that comes first by
  name switches all normalisation off (C65_order_refuted); normalize=False still
  normalises the stored estimates and can break the user's constraints
  (C65_normalize_false_refuted).
- **C66** The bootstrap and the variance decomposition give the caller's data back unchanged (partial)
  Frames as lists of rows, the fits as state transformers; induction over
  samples.
  Theorems: `C66_bootstrap`, `C66_decomposition`, `C66_bootstrap_error_refuted`,
  `C66_decomposition_error_refuted`, `C66_no_samples_refuted`.
  Proved for every fit that returns (C66_bootstrap, C66_decomposition; stayers
  have one firm and one firm type). REFUTED when a sample raises: wages, firm
  types, ids and the added time column stay replaced (C66_*_error_refuted); with
  n_samples=0 the decomposition always raises IndexError and leaves the column
  (C66_no_samples_refuted). The standard bootstrap (resampling of workers) is
  not modelled.
- **C67** CRE cluster effects are least squares and identified exactly when movers link the clusters (proved)
  Least squares on cluster dummies; linked clusters by connectivity of the
  movers' graph.
  Theorems: `C67_minimises`, `C67_unique`, `C67_recovery`, `C67_linked`,
  `C67_net_zero`, `C67_without_between`.
- **C68** CRE leave-out moments leave out what they should and cover everybody (partial)
  Group sums and merges on lists.
  Theorems: `C68_leave_out_leavers`, `C68_leave_out_joiners`, `C68_excludes`,
  `C68_moments_leavers`, `C68_moments_joiners`,
  `C68_moments_stayers_movers_partial`, `C68_moments_stayers_partial`,
  `C68_moments_stayers_refuted`.
  REFUTED for the moments of stayers: inner merges with the tables of leavers
  and of joiners drop every stayer of a firm that nobody leaves or nobody joins,
  even for the moment that involves stayers only (C68_moments_stayers_refuted).
  Proved for leavers and joiners in full, and for stayers over the firms that
  remain.
- **C69** CRE within parameters are the model's variances and covariances (partial)
  Algebra of the moment equations.
  Theorems: `C69_movers_partial`, `C69_stayers_values`, `C69_stayers_refuted`,
  `C69_cov_wt_overstated`, `C69_totals`.
  REFUTED for stayers: cov_AsPsi1 is the sum of two estimates of cov(A, psi) +
  var(psi) minus var(psi) once, that is 2 cov + var(psi); cov_AsAs and the
  reported cov_wt and tot_cov inherit the error (C69_stayers_values,
  C69_stayers_refuted, C69_cov_wt_overstated). The other parameters are proved
  right.
- **C70** CRE posterior variance of firm effects (partial)
  Penalised least squares; expectation of the trace draws.
  Theorems: `C70_mean`, `C70_mean_unique`, `C70_solvable`,
  `C70_expected_partial`, `C70_expected_refuted`, `C70_prior_partial`,
  `C70_prior_stayers`, `C70_prior_refuted`.
  REFUTED twice: the trace term divides by n - 1 where the direct term divides
  by n, so the expected report is not the posterior expectation of the variance
  (C70_expected_partial gives the exact value, C70_expected_refuted a witness),
  and firms seen only with stayers get prior mean 0 instead of their cluster's
  effect (C70_prior_refuted). Proved: the posterior mean is the unique penalised
  least-squares solution.
- **C71** CRE totals are the variance and covariance over the cross section (partial)
  Sums over the stacked cross section.
  Theorems: `C71_exact`, `C71_shares_refuted`.
  REFUTED for the scale: var_y divides by n, tot_var and tot_cov by n - 1
  (C71_shares_refuted). The totals themselves are proved (C71_exact).
- **C72** CRE results do not depend on the wage level (proved)
  Shift of all wages through every step.
  Theorems: `C72_cluster_shift`, `C72_level`.
- **C73** Borovickova-Shimer variances do not depend on the wage level (partial)
  Shift algebra of the pair products.
  Theorems: `C73_shift_partial`, `C73_weighted_refuted`.
  REFUTED with unequal weights: pairs are weighted by the products of square
  roots of weights and units by sums of weights, so the part linear in the shift
  does not cancel (C73_weighted_refuted). Proved without weights.
- **C74** Borovickova-Shimer weights (partial)
  Weights of one, rescaled weights, constant wages.
  Theorems: `C74_unit_weights_partial`, `C74_rescale_partial`,
  `C74_var_y_refuted`, `C74_alternative_refuted`.
  REFUTED twice. var(y) is the weighted variance of weight times wage, positive
  for constant wages (C74_var_y_refuted), and scales with the square of the
  weights (C74_rescale_partial). The alternative estimator with unit weights
  halves the average products of pairs (C74_alternative_refuted, the two factors
  marked FIXME in the code are 2 and 1). Proved for the other results of the
  standard estimator.
- **C75** Borovickova-Shimer leaves the data as they were (proved)
  The frame as state through fit.
  Theorems: `C75_data_unchanged`.
- **C76** Borovickova-Shimer is robust to noise (partial)
  Expectation over a finite probability space.
  Theorems: `C76_uncorrelated_noise_partial`, `C76_repeated_pairs_refuted`.
  REFUTED for the covariance when a worker-firm pair is observed more than once,
  which long data without returns allow: a wage is multiplied with itself
  (C76_repeated_pairs_refuted). Proved for the variances and, with single
  spells, for the covariance; unweighted only.
- **C77** Error variances of stayers (partial)
  Expectation of the stayers' variances.
  Theorems: `C77_firm_mean`, `C77_firm_mean_corrected`,
  `C77_upper_bound_weighted_partial`, `C77_upper_bound_weighted_refuted`.
  Proved for firm means, with and without weights (homoskedastic errors).
  REFUTED for upper bounds with weights: the mean is s2/w times (T - w)/((T - 1)
  w), T the worker's total weight, right only if w = 1
  (C77_upper_bound_weighted_refuted).
- **C78** Leverages from files and from draws (partial)
  Files, moments and first-order bias of the drawn leverages.
  Theorems: `C78_files`, `C78_moments`, `C78_bias`, `C78_factor_partial`,
  `C78_factor_refuted`.
  Proved: files, unbiased moments, the first-order bias c/k. REFUTED for the
  non-linearity factor: it is 1 - (c + delta)/k, the term Bi has the wrong sign
  and twice the cross moment; with three rows of one worker 8/(27k) is removed
  where 5/(9k) is needed (C78_factor_refuted).
- **C79** Leverages are refused exactly outside the leave-one-observation-out set (proved)
  Leverage one iff deleting the row loses rank.
  Theorems: `C79_leave_one_out`, `C79_refused`, `C79_refused_approximate`.
- **C80** Interacted BLM fixed-point slopes (partial)
  Pair matrices of the fixed-point slope estimator on data without noise.
  Theorems: `C80_fixed_point`, `C80_recovered`, `C80_returns_refused`,
  `C80_weights_refuted`, `C80_long_refuted`.
  Proved for collapsed data whose weights are the same for all spells of a
  worker: the true slopes are a fixed point of the matrix used (C80_fixed_point)
  and are returned by the alternative estimator when the pairs link all firms
  (C80_recovered). REFUTED for weights that differ between spells, as collapsing
  produces: default options return 7/8 instead of 1 (C80_weights_refuted).
  REFUTED on the long format: spells of more than one period end in an
  IndexError (C80_long_refuted). Missing: that the fixed vector is unique for
  the other estimator (alternative_estimator=False).
- **C81** Interacted BLM linear estimators recover wages without noise (partial)
  The linear estimators on data without noise: kernels of the design.
  Theorems: `C81_iv`, `C81_linear`, `C81_default_refuted`,
  `C81_worker_ids_refuted`, `C81_refused`, `C81_normalised`,
  `C81_stationary_a_refuted`.
  Proved for methods 'iv' (C81_iv) and 'linear' (C81_linear). REFUTED: the
  default method 'liml_1' inverts a singular matrix on wages without noise
  (C81_default_refuted); stationary_a constrains A/B, not A, so the returned A1
  and A2 differ (C81_stationary_a_refuted); worker_ids with coarse > 0 reads an
  unassigned variable and worker ids of movers that are not numbered from 0 are
  refused (C81_worker_ids_refuted). Missing: methods 'liml_2', 'hful' and
  profiling are not modelled.
- **C82** Interacted BLM returns the mean worker effect of each firm (partial)
  Weighted means by firm and alignment.
  Theorems: `C82_alpha`, `C82_missing_refuted`.
  Proved for method 'iv': entries are the weighted means of the firms that have
  stayers (C82_alpha). REFUTED when a firm has no stayers: its entry is dropped
  and later ones move up, so alpha is not aligned with A and B
  (C82_missing_refuted).
- **C83** Simulated parameters are ordered as documented (partial)
  Sorted draws.
  Theorems: `C83_order`, `C83_monotone`, `C83_additive`,
  `C83_second_period_refuted`.
  Proved for A1, for strictly_monotone_a in both periods, and for additivity.
  REFUTED for A2 by default: firm types are ordered by A1 only, although the
  documentation requires A2 to be increasing on average as well.
- **C84** Simulated wages use the row's own worker type and firm type (proved)
  Positions of simulated worker types and wages.
  Theorems: `C84_worker_types`, `C84_wages`.
- **C85** Bootstrap and decomposition samples are drawn from the estimated model at the observed firm types (partial)
  Values that reach the estimator in each sample, by induction over samples.
  Theorems: `C85_bootstrap`, `C85_decomposition`, `C85_unweighted`,
  `C85_weights_refuted`.
  Proved for every sample of the parametric bootstrap and of the decomposition
  (C85_bootstrap, C85_decomposition, C85_unweighted); the generator is assumed
  to return only types with positive probability and the right number of them.
  REFUTED with weights other than 1: the simulation divides the standard
  deviation by the weight, the likelihood corresponds to division by its square
  root (C85_weights_refuted).
- **C86** Dynamic BLM: sorting types only gives them new names (proved)
  Both orders are permutations (argsort); the mixture is a sum over worker types
  and invariant under the permutation.
  Theorems: `C86_sort`.
  No control variables.
- **C87** Dynamic BLM: likelihood, posteriors and the course of a fit (proved)
  E-step: densities term by term, then the log-sum-exp lemmas of the static
  model; induction over iterations gives a path of the specification
  (mover_path, stayer_path).
  Theorems: `C87_count_movers`, `C87_count_stayers`, `C87_movers`,
  `C87_stayers`, `C87_fit_movers`, `C87_fit_stayers`, `C87_unobserved_movers`,
  `C87_unobserved_stayers`.
  No control variables (with control variables a fit with updates does not
  complete, see DESIGN.md), force_min_firm_type=False, return_qi=False. The QP
  solver is a parameter assumed exact.
- **C88** Dynamic BLM: updated effects solve the constrained weighted least-squares problem (proved)
  The assembled normal equations are the gradient of the weighted sum of
  squares; exactness of the solver carries over.
  Theorems: `C88_movers`, `C88_stayers`.
  No control variables. Each squared difference is divided by the standard
  deviation (that is what the code does, and why C89 fails), stated in sqdev.
- **C89** Dynamic BLM: reported likelihoods do not fall (partial)
  Counterexample with two movers, for any exact and complete solver; the partial
  theorem by the EM inequality along the path.
  Theorems: `C89_falls_refuted`, `C89_partial`.
  REFUTED (C89_falls_refuted): the A-step divides by standard deviations instead
  of variances, so with unequal variances the likelihood can fall even if only
  effects are updated. Proved (C89_partial) without updates of rhos and standard
  deviations, for equal variances if effects are updated, and without prior.
- **C90** Dynamic BLM: updated rho's are least-squares coefficients (proved)
  Closed form of a one-regressor weighted least squares, with the long stack
  rewritten as a double sum.
  Theorems: `C90_movers`, `C90_stayers`.
  No control variables. If every residual regressed on is zero the code divides
  by zero; that case is excluded.
- **C91** Dynamic BLM: updated standard deviations fit the squared residuals (partial)
  The program minimises the fit with -rho for rho^2 (mover_var_fit');
  counterexample with rho12 = 1, and equality when rho^2 = -rho.
  Theorems: `C91_rho_refuted`, `C91_movers_partial`, `C91_stayers_partial`.
  REFUTED (C91_rho_refuted): the regression for variances reuses the design
  matrix of the effects, with -rho in place of rho^2. Proved
  (C91_movers_partial, C91_stayers_partial) when every rho is 0 or -1.
- **C92** Dynamic BLM: bootstrap and decomposition simulate the estimated model (partial)
  Simulated wages satisfy the recursive equations of the likelihood's means and
  variances (and conversely); change of variables of the normal density; values
  that reach the estimator and the regression, by induction over samples.
  Theorems: `C92_mover_wages`, `C92_stayer_wages`, `C92_mover_density`,
  `C92_stayer_density`, `C92_bootstrap`, `C92_decomposition`,
  `C92_firm_types_as_ids_refuted`, `C92_reallocate_refuted`.
  REFUTED for firm_clusters_as_ids (C92_firm_types_as_ids_refuted): only the
  firm ids of the first and the last period are replaced by firm types, so the
  regression mixes firm types and firms; and for reallocate_jointly=False with
  period 'second' or 'all' (C92_reallocate_refuted: UnboundLocalError). The rest
  is proved. No control variables.
- **C93** Dynamic BLM: bootstrap and decomposition give the caller's data back unchanged (partial)
  Invariant over samples: which columns a round can change; equality of rows
  column by column.
  Theorems: `C93_bootstrap`, `C93_decomposition_partial`,
  `C93_decomposition_refuted`, `C93_bootstrap_error_refuted`,
  `C93_decomposition_error_refuted`.
  REFUTED for the decomposition (C93_decomposition_refuted): with
  firm_clusters_as_ids (the default) the stayers' first-period firm ids remain
  firm types after every run, because j4 is restored twice and j1 never; and
  after exceptions. Proved for the bootstrap, the movers, and the decomposition
  without firm_clusters_as_ids. The column t is left out.
- **C94** BLM: the connectedness measure is 0 exactly if movers of some worker type do not link all firm types (partial)
  The quadratic form of the normalised Laplacian is half the weighted sum of
  squared differences (and 2 minus the one of squared sums); null vectors are
  constant on each piece; dimension of the null space by expansion in the
  orthonormal eigenvectors; sorting lemma for the second smallest.
  Theorems: `C94_measure_partial`, `C94_direction_refuted`, `C94_isolated`,
  `C94_one_firm_type_refuted`, `C94_all_refuted`.
  REFUTED where movers between two firm types go in one direction only
  (C94_direction_refuted: counts are paired with the proportions of the opposite
  direction), for a single firm type (C94_one_firm_type_refuted: IndexError) and
  for all=True (C94_all_refuted: the vector is overwritten). Proved where movers
  go both ways or not at all (C94_measure_partial), with LinAlgError if a firm
  type has no mover of some worker type (C94_isolated). Exact arithmetic;
  np.linalg.eig is a parameter that returns the real eigenvalues.
- **C95** Dynamic BLM: the estimator runs its phases in order, picks the best-connected of the most likely models, and respects the user's options (partial)
  Estimates with positive standard deviations and proportions are an invariant
  of every fit under valid constraints (C87's path lemmas), hence of the phases;
  C94's measure is positive as all counts and proportions are; the choice is
  C41's selection lemma for these models; movers' parameters along the path of
  the stayers' fit.
  Theorems: `C95_movers`, `C95_estimator`, `C95_switches_refuted`,
  `C95_force_refuted`, `C95_counts_refuted`.
  REFUTED for the options: update_a_movers, update_s_movers and update_pk1
  change nothing (C95_switches_refuted), force_min_firm_type raises TypeError on
  all data (C95_force_refuted), compute_NNm=False never completes on a new model
  (C95_counts_refuted). Phases, choice and stayers proved (C95_movers,
  C95_estimator), without control variables; drawn starting values, rho_init and
  eigenvalues are parameters. C95_estimator needs constraints valid for movers
  and stayers, so by C98 no user constraint that excludes something.
- **C96** Dynamic BLM: the model can be estimated with control variables (partial)
  The dictionaries of parameters are association lists of shapes, every access
  of a key or an index may raise. Continuous columns are looked up by name in an
  array in the first E-step; the second key of the zeroed tables is missing;
  shapes drawn at the start are an invariant of the M-step, and so is the
  absence of the key '12' that _normalize reads.
  Theorems: `C96_controls_refuted`, `C96_errors`, `C96_no_controls_partial`.
  REFUTED: with any control variable the movers' estimation never completes
  (C96_controls_refuted, for all data and all outcomes of the numerical parts),
  and C96_errors says which exception is raised when. Without control variables
  it completes (C96_no_controls_partial). Modelled at the level of dictionary
  keys and array shapes; numbers are parameters.
- **C97** BLM with control variables: every iteration fits effects and variances and the likelihood does not fall (partial)
  All blocks of parameters (firm types, categorical and continuous columns) are
  treated alike: values per period, worker type and category, and the columns'
  constraints from C65. The invariant of the M-step is that the running sums
  (A_sum, residuals) are those of the current parameters. The solver is exact
  and complete. For the refutation the loss of the firm types' variances
  separates into cells with a unique best value, at least the mean squared
  residual, and every other block adds a positive variance.
  Theorems: `C97_em`, `C97_variance_refuted`, `C97_likelihood_refuted`,
  `C97_update_a_refuted`.
  REFUTED in three parts. C97_em: what fit_movers does, for all data and
  options: the run, its stopping, the optimality of every block of effects in
  turn, the regression that gives the variances, the shares, the best of the
  forced runs, which happen only if asked for or after a run that ended with its
  first cycle. But every block of standard deviations is fitted to the whole
  squared residual, so with control variables the predicted variance exceeds it
  for every worker type, firm type and period after an iteration
  (C97_variance_refuted), the recorded likelihood can fall
  (C97_likelihood_refuted), and update_a without update_s always raises
  (C97_update_a_refuted).
- **C98** Dynamic BLM: constraints of the user hold for movers and stayers (partial)
  A constraint that excludes something has a row, of nt * nl * nk columns (C09).
  Adding constraints keeps the columns of a stored matrix or raises. So the
  problem handed to the solver has the wrong number of columns; induction over
  the loop shows that the effects (standard deviations) never change. Uses the
  model of C86-C91.
  Theorems: `C98_effects_refuted`, `C98_spread_refuted`, `C98_refuses_refuted`.
  REFUTED. The movers have four to six periods, the stayers two, and the same
  objects go to both fits. For any number of periods the constraint is made for,
  one of the fits keeps the effects (C98_effects_refuted) or standard deviations
  (C98_spread_refuted) it started from, since the ValueError of the solver is
  caught; with an inequality for the standard deviations one of the fits never
  returns (C98_refuses_refuted). For constraints of the right size the updates
  are the best allowed ones: C88, C91.
- **C99** SimBS: numbers of matches and assortative matching (proved)
  Loop invariant over the slices of the sorted scores: the firm of the p-th
  smallest score is the p-th entry of the repeated firm numbers. Sorted
  permutations give counts and order. The while loop keeps the drawn numbers as
  a prefix.
  Theorems: `C99_matches`.
  The cleaning by bipartitepandas that follows (returns dropped, connectedness)
  is not modelled; it removes rows. The generator is a parameter; the loop may
  go on for ever for some draws, the theorem is about the data it returns.

## 5. Assumptions printed per theorem

* no axioms ("Closed under the global context"):
  C01_results_paired, C01_scramble_unscramble, C01_unscramble_scramble,
  C08_melt_partial, C08_melt_refuted, C08_melt_refuted_general,
  C09_check_feasible_keeps, C21_minimises, C21_normal_equations, C21_unique,
  C21_worker_equations_any_solver, C22_nonsingular, C22_recovery,
  C23_inverse_blocks_partial, C23_inverse_blocks_refuted, C24_exact_leverage,
  C24_range, C24_refused, C24_reported, C24_sum, C25_sigma_unbiased,
  C25_sigma_unweighted, C26_approximate_partial, C26_cov, C26_custom_forms,
  C26_var_alpha_refuted, C26_var_psi, C27_corrected_exact,
  C27_corrected_homoskedastic_partial, C27_corrected_partial,
  C27_corrected_refuted, C27_exact_trace, C27_exact_trace_weighted_refuted,
  C27_sii_exact, C27_sii_homoskedastic_partial, C27_sii_refuted, C28_exact_cov,
  C28_exact_psi, C28_exact_sigma, C28_form_exists, C28_he_trace, C28_ho_trace,
  C28_hutchpp, C28_sigma_trace, C29_covariance, C29_shift, C29_shift_cov,
  C29_variances, C30_corrected_he, C30_corrected_ho, C30_plug_in, C31_batches,
  C31_uneven, C32_attached, C32_columns, C32_fitted, C32_layout, C32_refused,
  C32_width, C33_full_partial, C33_names_partial, C33_partial, C33_refuted,
  C33_zero_refuted, C34_cov, C34_duplicates, C34_effect, C34_symmetric,
  C34_unknown, C34_var, C35_connected, C35_decreasing_count,
  C35_decreasing_nested, C35_decreasing_step, C35_decreasing_total,
  C35_decreasing_used_refuted, C35_increasing_count, C35_increasing_firms,
  C35_increasing_min, C35_increasing_nested, C35_increasing_size, C35_round,
  C36_cores, C36_order, C42_failure_refuted, C42_parts, C42_phases,
  C42_restored_partial, C51_clear, C51_clear_order, C51_cre_options_partial,
  C51_false, C51_fe_options_partial, C51_integers_refuted, C51_refused,
  C51_true, C53_least_squares, C53_noise_free, C53_normal_equations, C55_pairs,
  C55_unbiased, C55_value, C56_draws, C56_reported, C57_minimises,
  C57_no_controls, C57_orthogonal, C57_recovers, C57_residuals, C57_unique,
  C58_collinear_refuted, C58_he, C58_ho, C58_leverage, C58_sigma,
  C58_sigma_draws, C58_sigma_trace, C58_sii, C58_sii_partial, C58_sii_refuted,
  C59_negative_refuted, C59_scale_refuted, C59_standard, C59_unit_weights,
  C60_partial, C60_refuted, C61_axis, C61_decreasing_refuted, C61_estimators,
  C61_succeeds, C61_tables, C62_lines, C62_partial, C62_refuted, C68_excludes,
  C70_expected_partial, C70_expected_refuted, C70_mean, C70_mean_unique,
  C70_solvable, C77_firm_mean, C77_firm_mean_corrected,
  C77_upper_bound_weighted_partial, C77_upper_bound_weighted_refuted, C78_bias,
  C78_factor_partial, C78_factor_refuted, C78_files, C78_moments,
  C79_leave_one_out, C79_refused, C79_refused_approximate, C80_returns_refused,
  C81_default_refuted, C81_iv, C81_linear, C81_normalised, C81_refused,
  C81_stationary_a_refuted, C81_worker_ids_refuted, C82_alpha,
  C82_missing_refuted, C96_controls_refuted, C96_errors,
  C96_no_controls_partial, C101_coarse, C101_no_coarse_refuted, C101_symmetric,
  C101_weights, C102_fe, C103_default_refuted, C103_jacobi, C103_small_omega,
  C103_when, C114_output_refuted, C115_completes, C115_empty_refuted,
  C115_left_refuted, C115_levfile_refuted, C116_once, C117_renumbered_refuted,
  C117_returns, C117_samples, C120_estimator_refuted, C121_columns_refuted,
  C121_connected_joined_refuted, C121_connected_partial, C121_connected_refuted,
  C121_movers_partial, C121_movers_refuted, C121_one_type_refuted,
  C121_stayers_partial, C121_stayers_refuted, C121_totals, C121_used_partial,
  C121_used_refuted, C123_connected_partial, C123_counts, C123_dynamic_partial,
  C123_dynamic_refuted, C123_missing, C123_no_counts_refuted,
  C123_old_counts_refuted, C123_static.
* `ClassicalDedekindReals.sig_forall_dec`:
  C05_diag_of_prod, C05_terminates, C10_one_worker_type, C11_one_worker_type,
  C20_pad_refuted, C43_draws, C43_pairing, C46_counts, C46_firm_types_refuted,
  C46_firms, C46_first_firm, C46_ids, C46_second_firm, C46_second_order,
  C46_two_firms, C50_alignment, C70_prior_stayers, C84_wages, C84_worker_types.
* `ClassicalDedekindReals.sig_forall_dec`,
  `FunctionalExtensionality.functional_extensionality_dep`:
  C02_mean_between, C02_mean_equal_weights, C02_mean_unweighted, C02_var_nonneg,
  C03_between, C03_error_iff, C03_monotone, C03_shift, C03_value, C04_DxM,
  C04_DxSP, C04_MxD, C04_SPxD, C04_scalar, C05_excess, C09_batching_irrelevant,
  C09_builtin, C09_history, C09_order_irrelevant, C09_sparse_solver_then_add,
  C10_linear, C11_linear_additive, C12_monotonic, C13_monotonic_mean,
  C14_min_firm_type, C15_no_worker_type_interaction, C16_normalize_all,
  C16_normalize_lowest, C17_one_type_coprime, C17_one_type_refuted,
  C17_stationary_exact, C17_stationary_partial, C17_two_types_refuted,
  C18_stationary_firm_type_variation, C19_bounded_above, C19_bounded_below,
  C20_pad_partial, C37_sort_relabels, C38_normalise, C41_force_min,
  C41_force_min_error, C41_selection, C43_graph_partial, C43_graph_refuted,
  C43_shares_all_refuted, C43_shares_refuted, C45_distribution_partial,
  C45_plotted, C45_plotted_stayers, C45_refuted, C45_shares, C45_shares_apart,
  C47_one_worker_type, C47_refuted, C47_square, C50_unique,
  C52_differences_moments, C52_equations_partial, C52_equations_refuted,
  C52_moments, C52_true_rho_refuted, C52_weights_partial, C52_weights_refuted,
  C54_check_feasible_partial, C54_check_feasible_refuted, C65_attainable,
  C65_identified, C65_meaning, C65_normalize_false_refuted, C65_order_refuted,
  C67_minimises, C67_net_zero, C67_recovery, C67_unique, C67_without_between,
  C68_leave_out_joiners, C68_leave_out_leavers, C68_moments_joiners,
  C68_moments_leavers, C68_moments_stayers_movers_partial,
  C68_moments_stayers_partial, C68_moments_stayers_refuted,
  C69_cov_wt_overstated, C69_movers_partial, C69_stayers_refuted,
  C69_stayers_values, C69_totals, C70_prior_partial, C70_prior_refuted,
  C71_exact, C71_shares_refuted, C72_cluster_shift, C72_level, C80_fixed_point,
  C80_long_refuted, C80_recovered, C80_weights_refuted, C83_additive,
  C83_monotone, C83_order, C83_second_period_refuted, C110_categorical,
  C110_continuous, C110_interacted_refuted, C110_shapes, C110_square,
  C110_square_refuted, C110_variation_partial, C112_cores, C112_extends,
  C112_keys, C112_parallel, C112_refuted, C112_returns, C112_single, C113_plots,
  C118_drawn_partial, C118_drawn_refuted, C118_labels, C118_labels_dynamic,
  C118_shown, C118_shown_dynamic, C119_points, C119_zeros_refuted,
  C122_all_partial, C122_all_periods_refuted, C122_labels, C122_movers_partial,
  C122_periods_refuted, C122_stacked, C122_stayers.
* `ClassicalDedekindReals.sig_forall_dec`, `ClassicalDedekindReals.sig_not_dec`,
  `FunctionalExtensionality.functional_extensionality_dep`:
  C02_cov_formula, C02_cov_sym, C02_scale_weights, C02_shift, C02_var_is_cov,
  C02_var_is_cov_unweighted, C02_var_sum, C39_pk1_missing_pair, C39_pk1_rows,
  C48_returns_refused, C48_unweighted, C48_weighted_partial, C49_apply,
  C49_exact, C49_factor, C49_first, C49_preconditioner, C49_refused, C49_safe,
  C49_unstored_refuted, C50_alignment_refuted, C52_differences_refuted,
  C52_differences_zero, C52_minimises, C52_no_persistence_partial,
  C66_bootstrap, C66_bootstrap_error_refuted, C66_decomposition,
  C66_decomposition_error_refuted, C66_no_samples_refuted, C73_shift_partial,
  C73_weighted_refuted, C74_alternative_refuted, C74_rescale_partial,
  C74_unit_weights_partial, C74_var_y_refuted, C75_data_unchanged,
  C76_repeated_pairs_refuted, C76_uncorrelated_noise_partial, C85_bootstrap,
  C85_decomposition, C85_unweighted, C88_movers, C88_stayers, C90_movers,
  C90_stayers, C91_movers_partial, C91_stayers_partial, C92_bootstrap,
  C92_decomposition, C92_firm_types_as_ids_refuted, C92_mover_density,
  C92_mover_wages, C92_reallocate_refuted, C92_stayer_density, C92_stayer_wages,
  C93_bootstrap, C93_bootstrap_error_refuted, C93_decomposition_error_refuted,
  C93_decomposition_partial, C93_decomposition_refuted, C94_all_refuted,
  C94_direction_refuted, C94_isolated, C94_measure_partial,
  C94_one_firm_type_refuted, C99_matches, C100_column_lambda, C100_column_mu,
  C100_columns_refuted, C100_moments, C100_refused, C104_additive,
  C104_monotone, C104_order, C104_other_periods_refuted, C104_sds,
  C105_categorical, C105_categorical_refuted, C105_continuous,
  C105_continuous_refuted, C105_interacted_refuted, C105_refuted,
  C105_variation, C106_counts, C106_firms, C106_first_firm, C106_ids,
  C106_second_firm, C106_second_firm_refuted, C106_worker_types, C107_movers,
  C107_stayers, C108_movers, C108_recorded, C108_stayers, C108_variance_refuted,
  C109_rows, C111_key_error_refuted, C111_no_controls, C111_refuted,
  C114_eps_refuted, C114_results, C116_periods_refuted, C116_subplots,
  C116_unclustered_refuted.
* `ClassicalDedekindReals.sig_forall_dec`, `ClassicalDedekindReals.sig_not_dec`,
  `Classical_Prop.classic`,
  `FunctionalExtensionality.functional_extensionality_dep`:
  C06_logsumexp, C06_no_overflow, C06_posterior, C06_posterior_shift,
  C07_density, C07_error_iff, C07_fast, C37_likelihood_unchanged,
  C39_stayers_missing_last, C39_stayers_partial, C39_stayers_refuted,
  C40_stayers_monotone, C42_fit_A_refuted, C43_counts, C44_bound_partial,
  C44_refuted, C44_variance, C50_exact, C50_flow_partial, C50_never_joined,
  C50_no_iterations, C50_normalised, C50_only_joined, C50_only_left,
  C50_refuted, C63_likelihood, C63_posteriors, C64_movers_monotone,
  C64_penalised, C64_prior_refuted, C64_weights_refuted, C85_weights_refuted,
  C86_sort, C87_count_movers, C87_count_stayers, C87_fit_movers,
  C87_fit_stayers, C87_movers, C87_stayers, C87_unobserved_movers,
  C87_unobserved_stayers, C89_falls_refuted, C89_partial, C91_rho_refuted,
  C95_counts_refuted, C95_estimator, C95_force_refuted, C95_movers,
  C95_switches_refuted, C97_em, C97_likelihood_refuted, C97_update_a_refuted,
  C97_variance_refuted, C98_effects_refuted, C98_refuses_refuted,
  C98_spread_refuted, C120_kept, C120_s_alone_refuted.
* `ClassicalDedekindReals.sig_forall_dec`, `Classical_Prop.classic`,
  `Description.constructive_definite_description`,
  `FunctionalExtensionality.functional_extensionality_dep`:
  C67_linked.

All are axioms of the Coq standard library (`Coq.Reals`, `Coq.Logic`).

## 6. Findings

Places where the code, as modelled, does not do what the property says.  Each is
proved (theorem in parentheses).

`fe.py`, `fecontrol.py`

* `_construct_AAinv_components_full` (fe.py:1280) adds a vector to every row of the
  worker block instead of to its diagonal: the inverse is wrong (C23) and so is the
  exact trace for var(alpha), with bias s2 (nw - 1) / sum w (C26).
* Exact HE traces use the weight once where the formula needs it twice (C27).
* The leave-out error variances centre wages by the sample mean, which biases them
  and the HE-corrected components under heteroskedasticity (C27, C58).
* `upper_bound` for stayers with weights is right only if the weight is 1 (C77).
* The non-linearity factor of drawn leverages has a term of the wrong sign (C78).
* `fecontrol.py` divides by n minus the number of columns, not the rank (C58).
* Clustered standard errors: pairs of rows in the normalised firm or category do not
  count, so the number under the root can be negative (C33, C59); rescaling the
  weights rescales the standard errors (C59).

`blm.py`

* A firm type without stayers, other than the last, gets NaN proportions (C39).
* `fit_A` always raises (weights1 unbound); an exception leaves the parameters of the
  failing phase in place (C42).
* `NNm` is paired with the transposed rows of `pk1` (C43).
* `s_lower_bound` bounds the variances, not the standard deviations (C44).
* `reallocate_jointly=False` raises for periods 'second' and 'all' (C45).
* Recorded likelihoods fall for d_prior above 1 and for unequal weights (C64).
* `_gen_constraints` stops at the first time-varying interacting control, so that
  normalisation depends on the names of the controls; `normalize=False` does not stop
  the stored estimates from being normalised (C65).
* With control variables every block of standard deviations is fitted to the whole squared
  residual: the predicted variance is too large and the likelihood can fall; update_a
  without update_s always raises (C97).
* Bootstrap and decomposition do not restore the data after an exception;
  `n_samples=0` raises (C66).
* Simulated wages have standard deviation S/w, the likelihood S/sqrt(w) (C85).
* `compute_connectedness_measure(all=True)` stores the minimum; a single firm type raises
  IndexError; movers in one direction only can give a positive measure without a link
  (C94).

`blm_dynamic.py`

* Three of ten moment equations of `_var_stayers` are wrong, the weights are repeated
  in the wrong order, and `diff=True` works for eight firm types only (C52).
* The A-step weights by 1/sd instead of 1/variance, so the likelihood can fall (C89).
* The S-step uses -rho where the variance of the wage has rho^2 (C91).
* The decomposition with `firm_clusters_as_ids` replaces the firm ids of periods 1 and 4
  only (C92), and never restores the stayers' `j1` (C93).
* `reallocate_jointly=False` raises for periods 'second' and 'all' (C92).
* `update_a_movers`, `update_s_movers` and `update_pk1` have no effect in
  `fit_movers_cstr_uncstr`; `force_min_firm_type` always raises TypeError;
  `compute_NNm=False` always raises on a new model (C95).
* No control variable can be used: keys are missing, continuous columns are looked up by
  name in an array, and the order of columns uses the number of firm types instead of
  categories (C96).

`blm_interacted.py`

* Fixed-point slopes: wrong for weights that differ between the spells of a worker and
  for long data (C80).
* Linear estimators: the default `liml_1` inverts a singular matrix without noise,
  `stationary_a` constrains A/B, `worker_ids` reads an unassigned variable (C81).
* `alpha` drops firms without stayers and is then misaligned (C82).

`cre.py`

* Stayers of firms nobody leaves or joins are dropped from the moments (C68).
* `cov_AsPsi1` is 2 cov + var(psi) instead of cov (C69).
* Posterior variance mixes n and n - 1; firms with stayers only get prior mean 0 (C70).
* Shares divide n - 1 moments by n moments (C71).

`borovickovashimer.py`

* Results depend on the wage level with weights (C73); var(y) is the variance of weight
  times wage, and the alternative estimator halves pair products (C74); repeated
  worker-firm pairs multiply a wage with itself (C76).

`sorkin.py`

* The iteration may oscillate and is then returned as is; firms that are only joined or
  only left raise; psi is aligned by putting the normalised firm last (C50).

`simblm.py`

* The second firm of a mover is drawn for another order of rows (C46).
* `stationary_firm_type_variation` averages the wrong axis (C47).
* A2 is not ordered by firm type (C83).

`constraints.py`, `util.py`, `command_line.py`, `attrition`, `ichol.py`

* `Stationary(nwt)` with nwt below the number of worker types strides wrongly (C17).
* `pad` fails for objects without constraints of one kind (C20).
* A sparse solve breaks later additions of constraints (C09).
* `check_feasible` builds a QP of the wrong size for two periods (C54).
* `melt` pairs labels with transposed values (C08).
* Integer options are passed as text and refused (C51).
* Decreasing attrition: the connected set may switch (C35), `_combine_res` always
  raises (C61); an exception leaves `drop_single_stayers` off (C60); the movers line may
  be unbound (C62).
* Incomplete Cholesky reads earlier columns when a diagonal element is not stored (C49).
* Dynamic BLM: a user constraint cannot fit both movers and stayers; one of the fits keeps
  its starting values silently, or raises (C98).
* SimBS: the columns `lambda_i` and `mu_j` hold a * lambda_i and b * mu_j, with the default
  parameters 4/5 of the effects (C100).
* The V-cycle preconditioner has no coarse grid: with the shape (n, 1) the coarse grid is
  empty, so only damped Jacobi sweeps are left (C101).
* FEControlEstimator: with control variables the default V-cycle preconditioner need not be
  positive definite, although conjugate gradients need it (C103).
* SimDynamicBLM: stationary_A, stationary_S and stationary_firm_type_variation always raise
  (C105); stationary categorical controls become zero in all periods if endogeneity or state
  dependence is off, because the periods share one array (C105).
* SimDynamicBLM: only period '12' is ordered by firm type (C104); second firms of movers have
  wrong types, as in SimBLM (C106).
* SimDynamicBLM: standard deviations of control variables are added to variances without being
  squared (C108).
* SimBLM: stationary_firm_type_variation of a categorical control variable that interacts with
  worker type raises, or is wrong for as many categories as worker types (C110).
* DynamicBLMBootstrap (parametric) and DynamicBLMVarianceDecomposition raise KeyError for every model
  with control variables (C111).
* MonteCarlo compares estimates from the cleaned sample with moments of the sample before cleaning
  (C112).
* A control variable named `eps` overwrites the residual variance in the results of the
  fixed-effects estimators; with an output file all numbers in the results become text (C114).
* `levfile` together with `exact_trace_he` raises AttributeError; an empty `Q_var` or `Q_cov` with an
  approximate trace raises UnboundLocalError (C115).
* Event study plots: different numbers of periods before and after, data that are not clustered and
  data with one class raise (C116).
* Standard bootstrap: classes are looked up under the firm numbers before cleaning; if cleaning
  renumbers the firms of the sample, they go to the wrong firms or are missing (C117).
* Bootstrap plots of log earnings raise ValueError with more than 40 samples if an outlier moves the
  mean out of the 2.5 to 97.5 percentile range (C118).
* The plot of likelihoods and connectedness has points at (0, 0) for models without connectedness (C119).
* Static BLM: update_s=False with update_a=True raises UnboundLocalError; BLMEstimator ignores
  update_a, update_s and update_pk1 (C120).
* NNm and NNs leave out firm types without workers, so that the numbers of all higher types are
  in the wrong place (C121).
* The plots of type proportions of movers in the first and second period are exchanged, even if
  the counts are symmetric (C122).
* `DynamicBLMModel.plot_type_proportions(subset='stayers')` checks `NNm` instead of `NNs`: after
  fits of stayers with counts and movers without, it asks the user to fit stayers; after a fit of
  movers alone it fails in unpacking (C123).
* `fit_movers_cstr_uncstr(compute_NNm=False)` of a new model raises AttributeError when it computes
  connectedness; of a model fitted before it uses the counts of the earlier data (C123).
* If no mover leaves (or none joins) some firm type but movers leave (or join) two others,
  `fit_movers_cstr_uncstr` raises ValueError after all fits, when it computes connectedness, because
  `NNm` lacks a row or column (C121).
