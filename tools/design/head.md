# Formal model of pytwoway: design

This file says what is modelled, how each property of `properties.jsonl` is
stated and proved, and what has to be trusted.  The plan of section 4 was written
before the proofs and is brought up to date with them.

## 1. Approach

The subject is the Python package in `/repo/pytwoway`.  It is read as text and
rewritten, function by function, as Gallina functions.  Each definition cites
the file and the lines it follows and says where it simplifies.

* Python exceptions are values (`Err e` of the result type `res`).
* `for` loops are folds over the list the loop iterates over, or structural
  recursion; `while` loops carry fuel and return an error when it runs out, and
  theorems either exclude that case or show that it does not arise.
* Arrays are lists (1-D), or a shape with an entry function (2-D); index
  assignments check bounds and give `IndexError`; `np.zeros` with a negative
  dimension gives `ValueError`.
* Floating-point numbers are modelled as real numbers.  Rounding, overflow,
  NaN and infinities are not modelled, except where the code tests for NaN
  (a 0/0 row of proportions), which is an explicit error value.
* External calls (linear solvers, quadratic programming, random numbers,
  eigenvalues, argsort, clustering, connected sets) are parameters of the model
  functions with only the contract a theorem states as hypothesis; none is an
  axiom.

Two number systems are used.

* Index-heavy and likelihood code uses the standard library reals `R`.  This
  brings axioms of `Coq.Reals` and `Coq.Logic` (section 5).
* Least-squares and trace code uses mathcomp matrices over an arbitrary
  `realFieldType`.  This is axiom free.

A property that the code does not have is not weakened until it holds.  Its
statement stays in `properties.jsonl`; a theorem whose name ends in `_refuted`
proves that the modelled code violates it, with a witness or a general
characterisation; further theorems prove the part that does hold.  Such
properties have status `partial` in `MANIFEST.json`.  A theorem whose name ends
in `_partial` proves the property under a hypothesis the statement does not have;
the note in the manifest says what is missing.

## 2. Trusted base

* Coq 8.16.1's kernel, and the axioms `Print Assumptions` prints beneath each
  property theorem (section 5).  No axioms are added, no kernel check is switched
  off, nothing is admitted.
* Libraries: the Coq standard library and mathcomp (ssreflect, algebra).
* The reading of the Python text: the model is tied to the code only by the
  citations.  numpy, scipy, pandas and bipartitepandas calls are replaced by
  their documented meaning.
* The specifications: the `*Spec.v` files and the statements in `*Props.v`.

What is modelled, by source file:

| source | modelled | not modelled |
|---|---|---|
| `util.py` | `weighted_mean/var/cov/quantile`, `DxSP`, `SPxD`, `DxM`, `MxD`, `diag_of_sp_prod`, `diag_of_prod`, `logsumexp`, `lognormpdf`, `fast_lognormpdf`, `scramble`, `unscramble`, `melt` | torch versions, jitter plots |
| `constraints/constraints.py` | everything (`QPConstrained` and all constraint classes); the QP solver is a parameter | |
| `fe.py` | matrices, `_mult_*`, `_solve`, `_proj`, `_construct_AAinv_components_*`, OLS, plug-in components, sigma^2 (FE, HO), exact and approximate traces (HO, HE, sigma^2), leverages (exact, approximate, from file), `_leverage_approx`, `Sii` and the corrections for stayers, the attributes each step of `fit` needs, results and summary (C114, C115) | `__init__` and parameter checks, the solvers, the text written to the output file |
| `Q/Q.py` | all classes | |
| `fecontrol.py` | column layout, `_unpack_gamma_hat`, `_pack_Z`, OLS, clustered standard errors, sigma^2, traces, leverages, `Sii` | as for `fe.py`; `attach_fe_estimates` into the frame |
| `cre.py` | between and within steps, leave-out means, moments, parameters, totals, posterior variance | preparation of the cross section, saving |
| `blm.py` | `_min_firm_type`, `_gen_constraints`, `_sort_parameters`, `_normalize`, `_fit_movers` without and with control variables, `fit_stayers` (without and with control variables), `fit_movers` and its phases, `fit_A/S/pk`, `BLMEstimator.fit`, mover counts, graph weights, connectedness measure, plotted proportions, `_simulate_types_wages`, parametric and standard bootstrap, variance decomposition | starting values, figures |
| `blm_dynamic.py` | `_var_stayers` (C52); `_sort_parameters`, `_min_firm_type`, `_gen_constraints`, `_sum_by_*`, `_fit_movers`, `fit_stayers`, starting values, `fit_movers_cstr_uncstr`, `DynamicBLMEstimator.fit` without control variables and with return_qi=False; `_simulate_types_wages`, parametric bootstrap and decomposition without control variables; keys and shapes of control variables in `_fit_movers` (C96) and `_simulate_types_wages` (C111) | values of control variables, `rho_init`, figures |
| `blm_interacted.py` | `_fit_b_fixed_point`, `_fit_a_alpha_fixed_point`, `_fit_a_b_linear` with methods linear, iv, liml_1 | liml_2, hful, profiling |
| `borovickovashimer.py` | everything | |
| `sorkin.py` | the estimator, the alignment of its attrition | multiprocessing, plot |
| `attrition.py`, `attrition_utils` | drawing of subsets, jobs, `_combine_res`, the movers-per-firm line | the estimators called on each subset, figures |
| `command_line.py` | `str2bool`, `clear_dict`, option dictionaries | argument parsing, reading data |
| `simblm.py` | `_sort_A`, `_gen_params`, `_simulate_movers/stayers`, `simulate`, without and with control variables | validation of the options, column order, bipartitepandas |
| `preconditioners/ichol.py` | everything | |
| `simbs.py` | all of SimBS up to the cleaning | cleaning by bipartitepandas |
| `preconditioners/jacobi.py`, `vcycle.py` | everything but the cache | cache |
| `simdblm.py` | everything but clean-up of the data frame (column order, bipartitepandas) | column order, bipartitepandas |
| `montecarlo.py` | `_monte_carlo_interior`, `monte_carlo`, the values and range plotted by `hist` (C112, C113) | the constructor, drawing |
| `diagnostics` | the rows, positions and moments of every subplot (C116) | tick marks, drawing |

Nowhere modelled: plotting, progress bars, printing, file input and output, GPU
code, the data cleaning of bipartitepandas, floating-point error, the quality of
random numbers, run time and memory.

## 3. Files

`rocq/theories` holds groups of files with a common prefix: `XxxModel.v`
(definitions only, with citations), `XxxSpec.v` (small independent
specification), `Xxx...Lemmas.v` (proofs) and `XxxProps.v` (only the property
theorems, each closed by `exact`, with `Print Assumptions`, and an `Example` that
the hypotheses can be met).

| prefix | source | properties |
|---|---|---|
@FILES@

`Base.v` has the result type, Python lists and finite sums; `FieldTac.v` makes
`ring` and `field` available over a `realFieldType`.

`tools/manifest.py` writes `MANIFEST.json` from the names of the theorems and
`tools/notes.json`; `tools/axioms.py` prints section 5.  `seeded/LOG.jsonl` records
the wrong programs the theorems were tested against.  There, `theorems_failed`
lists the property theorems that no longer go through after the edit, directly or
because a lemma they need fails; an edit that repairs a bug is expected to break
the `_refuted` theorems.

