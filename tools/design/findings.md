## 6. Findings

Places where the code, as modelled, does not do what the property says.  Each is
proved (theorem in parentheses).

`fe.py`, `fecontrol.py`

* `_construct_AAinv_components_full` (fe.py:1280) adds a vector to every row of the
  worker block instead of to its diagonal: the inverse is wrong (C23) and so is the
  exact trace for var(alpha), with bias s2 (nw - 1) / sum w (C26).
* Exact HE traces use the weight once where the formula needs it twice (C27).
* The leave-out error variances centre wages by the sample mean, which biases them
  and the HE-corrected components under heteroskedasticity (C27, C58).
* `upper_bound` for stayers with weights is right only if the weight is 1 (C77).
* The non-linearity factor of drawn leverages has a term of the wrong sign (C78).
* `fecontrol.py` divides by n minus the number of columns, not the rank (C58).
* Clustered standard errors: pairs of rows in the normalised firm or category do not
  count, so the number under the root can be negative (C33, C59); rescaling the
  weights rescales the standard errors (C59).

`blm.py`

* A firm type without stayers, other than the last, gets NaN proportions (C39).
* `fit_A` always raises (weights1 unbound); an exception leaves the parameters of the
  failing phase in place (C42).
* `NNm` is paired with the transposed rows of `pk1` (C43).
* `s_lower_bound` bounds the variances, not the standard deviations (C44).
* `reallocate_jointly=False` raises for periods 'second' and 'all' (C45).
* Recorded likelihoods fall for d_prior above 1 and for unequal weights (C64).
* `_gen_constraints` stops at the first time-varying interacting control, so that
  normalisation depends on the names of the controls; `normalize=False` does not stop
  the stored estimates from being normalised (C65).
* With control variables every block of standard deviations is fitted to the whole squared
  residual: the predicted variance is too large and the likelihood can fall; update_a
  without update_s always raises (C97).
* Bootstrap and decomposition do not restore the data after an exception;
  `n_samples=0` raises (C66).
* Simulated wages have standard deviation S/w, the likelihood S/sqrt(w) (C85).
* `compute_connectedness_measure(all=True)` stores the minimum; a single firm type raises
  IndexError; movers in one direction only can give a positive measure without a link
  (C94).

`blm_dynamic.py`

* Three of ten moment equations of `_var_stayers` are wrong, the weights are repeated
  in the wrong order, and `diff=True` works for eight firm types only (C52).
* The A-step weights by 1/sd instead of 1/variance, so the likelihood can fall (C89).
* The S-step uses -rho where the variance of the wage has rho^2 (C91).
* The decomposition with `firm_clusters_as_ids` replaces the firm ids of periods 1 and 4
  only (C92), and never restores the stayers' `j1` (C93).
* `reallocate_jointly=False` raises for periods 'second' and 'all' (C92).
* `update_a_movers`, `update_s_movers` and `update_pk1` have no effect in
  `fit_movers_cstr_uncstr`; `force_min_firm_type` always raises TypeError;
  `compute_NNm=False` always raises on a new model (C95).
* No control variable can be used: keys are missing, continuous columns are looked up by
  name in an array, and the order of columns uses the number of firm types instead of
  categories (C96).

`blm_interacted.py`

* Fixed-point slopes: wrong for weights that differ between the spells of a worker and
  for long data (C80).
* Linear estimators: the default `liml_1` inverts a singular matrix without noise,
  `stationary_a` constrains A/B, `worker_ids` reads an unassigned variable (C81).
* `alpha` drops firms without stayers and is then misaligned (C82).

`cre.py`

* Stayers of firms nobody leaves or joins are dropped from the moments (C68).
* `cov_AsPsi1` is 2 cov + var(psi) instead of cov (C69).
* Posterior variance mixes n and n - 1; firms with stayers only get prior mean 0 (C70).
* Shares divide n - 1 moments by n moments (C71).

`borovickovashimer.py`

* Results depend on the wage level with weights (C73); var(y) is the variance of weight
  times wage, and the alternative estimator halves pair products (C74); repeated
  worker-firm pairs multiply a wage with itself (C76).

`sorkin.py`

* The iteration may oscillate and is then returned as is; firms that are only joined or
  only left raise; psi is aligned by putting the normalised firm last (C50).

`simblm.py`

* The second firm of a mover is drawn for another order of rows (C46).
* `stationary_firm_type_variation` averages the wrong axis (C47).
* A2 is not ordered by firm type (C83).

`constraints.py`, `util.py`, `command_line.py`, `attrition`, `ichol.py`

* `Stationary(nwt)` with nwt below the number of worker types strides wrongly (C17).
* `pad` fails for objects without constraints of one kind (C20).
* A sparse solve breaks later additions of constraints (C09).
* `check_feasible` builds a QP of the wrong size for two periods (C54).
* `melt` pairs labels with transposed values (C08).
* Integer options are passed as text and refused (C51).
* Decreasing attrition: the connected set may switch (C35), `_combine_res` always
  raises (C61); an exception leaves `drop_single_stayers` off (C60); the movers line may
  be unbound (C62).
* Incomplete Cholesky reads earlier columns when a diagonal element is not stored (C49).
* Dynamic BLM: a user constraint cannot fit both movers and stayers; one of the fits keeps
  its starting values silently, or raises (C98).
* SimBS: the columns `lambda_i` and `mu_j` hold a * lambda_i and b * mu_j, with the default
  parameters 4/5 of the effects (C100).
* The V-cycle preconditioner has no coarse grid: with the shape (n, 1) the coarse grid is
  empty, so only damped Jacobi sweeps are left (C101).
* FEControlEstimator: with control variables the default V-cycle preconditioner need not be
  positive definite, although conjugate gradients need it (C103).
* SimDynamicBLM: stationary_A, stationary_S and stationary_firm_type_variation always raise
  (C105); stationary categorical controls become zero in all periods if endogeneity or state
  dependence is off, because the periods share one array (C105).
* SimDynamicBLM: only period '12' is ordered by firm type (C104); second firms of movers have
  wrong types, as in SimBLM (C106).
* SimDynamicBLM: standard deviations of control variables are added to variances without being
  squared (C108).
* SimBLM: stationary_firm_type_variation of a categorical control variable that interacts with
  worker type raises, or is wrong for as many categories as worker types (C110).
* DynamicBLMBootstrap (parametric) and DynamicBLMVarianceDecomposition raise KeyError for every model
  with control variables (C111).
* MonteCarlo compares estimates from the cleaned sample with moments of the sample before cleaning
  (C112).
* A control variable named `eps` overwrites the residual variance in the results of the
  fixed-effects estimators; with an output file all numbers in the results become text (C114).
* `levfile` together with `exact_trace_he` raises AttributeError; an empty `Q_var` or `Q_cov` with an
  approximate trace raises UnboundLocalError (C115).
* Event study plots: different numbers of periods before and after, data that are not clustered and
  data with one class raise (C116).
* Standard bootstrap: classes are looked up under the firm numbers before cleaning; if cleaning
  renumbers the firms of the sample, they go to the wrong firms or are missing (C117).
* Bootstrap plots of log earnings raise ValueError with more than 40 samples if an outlier moves the
  mean out of the 2.5 to 97.5 percentile range (C118).
* The plot of likelihoods and connectedness has points at (0, 0) for models without connectedness (C119).
* Static BLM: update_s=False with update_a=True raises UnboundLocalError; BLMEstimator ignores
  update_a, update_s and update_pk1 (C120).
* NNm and NNs leave out firm types without workers, so that the numbers of all higher types are
  in the wrong place (C121).
* The plots of type proportions of movers in the first and second period are exchanged, even if
  the counts are symmetric (C122).
* `DynamicBLMModel.plot_type_proportions(subset='stayers')` checks `NNm` instead of `NNs`: after
  fits of stayers with counts and movers without, it asks the user to fit stayers; after a fit of
  movers alone it fails in unpacking (C123).
* `fit_movers_cstr_uncstr(compute_NNm=False)` of a new model raises AttributeError when it computes
  connectedness; of a model fitted before it uses the counts of the earlier data (C123).
* If no mover leaves (or none joins) some firm type but movers leave (or join) two others,
  `fit_movers_cstr_uncstr` raises ValueError after all fits, when it computes connectedness, because
  `NNm` lacks a row or column (C121).
