{
 "C01": "`scramble`, `unscramble` on polymorphic lists, loops as in the code. Round trips by induction from both ends; corollary for mapped jobs.",
 "C02": "`weighted_mean/var/cov` on lists of reals with a scalar-or-vector weight argument. Algebra on finite sums.",
 "C03": "`weighted_quantile`: argsort as an arbitrary sorting permutation, `cumsum`, `np.interp` as its documented piecewise-linear function. Bounds and monotonicity by induction on the knots.",
 "C04": "Dense helpers on entry functions; `DxSP` on the compressed sparse column representation (data, indices, indptr) with the dense meaning of a layout as specification.",
 "C05": "`diag_of_prod` with its transposing recursion (fuel 2 shown enough).",
 "C06": "`logsumexp` on non-empty lists of reals; algebra of exp and ln.",
 "C07": "`lognormpdf`, `fast_lognormpdf` against the normal density.",
 "C08": "`melt` for two dimensions with numpy's default `xy` meshgrid; refuted in general, true of symmetric square arrays.",
 "C09": "`QPConstrained` as a record with operations; the feasible set as a predicate; induction over arbitrary lists of operations.",
 "C10": "The loops of `_get_constraints` with invariants over the matrix; satisfied iff the English meaning, over a parameter function of period, worker type and firm type. The same for C11 to C19.",
 "C11": "As C10.",
 "C12": "As C10.",
 "C13": "As C10.",
 "C14": "As C10.",
 "C15": "As C10.",
 "C16": "As C10.",
 "C17": "As C10; refuted for a number of worker types nwt >= 1.",
 "C18": "As C10.",
 "C19": "As C10.",
 "C20": "`pad`; refuted for objects without constraints of one kind.",
 "C21": "mathcomp model of `_prep_matrices`, `_mult_AAinv`, `_solve`; Schur complement algebra; completing the square for the minimum.",
 "C22": "Corollary of C21 with a connectedness hypothesis on the data; non-singularity from connectedness by propagation along observations.",
 "C23": "Block inverse by Schur complements; the fourth block characterised exactly.",
 "C24": "`_compute_Pii` from the blocks that are right; diagonal of the hat matrix, range by the projection property, sum by the trace.",
 "C25": "Expectation over an arbitrary finite probability space; trace of the residual projection.",
 "C26": "Expectation of quadratic forms; each Q option with its exact or approximate trace.",
 "C27": "Expectation of the leave-out variances and corrected components for arbitrary error variances; exact bias formulas; a five-row counterexample.",
 "C28": "Average over all functions to {-1, 1}; Hutch++ for any matrix with orthonormal columns.",
 "C29": "Quadratic forms computed by `_estimate_fe` from the Q options, equal to weighted variances and covariances.",
 "C30": "Linearity of the forms of C29.",
 "C31": "Mean of batch means; exact value for batches of different size.",
 "C32": "List model of the column layout; coefficient attached to each name and category.",
 "C33": "Cluster matrix from the design columns; exact set of pairs that count.",
 "C34": "`VarCovariate`, `CovCovariate` as quadratic forms on the layout of C32.",
 "C35": "Attrition sets as lists with oracles for the random choice and the cleaning; induction along the shares.",
 "C36": "Jobs as lists; results in the order of the arguments for any number of cores.",
 "C37": "Index model of `_sort_parameters`; the likelihood the code computes is invariant under the renaming.",
 "C38": "All branches of `_normalize`.",
 "C39": "Update of pk1 and pk0 from posteriors, loop invariants; 0/0 as an explicit error.",
 "C40": "EM monotonicity by ln x <= x - 1 for the stayers' loop.",
 "C41": "Stable descending sort and selection on lists of fitted models.",
 "C42": "Parameter dictionary as state, inner fits as oracles that may fail.",
 "C43": "Counts, row-major reshape and products of counts and proportions.",
 "C44": "Whole fits: each S is the square root of a solution bounded below.",
 "C45": "Reallocation algebra over counts and proportions.",
 "C46": "Positional model of the simulated tables for arbitrary draws.",
 "C47": "numpy broadcasting of the row means.",
 "C48": "Pair-product identity on groups of rows.",
 "C49": "Array-by-array model of the incomplete Cholesky loop with invariants for the linked lists; every access checked.",
 "C50": "Fixed-point iteration with fuel max_iters; solutions of the flow equations; uniqueness on strongly connected flows.",
 "C51": "Strings and association lists; dictionaries of main.",
 "C52": "Moment vector, design matrix and weights of `_var_stayers` entry by entry; the covariances of the model derived from independent shocks.",
 "C53": "Schur algebra as in C21 with slopes in the worker columns.",
 "C54": "Dimensions of the QP built by `check_feasible`.",
 "C55": "`CovPsiPrevPsiNext` on sorted rows.",
 "C56": "Expectation of the drawn leverages; clipping.",
 "C57": "Normal equations of the stacked design; completing the square.",
 "C58": "Expectations as in C25 to C27 with the rank of the design.",
 "C59": "Sandwich formula against the covariance of the estimates.",
 "C60": "State of the cleaning parameters as a dictionary.",
 "C61": "Nested loops filling tables; every cell by induction.",
 "C62": "Search for the first share and interpolation.",
 "C63": "The E-step entry by entry: log densities with categorical and continuous controls, mixture, posteriors.",
 "C64": "EM argument for the movers' loop: M-step as exact minimisation (contract of the QP solver), Jensen, induction over iterations.",
 "C65": "`_gen_constraints` with control variables as lists of constraint objects; meaning from C10 to C19; shifts between effects and controls for identification.",
 "C66": "Frames as lists of rows, the fits as state transformers; induction over samples.",
 "C67": "Least squares on cluster dummies; linked clusters by connectivity of the movers' graph.",
 "C68": "Group sums and merges on lists.",
 "C69": "Algebra of the moment equations.",
 "C70": "Penalised least squares; expectation of the trace draws.",
 "C71": "Sums over the stacked cross section.",
 "C72": "Shift of all wages through every step.",
 "C73": "Shift algebra of the pair products.",
 "C74": "Weights of one, rescaled weights, constant wages.",
 "C75": "The frame as state through fit.",
 "C76": "Expectation over a finite probability space.",
 "C77": "Expectation of the stayers' variances.",
 "C78": "Files, moments and first-order bias of the drawn leverages.",
 "C79": "Leverage one iff deleting the row loses rank.",
 "C80": "Pair matrices of the fixed-point slope estimator on data without noise.",
 "C81": "The linear estimators on data without noise: kernels of the design.",
 "C82": "Weighted means by firm and alignment.",
 "C83": "Sorted draws.",
 "C84": "Positions of simulated worker types and wages.",
 "C85": "Values that reach the estimator in each sample, by induction over samples.",
 "C86": "Both orders are permutations (argsort); the mixture is a sum over worker types and invariant under the permutation.",
 "C87": "E-step: densities term by term, then the log-sum-exp lemmas of the static model; induction over iterations gives a path of the specification (mover_path, stayer_path).",
 "C88": "The assembled normal equations are the gradient of the weighted sum of squares; exactness of the solver carries over.",
 "C89": "Counterexample with two movers, for any exact and complete solver; the partial theorem by the EM inequality along the path.",
 "C90": "Closed form of a one-regressor weighted least squares, with the long stack rewritten as a double sum.",
 "C91": "The program minimises the fit with -rho for rho^2 (mover_var_fit'); counterexample with rho12 = 1, and equality when rho^2 = -rho.",
 "C92": "Simulated wages satisfy the recursive equations of the likelihood's means and variances (and conversely); change of variables of the normal density; values that reach the estimator and the regression, by induction over samples.",
 "C93": "Invariant over samples: which columns a round can change; equality of rows column by column.",
 "C94": "The quadratic form of the normalised Laplacian is half the weighted sum of squared differences (and 2 minus the one of squared sums); null vectors are constant on each piece; dimension of the null space by expansion in the orthonormal eigenvectors; sorting lemma for the second smallest.",
 "C95": "Estimates with positive standard deviations and proportions are an invariant of every fit under valid constraints (C87's path lemmas), hence of the phases; C94's measure is positive as all counts and proportions are; the choice is C41's selection lemma for these models; movers' parameters along the path of the stayers' fit.",
 "C96": "The dictionaries of parameters are association lists of shapes, every access of a key or an index may raise. Continuous columns are looked up by name in an array in the first E-step; the second key of the zeroed tables is missing; shapes drawn at the start are an invariant of the M-step, and so is the absence of the key '12' that _normalize reads.",
 "C97": "All blocks of parameters (firm types, categorical and continuous columns) are treated alike: values per period, worker type and category, and the columns' constraints from C65. The invariant of the M-step is that the running sums (A_sum, residuals) are those of the current parameters. The solver is exact and complete. For the refutation the loss of the firm types' variances separates into cells with a unique best value, at least the mean squared residual, and every other block adds a positive variance.",
 "C98": "A constraint that excludes something has a row, of nt * nl * nk columns (C09). Adding constraints keeps the columns of a stored matrix or raises. So the problem handed to the solver has the wrong number of columns; induction over the loop shows that the effects (standard deviations) never change. Uses the model of C86-C91.",
 "C99": "Loop invariant over the slices of the sorted scores: the firm of the p-th smallest score is the p-th entry of the repeated firm numbers. Sorted permutations give counts and order. The while loop keeps the drawn numbers as a prefix.",
 "C100": "Expected values over a finite weighted space; the coefficients solve the normal equations. The bound of a refused sigma_wages is the residual variance of the projection being nonnegative.",
 "C101": "The sweeps are the powers of one matrix; the coarse system of shape (n, 1) has no unknowns. Symmetry by induction on the depth: the sweeps before and after are transposes of each other.",
 "C102": "The matrix has nonpositive entries off the diagonal and nonnegative row sums (computed from the data), hence M and 2D - M are positive semidefinite; with invertibility (FELsLemmas) M is positive definite. Pairs of sweeps add positive definite terms.",
 "C103": "Cauchy-Schwarz over the non-zero columns of a row gives the safe omega; two sweeps are 2G - GAG, congruent to 2D - omega A, which gives the exact condition and the witness.",
 "C104": "The sorting of all periods is that of SimBLM applied to each period with the order of period '12' (SimParamLemmas); dictionaries of arrays keep names, so that relabelled and zeroed arrays are followed through _gen_params.",
 "C105": "Dictionaries over periods map keys to names of arrays: aliasing is a shared name, [:] = 0 changes the array behind the name. A two-dimensional array under '2mb' stops the sum of the first mover.",
 "C106": "The rows are those of SimBLM's model with four periods; each statement is carried over along the row-by-row correspondence.",
 "C107": "Inversion of a run into row sums, then the identity between the generated wages and the model's wages (DBootLemmas).",
 "C108": "The loops over control variables are sums over the list of controls (induction); x^2 < x for 0 < x < 1 makes the variances differ strictly.",
 "C109": "The loops over columns are sums over the list of columns (induction); the run is that of SimModel with the control variables added row by row.",
 "C110": "Inversion of _gen_params column by column; the broadcast of line 398 is the one of line 442 (C47).",
 "C111": "Model of the columns and dictionary entries that are read; the first read of the first control variable raises for any frame whose columns have names.",
 "C112": "Simulation, cleaning and estimators are parameters threading the state of the generator. Induction over the simulations and over the loop that copies the results into arrays.",
 "C113": "The extremes are folds of min and max; case analysis on the sign for the scaling.",
 "C114": "The assignments are a list of writes; every write is one of the reported entries (or repeats a reserved one), and reported entries are a function of the key because every key ends in three characters that determine its kind. Invariant for the summary.",
 "C115": "Attributes present or absent as a boolean store; case analysis over the options with an arbitrary initial store.",
 "C116": "Rows with lists of earnings and classes; the selection of rows is compared with an inductive definition, the moments with their defining equations.",
 "C117": "Drawing, cleaning with clustering, and estimation are parameters threading the generator; induction over the samples.",
 "C118": "np.percentile by sorting and interpolation; the model of _sort_parameters of C37 and C86; uniqueness of a sorted permutation; a mean is a combination of order statistics.",
 "C119": "On the model of the selection of C41; deletion of the star from the list of triangles as a permutation.",
 "C120": "Induction over the EM loop of the model of C64 (a relation saying which fields are equal), composed with the two sorts; case analysis of the phases of C40 for the estimator.",
 "C121": "pandas' value_counts, sort_index and unstack as lists over the values that occur; position of a value among those that occur; numpy's broadcasting.",
 "C122": "The proportions are shown to be compatible with renaming of types (reindexing of sums); with uniqueness of ranks (C118) the plot is a mean over models in terms of ranks.",
 "C123": "The calls are a transition system; an invariant over histories, by induction on the list of calls, gives the counts, and the other theorems follow by cases."
}