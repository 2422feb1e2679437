# Formal model of cdt15/lingam in Rocq (Coq 8.16.1)

The code in `/repo/lingam` is modelled by total, computable Gallina functions that follow
the Python branch by branch.  Every definition cites the file and lines it models.
Nothing is executed: the tie to the code is the reading recorded in those citations.

## 1. Conventions of the model

* **Numbers.** Coefficients, means, data and scores are exact rationals (`Qc`, canonical
  rationals of the standard library, Leibniz equality, no axioms).  NaN is `None` of
  `option Qc` where the code lets NaN through; `inf` is modelled where a branch depends on it.
  IEEE rounding is *not* modelled: statements about values are about exact arithmetic;
  statements about control flow hold for every outcome of the numerical parts because these
  are parameters (see oracles).  The objective functions, kernels and entropies, which need `exp`,
  `log` and `cosh`, are modelled over the real numbers of the standard library (`LibR.v` and the
  files that import it).
* **Exceptions are values**: `result A := Ok a | Err e` with one constructor of `exn` per
  Python exception class that matters.
* **Oracles.** scikit-learn regressors, independence tests (HSIC, F-correlation,
  Shapiro-Wilk), information measures, random generators, unstable sorting (argsort ties)
  and set iteration order are explicit function arguments.  Theorems quantify over all of them.
  Sorting oracles come with the hypothesis that they return *some* sorted permutation.
* **Matrices** are functions `nat -> nat -> A` together with explicit sizes; shapes are
  carried wherever a shape error is part of the behaviour.
* **Loops** are structural recursion, folds over the iterated list, or fuel.  Fuel never
  hides behaviour: either the fuel bound is proved sufficient, or out-of-fuel is a separate
  result which is proved unreachable.
* **State.** Methods that mutate the estimator are functions from an explicit state to a
  new state (also when they raise), so histories `fit; fit`, `fit; bootstrap` can be stated.

## 2. Files

`Prelude`-like files hold lists, numbers, graphs; for each area there is a model file
(definitions with citations only), proof files, and a `Props_*.v` file with the property
theorems, each closed by `exact` of a lemma, followed by `Print Assumptions` and by an
`Example` showing that its hypotheses are met by a concrete non-trivial case.
`Spec.v` holds the vocabulary of the statements (permutation, precedence in an order, directed
path, acyclicity, matrix powers, ...) independently of the models.

Where the faithful model violates the English property, the theorem is called `..._refuted`
and gives the witness; next to it stands the strongest positive statement we could prove.

## 3. Plan per property

| id | what is modelled | how it is proved |
|----|------------------|------------------|
| C01 | `fit` search loop with U, K, partial orders; scores are an oracle with NaN; `np.argmax`/`argmin` exact | invariant: K ++ U is a permutation of range(n) |
| C02 | `_estimate_adjacency_matrix`, regression as oracle | row-by-row characterisation of the written entries; a rank function excludes cycles |
| C03 | `_extract_partial_orders`, strong candidate filter, update after each step | invariant on the remaining partial orders; spec in terms of the matrix entries only |
| C04 | the same | progress lemma: an acyclic finite relation has a minimal element; converse from C03 |
| C05 | the same | refuted by a witness (three one-way "no path" entries; the empty graph satisfies them); proved for knowledge whose one-way entries are orderable |
| C06 | the same | 2-cycles and self paths: proved rejected; longer cycles: refuted (generic argmax error instead) |
| C07 | `make_prior_knowledge` assignments in order | case analysis on list membership |
| C08 | composition of C07, C03, C02 | corollary |
| C09 | soft branch of `_search_candidate` | refuted by witness; permutation property proved when it returns |
| C10 | `fit` as a state transformer | state after fit does not depend on the previous state |
| C11 | multi-group `fit` | C01-C03 per group; sum of scores commutes under permutation of groups |
| C12 | `_search_causal_order` (ICA) with row/column deletion and index bookkeeping | refinement to the list of surviving original indices; induction |
| C13 | `_estimate_causal_order` with sorting oracle | induction over the remaining positions; last step has a single off-diagonal entry |
| C14 | the same with n = 1 | refuted |
| C15-C17 | `find_all_paths` with its three stacks, aliasing of the first stack entry included | simulation between stack machine and recursive path enumeration; fuel bound |
| C18 | `calculate_total_effect` | path sums = powers of the matrix, induction along the topological order |
| C19 | the same | refuted (IndexError) |
| C20-C23 | `BootstrapResult` aggregation, argsort as oracle | counting lemmas on lists |
| C24 | `get_paths` with decimal string keys | NoDup of paths (C15), injectivity of decimal printing and joining |
| C25-C26 | `bootstrap` as state transformer | C18 + triangularity; refuted for C26 |
| C27-C29 | `CausalEffect` | as C12; linear algebra by induction along the order; random choice is an oracle list |
| C30-C33 | RCD loops with test oracles | lexicographic measure; invariants |
| C34-C35 | CAMUV loops | the same |
| C36-C37 | RESIT | invariants; C37 refuted |
| C38-C39 | BottomUpParceLiNGAM | invariants; C39 refuted (inf not smaller than inf) |
| C40-C41 | HighDimDirectLiNGAM | invariants; C41 refuted (return inside loop) |
| C42-C46 | VARLiNGAM | matrix algebra, index arithmetic on blocks; C44, C45 refuted with witness |
| C47-C49 | VARMALiNGAM | the same; refuted with witnesses, positive parts proved |
| C50-C51 | LongitudinalLiNGAM | index arithmetic; refuted for n_lags >= 2, proved for n_lags = 1 |
| C52-C54 | simulator | induction along the order |
| C55-C57 | LiM/LiNA | non-negative matrix powers; witness for the tolerance |
| C58 | HSIC | finite sums |
| C59 | tools | pointwise |
| C60-C65 | utilities, OCT, CDG | direct; C60, C63, C64 partly refuted |
| C66 | Estimated graphs contain no directed path excluded by the prior knowledge (`lingam/direct_lingam.py: fit, _search_candidate`) | along the causal order a path excludes the reverse path; witness with a third variable for mutual entries |
| C67 | CausalEffect follows its causal model (`lingam/causal_effect.py: CausalEffect.__init__, _check_init_params`) | histories as lists of operations; induction on the history |
| C68 | MultiGroupRCD reports one total effect per data set (`lingam/multi_group_rcd.py: estimate_total_effect, estimate_total_effect2, bootstrap`) | list lemmas per data set; witness with a confounded source |
| C69 | RCD's ancestor search ends at a fixpoint (`lingam/rcd.py: _extract_ancestors (hu_history)`) | witness of test results; the search itself is characterised in C114 |
| C70 | CAMUV prior knowledge excludes causes (`lingam/camuv.py: _check_prior_knowledge, _get_child`) | witness with an indirect path; the direct edge is excluded by an invariant (C34) |
| C71 | CAMUV returns an acyclic graph (`lingam/camuv.py: _find_parents`) | witness with a 3-cycle; 2-cycles are excluded by an invariant (C35) |
| C72 | BottomUpParceLiNGAM respects prior knowledge (`lingam/bottom_up_parce_lingam.py: fit, _extract_partial_orders, _search_candidate, _search_causal_order, _estimate_adjacency_matrix`) | C03-style invariant on the bottom-up lists, for every outcome of the tests |
| C73 | BottomUpParceLiNGAM tests a sink against all remaining variables (`lingam/bottom_up_parce_lingam.py: _find_exo_vec, _search_candidate`) | witness of test results |
| C74 | A failed BottomUpParceLiNGAM refit leaves no stale result (`lingam/bottom_up_parce_lingam.py: fit, adjacency_matrix_`) | state before and after a fit that raises |
| C75 | Lagged columns never mix the end of a series with its beginning (`lingam/var_lingam.py: estimate_total_effect`) | index arithmetic of np.roll |
| C76 | VARLiNGAM bootstrap series follow the fitted autoregression (`lingam/var_lingam.py: bootstrap`) | induction over the rows of the generated series |
| C77 | VARLiNGAM bootstrap draws from the residuals of the original fit (`lingam/var_lingam.py: bootstrap`) | state transformer of the loop; witness in the second sample |
| C78 | VARLiNGAM bootstrap does not depend on earlier fits (`lingam/var_lingam.py: bootstrap, fit`) | two histories; state equality when coefficients are given |
| C79 | VARLiNGAM pruning uses the lag order of the coefficients (`lingam/var_lingam.py: fit, _pruning`) | case analysis on the number of matrices and lags |
| C80 | VARMALiNGAM residuals satisfy the VARMA equations (`lingam/varma_lingam.py: _calc_residuals`) | unfolding of the recursion, matrix algebra |
| C81 | Longitudinal prior knowledge constrains exactly the stated effects (`lingam/longitudinal_lingam.py: fit`) | pointwise over the blocks of the prior-knowledge matrix |
| C82 | Longitudinal causal orders with prior knowledge are orders of each time point (`lingam/longitudinal_lingam.py: fit`) | sublist of a permutation restricted to one block |
| C83 | Longitudinal estimate_total_effect2 is the total effect of the unrolled model (`lingam/longitudinal_lingam.py: estimate_total_effect2`) | path sums on the unrolled matrix as entries of an inverse |
| C84 | Simulated time series are series (`lingam/causal_based_simulator.py: CBSITimeSeriesLiNGAM, _simulate`) | induction along the order; witness after a change of the errors |
| C85 | changing_exog accepts any array-like of the right length (`lingam/causal_based_simulator.py: _check_changing_exog, _simulate`) | case analysis; witness |
| C86 | run() before train() is reported (`lingam/causal_based_simulator.py: run`) | state without attributes |
| C87 | Shuffling residuals only permutes the rows (`lingam/causal_based_simulator.py: _simulate`) | the models act row by row, so a permutation of rows commutes with them |
| C88 | LiM's global phase returns an optimum (`lingam/lim.py: _estimate_LiM`) | induction on the iterations; witness |
| C89 | LiM's local search only improves (`lingam/lim.py: _estimate_LiM`) | invariant of the accepted matrix in the local search |
| C90 | LiM's global phase ends with a result for every rho_max (`lingam/lim.py: _estimate_LiM`) | fuel bound from the growth of rho |
| C91 | HSIC test ignores the order of the samples (`lingam/hsic.py: hsic_test_gamma, get_kernel_width`) | sums over permuted indices; witness with 101 samples |
| C92 | HSIC test ignores units (`lingam/hsic.py: hsic_test_gamma, get_kernel_width, get_gram_matrix`) | scaling of squared distances and of their median |
| C93 | HSIC test yields a statistic and a p-value (`lingam/hsic.py: hsic_test_gamma`) | case analysis on constant samples and small n |
| C94 | bootstrap_with_imputation returns one matrix per repetition (`lingam/tools/__init__.py: bootstrap_with_imputation, _check_cd_output`) | case analysis on the accepted shapes; witness |
| C95 | bootstrap_with_imputation keeps observed values (`lingam/tools/__init__.py: bootstrap_with_imputation, _check_imputer_outout`) | pointwise; witness |
| C96 | bootstrap_with_imputation works with the default imputer (`lingam/tools/__init__.py: _DefaultMultipleImputation, _check_imputer_outout`) | columns kept by the imputer; witness |
| C97 | calculate_distance_from_root_nodes lists every variable once (`lingam/utils/__init__.py: calculate_distance_from_root_nodes`) | the layers of the repeated removal form a partition |
| C98 | visualize_nonlinear_causal_effect uses every bootstrap matrix (`lingam/utils/_visualize_nonlinear_causal_effect.py: visualize_nonlinear_causal_effect, _calculate`) | fold over the matrices; witness |
| C99 | visualize_nonlinear_causal_effect ignores row labels (`lingam/utils/_visualize_nonlinear_causal_effect.py: visualize_nonlinear_causal_effect, _calculate`) | positions and labels of rows; witness |
| C100 | CausalDataGenerator applies endogenous interventions (`lingam/experimental/cdg.py: generate, _check_data_dict`) | dictionary lookups; witness |
| C101 | CausalDataGenerator intervention semantics (`lingam/experimental/cdg.py: fit, generate`) | one equation per generated column |
| C102 | OutOfSampleCausalTuning reports a missing model (`lingam/experimental/oct.py: _check_configs, _estimate_graph`) | case analysis on configurations; witness |
| C103 | OutOfSampleCausalTuning picks the best score (`lingam/experimental/oct.py: fit`) | argmax with NaN; witness |
| C104 | OutOfSampleCausalTuning Markov blanket sizes (`lingam/experimental/oct.py: _get_mb_sizes, _select_explanatory`) | membership in the Markov blanket, counting |
| C105 | DirectLiNGAM finds a causal order of the generating model (`lingam/direct_lingam.py: fit, _search_causal_order, _search_causal_order_kernel, _residual, _search_candidate`) | population version: residuals of a linear acyclic model with independent errors; the exogenous variable has the extreme score; induction over the order |
| C106 | The estimated adjacency matrix is the generating one (`lingam/base.py: _estimate_adjacency_matrix`) | least squares with a unique solution equals the structural equation |
| C107 | estimate_total_effect returns the true total effect (`lingam/base.py: estimate_total_effect`) | adjustment on parents: normal equations, path sums |
| C108 | DirectLiNGAM end to end (`lingam/direct_lingam.py: fit`) | composition of C105 and C106 |
| C109 | ICALiNGAM recovers the model from an exact unmixing matrix (`lingam/ica_lingam.py: fit, _search_causal_order, _estimate_causal_order`) | permutation matching of the unmixing matrix; triangular form |
| C110 | CAMUV reports exactly the parents its search justifies (`lingam/camuv.py: _find_parents, _get_child, _check_independence_withou_K, _check_identified_causality, _check_correlation`) | derivation rules of `SpecCAMUV.v`, both directions by induction on the search |
| C111 | The HSIC p-value is the gamma approximation (`lingam/hsic.py: hsic_test_gamma, hsic_teststat, get_gram_matrix, get_kernel_width`) | finite sums, centring identities |
| C112 | BottomUpParceLiNGAM places exactly the sinks its tests select (`lingam/bottom_up_parce_lingam.py: fit, _search_causal_order, _find_exo_vec, _is_reject, _fisher_hsic_test, _f_correlation, _search_candidate`) | characterisation of the selected sink and of the stop |
| C113 | BottomUpParceLiNGAM is correct under latent confounding (`lingam/bottom_up_parce_lingam.py: fit, _search_causal_order, _find_exo_vec, _estimate_adjacency_matrix`) | population version with latent confounders: sinks of ancestral graphs |
| C114 | RCD's ancestor search is exact (`lingam/rcd.py:RCD._extract_ancestors`) | derivation rules of `SpecRCD.v`, both directions |
| C115 | Total effects of RCD, bottom-up and multi-group models (`lingam/rcd.py:RCD.estimate_total_effect`) | least-squares normal equations, path sums |
| C116 | Error independence p-values (`lingam/base.py:_BaseLiNGAM.get_error_independence_p_values`) | pointwise, symmetry of the table |
| C117 | Invalid imputation or discovery results are never accepted (`lingam/tools/__init__.py:bootstrap_with_imputation`) | case analysis on the returned shapes |
| C118 | Invalid arguments are rejected with the documented exception (`lingam/utils/__init__.py:calculate_distance_from_root_nodes`) | decision procedures of the argument checks |
| C119 | HighDimDirectLiNGAM places, in each round, the first variable whose largest statistic is smallest (`lingam/high_dim_direct_lingam.py:HighDimDirectLiNGAM.fit`) | argmin over the statistics; induction over rounds |
| C120 | Longitudinal bootstrap: direction counts per time point (`lingam/longitudinal_lingam.py:LongitudinalBootstrapResult.get_causal_direction_counts`) | counting lemmas on lists |
| C121 | Longitudinal bootstrap: graph counts per time point (`lingam/longitudinal_lingam.py:LongitudinalBootstrapResult.get_directed_acyclic_graph_counts`) | counting lemmas; graph equality by printed keys |
| C122 | Longitudinal bootstrap: probabilities and total effects (`lingam/longitudinal_lingam.py:LongitudinalBootstrapResult.get_probabilities`) | counting lemmas, sorting; witness |
| C123 | Longitudinal bootstrap: paths through the unrolled graph (`lingam/longitudinal_lingam.py:LongitudinalBootstrapResult.get_paths`) | C15/C24 on the unrolled matrix |
| C124 | Longitudinal total effect by regression adjusts for the parents (`lingam/longitudinal_lingam.py:LongitudinalLiNGAM.estimate_total_effect`) | index arithmetic of the adjustment columns; witness |
| C125 | Longitudinal error p-values are available for every fitted model (`lingam/longitudinal_lingam.py:LongitudinalLiNGAM.get_error_independence_p_values`) | state after the two kinds of fit |
| C126 | make_dot draws exactly the significant edges (`lingam/utils/__init__.py:make_dot`) | the edge list as a filter of the matrix entries; witness |
| C127 | make_dot accepts valid arguments and rejects invalid ones (`lingam/utils/__init__.py:make_dot`) | argument checks by cases; witnesses |
| C128 | make_dot_highlight places every node by its distance from the target (`lingam/utils/__init__.py:make_dot_highlight`) | distance layers by induction; witnesses |
| C129 | Printed bootstrap tables show every row with its names, sign and percentage (`lingam/utils/__init__.py:print_causal_directions`) | lines of text as functions of the rows |
| C130 | remove_effect leaves residuals that are uncorrelated with the removed features (`lingam/utils/__init__.py:remove_effect`) | orthogonality of least squares, idempotence |
| C131 | The adaptive lasso selects predictors and refits them by least squares (`lingam/utils/__init__.py:predict_adaptive_lasso`) | selected columns, unique solution of the normal equations |
| C132 | evaluate_model_fit describes exactly the given model (`lingam/utils/__init__.py:evaluate_model_fit`) | text of the model: terms correspond to entries; distinct names of latent variables |
| C133 | MultiGroupCAMUV always returns a well-formed result (`lingam/multi_group_camuv.py:MultiGroupCAMUV`) | corollaries of the CAMUV theorems for the combined tests |
| C134 | MultiGroupCAMUV uses every data set and ignores their order (`lingam/multi_group_camuv.py:MultiGroupCAMUV._is_independent_by`) | folds over the data sets are permutation invariant; Fisher's statistic as a sum |
| C135 | LiNA returns a thresholded weight matrix; when it is acyclic (`lingam/lina.py:LiNA`) | fuel bound; monotonicity of h; safe tolerance |
| C136 | LiNA recovers the factor scores of data generated from its loadings (`lingam/lina.py:LiNA.fit`) | matrix algebra of the pseudo-inverse |
| C137 | MD-LiNA alternates until the likelihood settles and relabels the factors consistently (`lingam/lina.py:MDLiNA`) | greedy matching is a bijection: invariant with the rows and columns left; first settled round by induction |
| C138 | MD-LiNA's factor matrix comes from the last minimisation (`lingam/lina.py:MDLiNA._estimate_MDLiNA_H`) | induction on the restarts |
| C139 | MultiGroupDirectLiNGAM is correct on model data (`lingam/multi_group_direct_lingam.py:fit`) | loop invariant "the remaining columns of every group obey the equations restricted to the remaining variables"; the weighted score is 0 exactly for variables without parents in any group |
| C140 | VARLiNGAM is correct on series from a structural autoregression (`lingam/var_lingam.py:fit`) | normal equations give (I-B0)M_k = B_k; the residuals obey the instantaneous model, so C105/C106 apply; for pruning, a difference of coefficients of zero variance vanishes by taking covariances with the errors from the last ancestor backwards |
| C141 | LongitudinalLiNGAM is correct on panels from a linear model at every time (`lingam/longitudinal_lingam.py:fit`) | normal equations over the subjects: a combination of past columns uncorrelated with all of them has zero variance, hence is constant, hence trivial; the residuals obey the instantaneous model, so C105/C106 apply |
| C142 | RCD recovers the model when no variable is hidden (`lingam/rcd.py:fit`) | the residuals given the ancestors of j have the loads of e_j, so an unchanged pass over pairs has found all ancestors (induction along the graph); a triple with a wrong unique sink would have a second sink; parents by uniqueness of the least-squares residual |
| C143 | The ancestors found by RCD are true ancestors even when there are hidden variables (`lingam/rcd.py:_extract_ancestors`) | positive part by the loads of the residuals; refutations by computing the search on Hadamard data with an explicit least-squares solver proved correct |
| C144 | BottomUpParceLiNGAM never contradicts the truth when there are hidden variables (`lingam/bottom_up_parce_lingam.py:fit`) | an accepted residual shares no error with the other remaining variables; if the accepted variable caused one of them, the loads of the residual on all remaining errors would vanish and the remaining variables would be linearly dependent (induction along a topological order); the last variables of the block have an independent residual unless a direct cause is hidden; instantiates the search theorems of C112 |
| C145 | BottomUpParceLiNGAM recovers the model when no variable is hidden (`lingam/bottom_up_parce_lingam.py:fit`) | from C144: the last variable of a block would have a hidden direct cause, and there is none |
| C146 | LiNA hands its optimiser the gradient of its objective (`lingam/lina.py:_loss`) | a separable loss of a linear predictor has gradient X^T phi'; derivative of the trace of a matrix power by induction with a commuting factor; chain rule through the doubled variables |
| C147 | LiM hands its optimiser the gradient of its objective (`lingam/lim.py:_loss`) | true gradients by the same lemmas, compared entry by entry with what is returned; uniqueness of gradients; a positive derivative makes the loss rise |
| C148 | The losses of LiM are average negative log-likelihoods (`lingam/lim.py:_loss`) | log of the densities; on binary data each summand is nonnegative and one grows linearly in the weight of a single edge |
| C149 | MD-LiNA accepts the losses of LiNA and follows the gradient when it maps domains (`lingam/lina.py:_estimate_MDLiNA_H`) | the loss does not change when H is scaled, so the derivative along H is zero; the returned matrix has a positive inner product with H (five trace identities) |
| C150 | The HSIC statistic is a squared norm (`lingam/hsic.py:get_gram_matrix`) | hsic.py 47-98 with the true exponential over R: exp(a x_i x_j) is expanded in its power series, every term is a semidefinite form of the weights times powers of x, so Schur multiplication column by column preserves semidefiniteness; the form of the centred matrix is the form of the centred weights; Cauchy-Schwarz on matrix entries |
| C151 | The HSIC statistic is zero exactly on independent samples (`lingam/hsic.py:hsic_teststat`) | if the statistic vanishes, every term of the series does; taking linear combinations of powers, the centred form vanishes on the indicator of any row, and once more on the other sample, which gives n n_ab = n_a n_b; conversely sums over independent samples factor |
| C152 | The moments behind the HSIC p-value are those of a distribution on the positive numbers (`lingam/hsic.py:hsic_test_gamma`) | entries of the kernel lie in (0, 1] and equal 1 only for equal rows; sums of nonnegative terms vanish only if every term does |
| C153 | The incomplete Cholesky factor approximates the Gaussian gram matrix from below (`lingam/utils/_f_correlation.py:_incomplete_cholesky`) | _f_correlation.py 91-128 as a loop with fuel n+1: the invariant says that the Schur complement of the processed columns is semidefinite and vanishes on them, and that Gjj is its diagonal; a pivot above zero exists while the trace exceeds tol >= 0, so n rounds suffice; entries are bounded by Cauchy-Schwarz for semidefinite forms; a second invariant carries the greedy choice |
| C154 | The F-correlation is a regularised canonical correlation in [0, 1) (`lingam/utils/_f_correlation.py:f_correlation`) | the smallest eigenvalue of a symmetric matrix is the minimum of its form on the unit sphere (Schur complements and completeness of R, no compactness); R_kappa = I + off-diagonal block, so its spectrum is symmetric around 1 and the smallest eigenvalue is 1 minus the largest singular value of R2 U2^T U1 R1, attained and turned into vectors a, b by the inverse of the regularised forms; truncation of eigenvalues and the Cholesky error add up in the order of forms |
| C155 | The F-correlation is symmetric and does not depend on units (`lingam/utils/_f_correlation.py:f_correlation`) | the witness matrices depend on one sample only, the characterisation is symmetric in them and determines the value; squared distances do not change under reflection and standardisation absorbs the rest; existence of eigh / eigsh by deflation, argsort by insertion |
| C156 | LiM scores graphs variable by variable (`lingam/lim.py:_bic_scoring`) | lim.py 147-242 as a fold over the nodes with None for non-finite scores; samples are grouped by value (sum over samples = sum over distinct values of count times term), then ln z <= z - 1 gives Gibbs' inequality |
| C157 | The score of a continuous variable is a Laplace log-likelihood up to a constant (`lingam/utils/__init__.py:likelihood_i`) | utils 860-933: the identity of logarithms, improper integral by an explicit antiderivative glued at 0 and its limits, uniqueness of the integral by the mean value theorem; 2 < exp(0.7) by (1 + 0.7/64)^64 |
| C158 | More parents fit a continuous variable at least as well (`lingam/lim.py:_bic_scoring`) | refuted by x = (1,-1,1,-1), y = (1,-1,0,0), where least squares halves the variance but makes all residuals equal in size; what holds instead is proved for equal variances and for equal standardised sizes |
| C159 | The score of a count variable is the log-likelihood of its Poisson regression on the parents (`lingam/lim.py:_bic_scoring`) | the loop of lim.py 200-215 overwrites its variable: fold_left keeps the last round; each round is minus the sum of ln pmf; lambda^k/k! < exp lambda from the series makes it positive |
| C160 | The causal order does not depend on the units of the variables (`lingam/direct_lingam.py:DirectLiNGAM.fit`) | columns related by an affine map (and a choice of rows) stay so under residuals; standardised columns agree up to sign, so scores are equal; parametricity of the loop |
| C161 | The causal order does not depend on the order of the samples (`lingam/direct_lingam.py:DirectLiNGAM.fit`) | the same relation with a measure-preserving choice of rows |
| C162 | Connection strengths change with the units of the variables as they should (`lingam/direct_lingam.py:DirectLiNGAM.fit`) | uniqueness of least squares by the midpoint argument; the sign equivariance of LARS gives equal masks; induction over the causal order |
| C163 | The names of the variables do not matter (`lingam/direct_lingam.py:DirectLiNGAM.fit`) | the score is a sum over the other variables, invariant under permutations; the maximum is unique by assumption |
| C164 | For two variables one comparison decides the causal direction (`lingam/direct_lingam.py:_diff_mutual_info`) | computation of the two scores |
| C165 | Constant or collinear columns silently determine the causal order (`lingam/direct_lingam.py:DirectLiNGAM.fit`) | a standardised residual has zero variance exactly for affinely related columns; degenerate columns stay degenerate when regressed |
| C166 | On an exact sample HighDimDirectLiNGAM finds the first two variables (`lingam/high_dim_direct_lingam.py:HighDimDirectLiNGAM.fit`) | uniqueness of residuals reduces the solver to the specification; independence makes the statistic of a source zero; the first two rounds have no stale conditioning sets |
| C167 | On an exact sample HighDimDirectLiNGAM finds a causal order (`lingam/high_dim_direct_lingam.py:HighDimDirectLiNGAM.fit`) | counterexample with 16 rows checked by computation; for the repaired loop an invariant: placed variables are closed under causes and a statistic becomes zero as soon as all causes are regressed out |
| C168 | Expressing all variables in another common unit does not change the order of HighDimDirectLiNGAM (`lingam/high_dim_direct_lingam.py:HighDimDirectLiNGAM.fit`) | statistics are homogeneous of degree K+2; a loop on equal statistics keeps the column order; proportional statistics below the cap give the same minima |
| C169 | The unit and the origin of a variable do not change the order of HighDimDirectLiNGAM (`lingam/high_dim_direct_lingam.py:HighDimDirectLiNGAM.fit`) | the loop for two columns in closed form; homogeneity in each column; an exact sample in other units is an exact sample of the rescaled model |
| C170 | Every accepted degree K makes HighDimDirectLiNGAM use the data (`lingam/high_dim_direct_lingam.py:HighDimDirectLiNGAM.__init__`) | the two terms of the statistic coincide; a pair of columns computed for all K |
| C171 | The order of HighDimDirectLiNGAM does not depend on the order of the rows or on the solver (`lingam/high_dim_direct_lingam.py:HighDimDirectLiNGAM.fit`) | averages determine the statistics, residuals are unique; induction over the rounds |
| C172 | The order found by ICALiNGAM does not depend on the units of the variables (`lingam/ica_lingam.py:ICALiNGAM.fit`) | units in geometric progression make the entries against any given order the smallest ones; the search then returns that order |
| C173 | The signs and the order of the independent components do not matter to ICALiNGAM (`lingam/ica_lingam.py:ICALiNGAM.fit`) | the assignment cost is a sum over a permuted index set; signs cancel in the quotient |
| C174 | RCD gives the same result in all units and for all orders of the rows (`lingam/rcd.py:RCD.fit`) | residuals of two least squares fits differ by a combination of the regressors uncorrelated with all of them, hence by a constant; the search is the same for the same answers |
| C175 | The quantity MLHSICR minimises is a number and does not depend on units or signs (`lingam/rcd.py:RCD._get_resid_and_coef_by_MLHSICR`) | the median of the squared distances scales; a coefficient that makes the combined width zero |
| C176 | BottomUpParceLiNGAM gives the same result in all units and for all orders of the rows (`lingam/bottom_up_parce_lingam.py:BottomUpParceLiNGAM.fit`) | as C174; the matrices are related entry by entry along the loops |
| C177 | The kernel measure of DirectLiNGAM is zero exactly for independent samples (`lingam/direct_lingam.py:DirectLiNGAM._mutual_information`) | log determinants by Schur complements are strictly monotone, which gives Fischer's inequality with its case of equality; the counterexample by interval arithmetic computed and proved in Coq |
| C178 | The default measure of DirectLiNGAM finds the order when the noise is exactly independent (`lingam/direct_lingam.py:DirectLiNGAM._entropy`) | bounds of ln cosh by the same interval arithmetic; for two values the inequality cosh(sqrt 2) <= cosh s cosh t <= cosh(1)^2 for s^2+t^2=2 from the power series |
| C179 | RESIT finds a causal order of an additive noise model (`lingam/resit.py:RESIT.fit`) | independence in a sample satisfies Fubini's rule, hence blocks of independent noises are independent; conditional means are unique on the sample, so the residual of a sink is its noise; invariant of the order loop |
| C180 | RESIT reports exactly the direct causes (`lingam/resit.py:RESIT.fit`) | the pruning loop with tests that all accept leaves the last parent; independence of blocks shows that they all accept |
| C181 | OutOfSampleCausalTuning prefers configurations that predict better (`lingam/experimental/oct.py:OutOfSampleCausalTuning._calc_mutual_info`) | algebra of sums: mean of the training rows is affine in the mean of the fold; Cauchy-Schwarz with its equality case; induction on the list of scores for np.argmax |
| C182 | num_explanatory_vals of CAMUV is the maximum number of explanatory variables (`lingam/camuv.py:CAMUV.__init__`) | equality of two loops under the invariant that the size is at least 2; the star theorem of C183 on eight rows |
| C183 | CAMUV reports exactly the direct causes when no variable is hidden (`lingam/camuv.py:CAMUV.fit`) | best additive predictions are unique on the sample, so the residual of the effect is the sum of the contributions left out plus noise; exactness of the search (C110) and of the pruning; for the triangle explicit conditional means on eight rows and dependence witnesses; existence of an exact additive regressor by Gram-Schmidt over indicators |
| C184 | MultiGroupDirectLiNGAM follows its data sets when they agree (`lingam/multi_group_direct_lingam.py:MultiGroupDirectLiNGAM.fit`) | the score of a union is a convex combination of the scores; the first best entry of a list characterises np.argmax with NaN; induction on the loop |
| C185 | The joint order does not depend on the order of the data sets or on their units (`lingam/multi_group_direct_lingam.py:MultiGroupDirectLiNGAM.fit`) | weighted sums are invariant under permutations; the relation of C160 between the columns is preserved in every data set |
| C186 | VARLiNGAM does not depend on the units and origins of the variables (`lingam/var_lingam.py:VARLiNGAM.fit`) | uniqueness of least squares without constant term under linear independence, shown by halving; the residuals change by the units, so C162 applies; the pruning regressions by the lemma behind C162; the level counterexample by completing the square |
| C187 | VARMALiNGAM's residuals for given coefficients are the innovations of the series (`lingam/varma_lingam.py:VARMALiNGAM.fit`) | strong induction along the series on the difference between residuals and innovations |
| C188 | LiM's result cannot be improved by changing one edge (`lingam/lim.py:LiM.fit`) | links are followed through the stages described by C89_stages; the concrete run is computed |
| C189 | Estimates of CausalEffect do not depend on units (`lingam/causal_effect.py:CausalEffect.estimate_effects_on_prediction`) | do-equations rescaled and solved uniquely (C28), intervention compared through the specification C29; two computed counterexamples (Props_EffectUnits) |
| C190 | The simulator works for every table with distinct column labels (`lingam/causal_based_simulator.py:CBSILiNGAM._make_var_names`) | the program on names (ModelSimNames) refines the program on positions (ModelSim) by induction over the loop; the suffixes are recovered from the part after the last bracket; three computed counterexamples (Props_SimNames) |
| C191 | is_discrete marks the variables it names, at every lag (`lingam/causal_based_simulator.py:CBSILiNGAM._make_var_names`) | masks and repeated masks read off by induction; array flags characterised exactly (Props_SimNames) |
| C192 | MultiGroupRCD recovers the common graph and each group's coefficients (`lingam/multi_group_rcd.py:MultiGroupRCD.fit`) | the search proof of C142 restated over abstract test answers (ProofRCDPop3 Section From); pairs decided in the group where the variables are correlated, second sinks of triples shown in every group (ProofMGRCD); computed counterexample for fcorr (Props_MGRCD) |
| C193 | LongitudinalLiNGAM in other units and origins at every time point (`lingam/longitudinal_lingam.py:LongitudinalLiNGAM.fit`) | uniqueness of least squares with intercept in other units (ProofDirectR3) for the lagged regression, then C162 for the residuals (ProofLongR) |
| C194 | MultiGroupCAMUV finds the direct causes several data sets show together (`lingam/multi_group_camuv.py:MultiGroupCAMUV.fit`) | the search proof of C183 (star_found) over the joint decisions; Fisher's method shown to join decisive tests (ProofMGCamData); two data sets that each show one of two causes (Props_MGCamData) |
| C195 | OutOfSampleCausalTuning's sparsity penalty prefers sparser configurations that predict as well (`lingam/experimental/oct.py:OutOfSampleCausalTuning._sparsity_penalty`) | case analysis on float differences; trials counted against those with the draws exchanged, NaN excluded because shuffling keeps variances (Props_OctSp) |
| C196 | CausalEffect reports changes of the expected prediction for every kind of prediction model (`lingam/causal_effect.py:CausalEffect._predict`) | the model's prediction function computed for every kind of model, then algebra of absolute values (Props_Predict) |
| C197 | VARMALiNGAM chooses the order with the best criterion, for every data set it is fitted to (`lingam/varma_lingam.py:VARMALiNGAM.fit`) | invariant of the search loop over the list of orders, which is shown to be in lexicographic order; case analysis of fit on the state of the object (ProofVarma, Props_VarmaObj) |
| C198 | VARMALiNGAM's bootstrap resamples the fitted model (`lingam/varma_lingam.py:VARMALiNGAM.bootstrap`) | induction over the samples with the object's state as the invariant; the resampled series by induction over time (Props_VarmaObj) |
| C199 | VARMALiNGAM's pruning keeps the causal order and puts each coefficient at its lag (`lingam/varma_lingam.py:VARMALiNGAM._pruning`) | invariant of the loop over the targets: only the target's own iteration writes its row; arithmetic of the column numbers (Props_VarmaObj) |
| C200 | VARLiNGAM.estimate_total_effect reports the effect of the source at its lag (`lingam/var_lingam.py:VARLiNGAM.estimate_total_effect`) | normal equations of the regression give the coefficient of the first column as the effect of its unexplained part (ProofTsEffect); the columns are identified by division with remainder; the refutation by computing with four rows (Props_TsEffect) |
| C201 | VARMALiNGAM.estimate_total_effect reports the effect of the source at its lag (`lingam/varma_lingam.py:VARMALiNGAM.estimate_total_effect`) | as C200, with the columns of the errors; the lag is shown to enter only through the test lag = 0 (Props_TsEffect) |
| C202 | Changing the coefficients of a simulated variable changes nothing else about it (`lingam/causal_based_simulator.py:CausalBasedSimulator.run`) | the residual of a linear model in closed form; parents are not effects of the variable, so they keep their data by C53; the refutation holds for every nonzero intercept (Props_SimCheck) |
| C203 | The simulator accepts exactly the documented models, errors and changes, and names the first fault (`lingam/causal_based_simulator.py:CausalBasedSimulator._check_model_instance`) | case analysis of one entry, induction over the entries in order (Props_SimCheck) |
| C204 | The simulator keeps its last successful training (`lingam/causal_based_simulator.py:CausalBasedSimulator.train`) | unfolding of one call; acceptance by the exactness of the order search (C52) (Props_SimCheck) |
| C205 | MultiGroupRCD with hidden variables records only true ancestors (`lingam/multi_group_rcd.py:MultiGroupRCD.fit`) | with one explanatory variable the residual argument needs only the pair, so the covariance identities of C34 hold with the hidden variables as noise; the counterexample is computed (Props_MGRCDHid) |
| C206 | RESIT does not depend on the units in which the variables are measured (`lingam/resit.py:RESIT.fit`) | distances of a block scale with the square of the unit, the median and the width with it, so every kernel matrix is unchanged; the counterexample with four integer rows is bounded by verified interval arithmetic (ProofResitR, ProofResitI, Props_ResitR) |
| C207 | CAMUV and MultiGroupCAMUV with independence='fcorr' accept every documented num_explanatory_vals (`lingam/camuv.py:CAMUV._get_child`) | the shapes of the distance arrays decide whether the assignment raises; induction over the search shows that sets of three or more variables either raise or change nothing (ModelCamFcorr, ProofCamFcorr, Props_CamFcorr) |
| C208 | CAMUV and MultiGroupCAMUV with the HSIC test do not depend on units (`lingam/camuv.py:CAMUV.fit`) | every residual is rescaled by the unit of its variable, kernel widths scale with it and the HSIC p-values stay; the search of at most two explanatory variables uses single columns only (ModelCamHsic, fit_singles in ProofCamFcorr, Props_CamHsic) |
| C209 | DirectLiNGAM gives the same order for whole numbers stored as integers and as floats (`lingam/direct_lingam.py:DirectLiNGAM.fit`) | the loop of ModelDirectR with a store that cuts off decimals; a column of residuals below 1 becomes constant, all later scores are NaN and the columns come in their order; the counterexample reduces its three comparisons to ex_dmi by changes of rows and units, symmetry and zero correlation (ModelDirectInt, ProofDirectInt, Props_DirectInt) |
| C210 | remove_effect removes the effects from tables of whole numbers too (`lingam/utils/__init__.py:remove_effect`) | the fold over the remaining features as in C130, with the assignment cutting off decimals; the cut-off is characterised by quotient and remainder; in the counterexample the regression is determined by its normal equations (ModelUtilInt, Props_UtilInt) |
| C211 | RESIT's bootstrap and its total effects (`lingam/resit.py:RESIT.estimate_total_effect`) | ModelResitBoot instantiates the generic bootstrap with RESIT.fit; the recorded effect is the entry of the inverse of I-B (C25), equal to the sum over all paths (C15, C18) of products of ones. The positive effects follow from C37 by induction along the order. |
| C212 | RCD gives the same result for whole numbers stored as integers and as floats (`lingam/rcd.py:RCD._get_residual_matrix`) | ModelRCDInt cuts off the stored residuals; two searches whose tests agree on all conditioning sets below the final ancestor sets give the same result (induction over visits, passes and the loop, ProofRCDInt); the counterexample is computed with a Gram-Schmidt regression and ideal tests. |
| C213 | VARMALiNGAM recovers the structural matrices of a series that follows its model (`lingam/varma_lingam.py:VARMALiNGAM.fit`) | A structural series satisfies the reduced equations because (I - Psi_0) has no kernel (Neumann series of an acyclic matrix); the residuals are then the innovations (C187), which follow the instantaneous model, so DirectLiNGAM is correct on them (C108); the matrices by associativity. Spec in SpecVarmaPop. |
| C214 | CAM-UV gives the same graph for whole numbers stored as integers and stored as floats (`lingam/camuv.py:CAMUV._get_residuals_matrix`) | ModelCamInt stores the residuals cut off; two parent searches whose tests agree on the sets they can meet give the same result (fit_agree in ProofCamInt, by induction over the passes of the loop); the counterexample by following the search on eight rows with explicit additive regressions (additive_mean_unique). |
| C215 | For two variables CAM-UV reports a hidden cause exactly when no additive noise model explains the dependence (`lingam/camuv.py:CAMUV.fit`) | The search visits the only pair once; which direction wins follows from the two p-values (best_of_two), the loop by an invariant; an exact additive regression on one variable leaves independent residuals exactly when an additive noise model exists (additive_fit). |
| C216 | VARLiNGAM uses the lag with the best information criterion (`lingam/var_lingam.py:VARLiNGAM._estimate_var_coefs`) | ModelVarState has the lag search with estimates that may raise; induction over the lags tried. |
| C217 | A VARLiNGAM call that fails leaves the settings of the object unchanged (`lingam/var_lingam.py:VARLiNGAM.fit`) | ModelVarState returns the object every call leaves behind; case analysis of fit, induction over the repetitions of the bootstrap. |
| C218 | calc_vif gives the variance inflation factors (`lingam/lina.py:MDLiNA.calc_vif`) | The regression without intercept satisfies the normal equations with intercept zero when the means are zero or the constant is spanned; the sum of squared errors is the same for all solutions of the normal equations; a four-row table refutes the general statement |
| C219 | The causal order and the matrix of an object belong together (`lingam/base.py:_BaseLiNGAM._estimate_adjacency_matrix`) | Loop invariant of the estimation (entries respect the order) with a lasso that may raise; induction on the sequence of calls gives which call each attribute stems from; two calls that contradict each other as a witness |
| C220 | A multi-group model answers for every data set (`lingam/multi_group_direct_lingam.py:MultiGroupDirectLiNGAM.fit`) | Induction on the list of data sets for the matrices stored before an exception and for the pairing of data sets with matrices |
| C221 | CausalDataGenerator returns its data whatever its estimators are used for (`lingam/experimental/cdg.py:CausalDataGenerator.fit`) | Estimators as objects in a store; invariant over later calls that the two trained models and the generator are untouched; the shared object is retrained on one more column |
| C222 | A CausalEffect object answers for the model it was given (`lingam/causal_effect.py:CausalEffect.__init__`) | The object as a state machine over queries and changes by the caller; the memory filled by the first query is invariant; three-variable witness for the aliased array |
| C223 | OutOfSampleCausalTuning rejects unusable configurations before it evaluates any (`lingam/experimental/oct.py:OutOfSampleCausalTuning._check_configs`) | induction over the items of a dict and over the list of configurations: either all are as documented, or there is a first fault whose exception is raised; the fit is followed up to the first configuration without model |
| C224 | OutOfSampleCausalTuning answers for the last list of configurations (`lingam/experimental/oct.py:OutOfSampleCausalTuning.fit`) | case analysis of fit with the object it leaves behind; induction over a history of failed calls |
| C225 | CausalDataGenerator generates what its models allow, and returns its data (`lingam/experimental/cdg.py:CausalDataGenerator.fit`) | case analysis of generate with the random generator as a counter and draws as a function with a contract; residuals and predictions cancel row by row |
| C226 | An exogenous intervention of CausalDataGenerator replaces the error of its variable (`lingam/experimental/cdg.py:CausalDataGenerator.fit`) | the columns the models see are compared for two interventions; the residuals of a categorical variable are computed in fit |
| C227 | An intervention of CausalDataGenerator that changes nothing changes nothing (`lingam/experimental/cdg.py:CausalDataGenerator.fit`) | the state of the random generator after generating the cause is followed; concrete witness for categorical variables |
| C228 | CausalDataGenerator uses a given estimator or rejects it before training (`lingam/experimental/cdg.py:CausalDataGenerator.fit`) | all kinds of estimators by cases; fit with another training function gives the same exception |
| C229 | visualize_nonlinear_causal_effect draws the percentiles of the effects at every position (`lingam/utils/_visualize_nonlinear_causal_effect.py:visualize_nonlinear_causal_effect`) | invariant of the collecting loops: the values of a class and position; the keys of a dictionary are the positions exactly if those are distinct |
| C230 | Every bootstrap run counts in visualize_nonlinear_causal_effect (`lingam/utils/_visualize_nonlinear_causal_effect.py:visualize_nonlinear_causal_effect`) | the same invariant, for a run without the class |
| C231 | visualize_nonlinear_causal_effect accepts the arguments it documents (`lingam/utils/_visualize_nonlinear_causal_effect.py:visualize_nonlinear_causal_effect`) | all kinds of arguments by cases |
| C232 | A failed call leaves a VARMALiNGAM object with its settings (`lingam/varma_lingam.py:VARMALiNGAM.fit`) | the object after every call as an explicit state; the criterion is followed through the loop; C197 and C198 for the fits |
| C233 | A LongitudinalLiNGAM object answers for its last successful fit (`lingam/longitudinal_lingam.py:LongitudinalLiNGAM.fit`) | the object after every call as an explicit state with the remembered shape; all cases of the checks and of the estimation |
| C234 | A fitted HighDimDirectLiNGAM answers queries whatever estimate_adj_mat is (`lingam/high_dim_direct_lingam.py:HighDimDirectLiNGAM.fit`) | the object with and without a matrix; C40 for the order; all variables occur in the order |
| C235 | RCD.bootstrap completes whenever its fits do, and stores the total effects (`lingam/rcd.py:RCD.bootstrap`) | invariant of the loop over resamples and of the stores; total_effect_spec for the value; an explicit run with a circle of three |
| C236 | The queries of MultiGroupRCD answer for every data set they are given (`lingam/multi_group_rcd.py:MultiGroupRCD.estimate_total_effect`) | induction on both lists of the zip; p_values_spec for one data set |
| C237 | BottomUpParceLiNGAM.bootstrap records the total effects its own query reports (`lingam/bottom_up_parce_lingam.py:BottomUpParceLiNGAM.bootstrap`) | C38 gives the shape of order and matrix; the pairs visited by the loops are the pairs in order; C115 and total_effect_spec for the values |
| C238 | bootstrap_with_imputation works with its defaults for every accepted n_repeats (`lingam/tools/__init__.py:bootstrap_with_imputation`) | C96 for the imputer, C11 (mg_fit_spec) for the discovery model, C59 for the check of its order; induction on the bootstrap samples |
| C239 | MultiGroupRCD.bootstrap completes whenever the fits of its resamples do (`lingam/multi_group_rcd.py:MultiGroupRCD.bootstrap`) | as C235 with a list of matrices; induction on the list for the early return at a NaN |

No property of the list is considered inexpressible; for all of them the numerical
libraries (numpy, scipy, scikit-learn, statsmodels) stay outside as oracles.

## 4. Trusted base

* Coq's kernel (8.16.1), including `vm_compute`, which is used in examples and witnesses.
* Assumptions: `Print Assumptions` stands under every property theorem.  For all theorems about the rational models it
  prints "Closed under the global context".  The theorems about real functions (`Props_Loss.v`, C146-C149, and every
  later file that imports `LibR.v`) use the real numbers of the standard library and list at most its four axioms
  `ClassicalDedekindReals.sig_forall_dec`, `ClassicalDedekindReals.sig_not_dec`,
  `FunctionalExtensionality.functional_extensionality_dep` and `Classical_Prop.classic`; the examples of `Props_Fcorr.v` that construct
  eigenvalue routines also list `ClassicalEpsilon.constructive_indefinite_description`.  No other axiom is used, none of
  our own and none of another library; only the standard library is imported.
* The reading of the code: the model is tied to `/repo` by the citation on each definition, not by execution.
* The mutation tests of `seeded/LOG.jsonl` check that the theorems constrain the model.

## 5. What is modelled and what is not

"Parameter" means: an arbitrary function in the model; the theorems hold for all of them, or for all that satisfy a
hypothesis written in the theorem (for example: returns a least-squares solution, returns a sorted permutation).

| file | modelled | parameters | not modelled |
|------|----------|------------|--------------|
| `base.py` | all of `_BaseLiNGAM` (ModelDirect, ModelTotal, ModelQuery, ModelBootstrap; objects after failed calls in ModelBaseState) | regression, HSIC in the p-values | the loop of `estimate_total_effect` warns on stderr: warnings |
| `direct_lingam.py` | `fit`, order search with prior knowledge (hard and soft), `_residual`, kernel score, pairwise score with its sums (ModelDirect, ModelTotal, ModelPop); on data over the reals with `_entropy`, `_diff_mutual_info`, `_mutual_information` and the adaptive lasso (ModelDirectR); on integer tables, with the loss of decimals (ModelDirectInt); both measures on exactly independent samples (SpecKernelMI, with a contract for the singular values in SpecLogdet; numerical bounds from interval arithmetic proved in ProofInterval) | in ModelDirect the scores; in ModelDirectR the log singular values, LinearRegression and LassoLarsIC | the GPU branch |
| `ica_lingam.py` | `fit` after ICA, order search, permutation matching (ModelOrder) | FastICA, the assignment solver, argsort | |
| `multi_group_direct_lingam.py` | all except printing (ModelDirect, ModelMGPop, ModelQuery, ModelChecks); on data over the reals (ModelMultiDirectR); after failed calls (ModelBaseState) | regression; scores in ModelDirect | |
| `bootstrap.py` | all of `BootstrapResult` and `BootstrapMixin` (ModelBootstrap) | argsort, resampling | |
| `causal_effect.py` | order check, effect on prediction, intervention with linear and logistic weights (ModelEffect, ModelOrder), `_predict` (ModelPredict); the object over time (ModelCeState) | the prediction functions | |
| `rcd.py`, `utils/_rcd.py` | ancestor search, parents, confounder pairs, matrix, total effects, bootstrap effects (ModelRCD, ModelQuery); residual matrices and the tests as functions of the data (ModelRCDPop), on integer tables (ModelRCDInt); the objective of MLHSICR over the reals (ModelMlHsic); bootstrap with its exceptions (ModelRcdBoot) | correlation, normality and independence tests on residuals; the minimiser of MLHSICR | the optimiser of MLHSICR |
| `multi_group_rcd.py` | combination of tests over groups, total effects (ModelRCD); fit on a list of data sets with Fisher's method (ModelMGRCD); queries on any list of data sets (ModelMGRcdQuery); bootstrap with its exceptions (ModelMGRcdBoot) | the p-values of the single tests, the regressions, L-BFGS, log and chi-square | as for `rcd.py` |
| `camuv.py`, `multi_group_camuv.py` | neighbourhoods, parent search, pruning, NaN pairs, prior knowledge, combined tests (ModelCAMUV, ModelMGCamuv); `_get_residual` and the tests on data (ModelCamData, ModelMGCamData); shapes of the blocks given to the F-correlation and the search when a test raises (ModelCamFcorr); the fit with the HSIC test computed (ModelCamHsic); CAM-UV on integer tables (ModelCamInt) | the additive regression (contract `exact_gam` in SpecCam, shown to be satisfiable), the p-values of the independence tests (contracts `exact_p_value`, `decisive_p_value`) | the GAM regression |
| `resit.py` | order and pruning (ModelResit); on data with residuals and tests (ModelResitData); with the HSIC test computed (ModelResitR); bootstrap and total effects (ModelResitBoot) | regressor, HSIC (as functions with contracts in SpecResit) | |
| `bottom_up_parce_lingam.py` | all of the search, the Fisher combination, F-correlation branch, matrix, total effects (ModelParce, ModelQuery); centring and residuals of the data (ModelParcePop); bootstrap (ModelParceBoot) | HSIC, regression | |
| `high_dim_direct_lingam.py` | rounds, pruning statistics, matrix, adaptive lasso wrapper (ModelHighDim, ModelUtil); moments and residuals on data (ModelHighDimData); the object and its queries (ModelHdQuery) | solver of the normal equations (any exact one), set iteration order | |
| `var_lingam.py` | residuals, lagged matrices, pruning, fit, bootstrap, total effects, paths, p-values (ModelVAR, ModelVarPop, ModelQuery); fit on data over the reals with lag search and pruning (ModelVarR); total effects by regression (ModelTsEffect); the object with its settings when calls fail (ModelVarState) | statsmodels' VAR and its lag selection, lasso | |
| `varma_lingam.py` | residuals, psi and omega, shapes in fit, total effects, paths (ModelVAR); the object with its order search, pruning and bootstrap (ModelVarma); the object after failed calls (ModelVarmaState); total effects by regression (ModelTsEffect) | statsmodels' VARMAX and its criteria (the criterion -inf and the ValueError for order (0, 0) without a criterion are left out), the adaptive lasso | - |
| `longitudinal_lingam.py` | all (ModelLong, ModelLongResult; on real data without prior knowledge ModelLongR; the object over time ModelLongState) | regression, DirectLiNGAM inside as its model | |
| `lim.py` | acyclicity function, global loop, local search (ModelLim); losses, gradients and augmented Lagrangian over the reals (ModelLoss); the score of the local search over the reals (ModelBic) | regressions of scikit-learn, the minimiser | |
| `lina.py` | weight loops, factor scores, alternation, H restarts, relabelling (ModelLina); losses, gradients and augmented Lagrangian over the reals (ModelLoss); `calc_vif` (ModelVif) | OLS of statsmodels, `cfa`, minimisers, inversion, likelihood | exceptions inside a round |
| `hsic.py` | all (ModelHsic); gram matrices, statistic and moments once more over the reals with the true `exp` (ModelKernel); the median width over the reals (ModelMlHsic) | `exp`, gamma distribution, bandwidth rules | |
| `causal_based_simulator.py` | training, simulation, data handlers, order, checks (ModelSim, ModelOrder); names, lags and discrete flags (ModelSimNames); argument checks, algorithm names, open entries and state (ModelSimCheck) | the prediction models | negative and other non-text labels |
| `tools/__init__.py` | imputation bootstrap with its checks (ModelTools); with its default imputer and discovery model (ModelToolsDefault) | user-given imputers and discovery models, the regressions of IterativeImputer | |
| `utils/__init__.py` | prior knowledge, exogenous and sink variables, `remove_effect`, drawings as edge lists, printing, paths, total effects, distances, adaptive lasso, `evaluate_model_fit` text (ModelDirect, ModelPaths, ModelRoot, ModelDraw, ModelUtil; `remove_effect` on integer tables: ModelUtilInt); `likelihood_i`, `log_p_super_gaussian`, `variance_i` over the reals (ModelBic) | number formatting, semopy, graphviz | `get_cuda_version` |
| `utils/_visualize_nonlinear_causal_effect.py` | collection of parents and effects per resample (ModelExper); argument checks, collected effects and lines drawn (ModelViz) | the regression, np.percentile | the plot |
| `utils/_f_correlation.py` | all functions over R (ModelFcorr) | argsort, eigh, eigsh by specification | rounding; NaN arithmetic on constant samples (given as the ValueError eigh raises) |
| `experimental/cdg.py` | fit, generate, dictionary checks (ModelExper); shared estimator objects (ModelCdgShare); categorical variables, replaced models and `_is_sklearn_estimator` (ModelCdgCat) | the models, the draws of the random generator | the categories of the result columns |
| `experimental/oct.py` | graphs, Markov blankets, choice of the configuration (ModelExper); folds, mean predictions, scores and their maximum over the reals (ModelOct); sparsity penalty (ModelOctSp); `_check_configs` and the object over time (ModelOctConf) | random forests, the draws of the permutation test | |

Everywhere: floating-point rounding, memory use, warnings, plotting and GPU code are not modelled.

## 6. Findings

Claims whose faithful model violates the English statement.  The witness is the theorem with the suffix `_refuted`;
what remains true is proved beside it (suffix `_partial` where it is a restricted form of the claim).

* **C05** Satisfiable prior knowledge is accepted: Refuted: three cyclic one-way 'no path' entries are satisfied by the empty graph but raise ValueError. Proved when every 'no path' entry is mutual or the reverse is a path entry.  (`C05_satisfiable_prior_knowledge_accepted_refuted`)
* **C06** Cyclic path constraints are diagnosed: Refuted for cycles of length >= 3 of path entries (fit still fails, but with numpy's argmax error); exact characterisation of what is diagnosed proved.  (`C06_cyclic_paths_diagnosed_refuted`)
* **C09** Soft prior knowledge never makes fit fail: Refuted: mutual path entries make soft mode raise. Proved when path entries are acyclic.  (`C09_soft_prior_knowledge_never_fails_refuted`)
* **C14** ICALiNGAM works for every admissible number of variables: Refuted: with one column the search is never run, the order is None and fit raises TypeError. C13 is the positive part (n >= 2).  (`C14_single_column_refuted`)
* **C17** find_all_paths reports cycles: Refuted for cycles through the start node (aliased adjacency list). Proved, with exactness, when no cycle avoiding `to` returns to the start.  (`C17_cycles_reported_refuted`)
* **C19** Path queries with identical endpoints are answered or rejected cleanly: Refuted: find_all_paths with equal endpoints is always an IndexError. calculate_total_effect rejects cleanly.  (`C19_identical_endpoints_refuted`)
* **C23** Total-effect table uses only effects above the threshold: Refuted: the probability honours the threshold but the effect is the median of all non-zero effects. Proved: exact contents of the table, and the claim when no non-zero effect is at or below the threshold.  (`C23_effect_uses_threshold_refuted`)
* **C26** bootstrap leaves the fitted model unchanged: Refuted: bootstrap refits the same object, which ends up fitted to the last resample (proved).  (`C26_bootstrap_preserves_fit_refuted`)
* **C29** Optimal intervention attains the desired output: Refuted for matrices with a cancelling non-zero row (row sum 0): such a variable is treated as a root. Proved for all other acyclic matrices, for every schedule of random draws; every unfinished run can still be completed.  (`C29_cancelling_row_refuted`)
* **C32** RCD never returns a cyclic ancestor relation: Refuted: the pairwise tests can produce a 3-cycle of ancestors. Proved: if accepted sink tests are right about some acyclic relation, ancestors and the directed part of the matrix stay inside it.  (`C32_cyclic_ancestors_refuted`)
* **C33** MultiGroupRCD independence decision uses every group: Refuted: the F-correlation of the last data set alone decides. Proved: the HSIC variant does not depend on the order of the data sets.  (`C33_only_the_last_group_counts_refuted`)
* **C37** RESIT can return a variable without parents: Refuted: a lone remaining parent is never tested, so every variable but the first keeps a parent. Proved: if all tests accept, exactly one parent remains.  (`C37_every_later_variable_keeps_a_parent_refuted`, `C37_independent_variables_get_edges_refuted`)
* **C39** BottomUpParceLiNGAM does not accept an order every test rejects: Refuted for p-values that are exactly 0 (three or more variables): the column order is returned as the causal order. Proved for positive p-values.  (`C39_all_p_values_zero_accepts_column_order_refuted`)
* **C41** HighDimDirectLiNGAM minimises over all conditioning sets: Refuted: the return statement is inside the loop over conditioning sets. Proved to coincide with the full minimum for n <= J+2 variables.  (`C41_only_first_conditioning_set_refuted`, `C41_order_differs_from_full_minimum_refuted`)
* **C44** Time-series refit uses the new data: Refuted: a second fit reuses the stored AR coefficients (proved for all estimators). Proved: history independence when the coefficients are given and lags is their number.  (`C44_refit_ignores_estimation_refuted`, `C44_refit_uses_new_data_refuted`)
* **C45** Lagged total effects count every path through time: Refuted: paths through lagged variables are not counted. Proved: the result is the entry of (I-B0)^-1 B_lag.  (`C45_lagged_effects_refuted`)
* **C47** VARMA moving-average structural matrices: Refuted: the inverse is passed as np.dot's output argument. Proved: Omega_j = (I-Psi_0) Theta_j, which is the claimed matrix iff Theta_j Psi_0 = 0.  (`C47_omega_refuted`)
* **C48** VARMA total effects address the requested lag: Refuted: every non-zero lag is treated as lag 1. Proved for lags 0 and 1.  (`C48_every_lag_is_lag_one_refuted`, `C48_varma_effect_lag_refuted`)
* **C49** VARMALiNGAM accepts user-supplied coefficients: Refuted for every q >= 1 and every series with at least max(p,q)+2 rows. Proved for prune=False and q = 0 (shape behaviour).  (`C49_given_coefficients_refuted`)
* **C50** LongitudinalLiNGAM stores lags in the documented order: Refuted for n_lags >= 2 (both branches): the lag axis is stored in reverse. Proved: the actual equation (matrix at tau belongs to time t-(n_lags+1-tau)) for all sizes, and the documented one for n_lags = 1.  (`C50_lag_axis_refuted`, `C50_prior_knowledge_refuted`)
* **C51** LongitudinalLiNGAM default bootstrap works for every n_lags: Refuted: TypeError for every estimator and data when n_lags >= 2 with the default start_from_t. Proved: success and the exact set of computed pairs when start_from_t >= n_lags.  (`C51_default_start_refuted`)
* **C56** LiM's acyclicity tolerance implies acyclicity: Refuted on four variables (also through fit); proved for tolerances up to (w_threshold^2/d)^d, which covers the defaults for d <= 3.  (`C56_tolerance_implies_acyclic_refuted`, `C56_fit_returns_cycle_refuted`)
* **C57** LiM fit is independent of earlier fits: Refuted: the loss type set by the local search persists. Proved: global-only fits leave the object unchanged and every full fit leaves the same state.  (`C57_refit_refuted`)
* **C59** bootstrap_with_imputation bookkeeping: First half proved. Second half proved for one-dimensional orders; refuted for two-dimensional arrays, which pass the check.  (`C59_order_accepted_iff_permutation_refuted`)
* **C60** Distance from root nodes: Refuted when the weights of a variable's parents cancel in the row sum (the variable is then reported as a root). Proved, with max_distance, when no row with parents sums to nearly zero.  (`C60_shortest_distance_refuted`)
* **C63** visualize_nonlinear_causal_effect adjusts for all parents: Refuted for weighted graphs (only entries equal to 1 count as parents). Proved for 0/1 matrices. The part about all graphs of a bootstrap result is C98.  (`C63_adjusts_for_parents_refuted`)
* **C64** CausalDataGenerator replays its data: Refuted without adjustments, with further columns and with repeated row labels; proved otherwise, for every pair of fitted models.  (`C64_replay_refuted`)
* **C66** Estimated graphs contain no directed path excluded by the prior knowledge: Refuted for mutual 'no path' entries (a third variable in between); proved for one-way entries.  (`C66_no_directed_path_refuted`)
* **C67** CausalEffect follows its causal model: Refuted: the model is copied at the first request and later refits are ignored (proved for all histories).  (`C67_refitted_model_is_ignored_refuted`)
* **C68** MultiGroupRCD reports one total effect per data set: Refuted: a confounded source makes the method return an empty list, and the bootstrap stores 0 instead of NaN. Proved for unconfounded sources.  (`C68_confounded_source_gives_no_effects_refuted`, `C68_bootstrap_stores_zero_refuted`)
* **C69** RCD's ancestor search ends at a fixpoint: Refuted: a subset is skipped while its common ancestors are unchanged although the exclusion rule would now single out one sink.  (`C69_search_stops_before_the_fixpoint_refuted`)
* **C70** CAMUV prior knowledge excludes causes: Refuted: only the direct edge is excluded (C34); indirect paths can appear.  (`C70_indirect_cause_refuted`)
* **C71** CAMUV returns an acyclic graph: Refuted: only 2-cycles are excluded (C35); a 3-cycle can be returned.  (`C71_cyclic_graph_refuted`)
* **C73** BottomUpParceLiNGAM tests a sink against all remaining variables: Refuted: with prior knowledge candidates are only tested against the other candidates.  (`C73_sink_tested_against_all_remaining_refuted`)
* **C74** A failed BottomUpParceLiNGAM refit leaves no stale result: Refuted: fit resets a misspelt attribute, so adjacency_matrix_ keeps the old matrix.  (`C74_failed_refit_leaves_stale_matrix_refuted`)
* **C75** Lagged columns never mix the end of a series with its beginning: Refuted: np.roll wraps the first p rows. Proved for rows t >= p.  (`C75_lagged_columns_wrap_refuted`)
* **C77** VARLiNGAM bootstrap draws from the residuals of the original fit: Refuted from the second sample on; proved for the first sample.  (`C77_residuals_of_original_fit_refuted`)
* **C78** VARLiNGAM bootstrap does not depend on earlier fits: Refuted; proved when coefficients are given and lags is their number.  (`C78_bootstrap_history_refuted`)
* **C79** VARLiNGAM pruning uses the lag order of the coefficients: Refuted when there are more matrices than lags (ValueError); otherwise proved to succeed.  (`C79_given_lag_order_refuted`)
* **C83** Longitudinal estimate_total_effect2 is the total effect of the unrolled model: Proved: the value is the entry of the inverse of the matrix unrolled from adjacency_matrices_. Refuted: because of C50 that matrix is not the law of the data for n_lags >= 2.  (`C83_reversed_lags_refuted`)
* **C84** Simulated time series are series: Proved without changes; refuted after a change of the errors (lagged columns keep the training data).  (`C84_series_refuted`)
* **C85** changing_exog accepts any array-like of the right length: Refuted for lists (AttributeError after passing the check); proved for arrays.  (`C85_list_exog_refuted`)
* **C86** run() before train() is reported: Refuted: AttributeError, because the attribute is never initialised.  (`C86_run_before_train_refuted`)
* **C88** LiM's global phase returns an optimum: Refuted (max_iter = 1 and an optimum at zero returns a random draw). Proved whenever the loop is left by a break; otherwise the result is an optimum or a random draw.  (`C88_returns_an_optimum_refuted`)
* **C90** LiM's global phase ends with a result for every rho_max: Refuted for rho_max <= 1 (TypeError); proved for rho_max > 1.  (`C90_every_rho_max_refuted`)
* **C91** HSIC test ignores the order of the samples: Proved for at most 100 samples; refuted for 101 (bandwidth from the first 100 rows only).  (`C91_row_order_refuted`)
* **C93** HSIC test yields a statistic and a p-value: Refuted: ZeroDivisionError for n <= 3, NaN p-value for n = 4 and 5. Proved from n = 4 on: the statistic is a number exactly when neither sample is constant on its first 100 rows.  (`C93_p_value_refuted`)
* **C94** bootstrap_with_imputation returns one matrix per repetition: Refuted: the number of matrices is not compared with the number of repetitions. Proved: p x p, finite, same leading shape in all iterations.  (`C94_one_matrix_per_repetition_refuted`)
* **C95** bootstrap_with_imputation keeps observed values: Refuted for imputers in general; proved for the default imputer.  (`C95_observed_values_kept_refuted`)
* **C96** bootstrap_with_imputation works with the default imputer: Refuted for draws in which a variable is never observed (sklearn's imputer drops the column); proved otherwise.  (`C96_default_imputer_refuted`)
* **C98** visualize_nonlinear_causal_effect uses every bootstrap matrix: Refuted for results without resampled indices (only the first matrix is used); proved for results with them.  (`C98_every_resample_used_refuted`)
* **C99** visualize_nonlinear_causal_effect ignores row labels: Refuted: labels are used as positions. Proved for labels that are a permutation of the positions.  (`C99_row_labels_irrelevant_refuted`)
* **C100** CausalDataGenerator applies endogenous interventions: Refuted for adjustment variables; proved for cause and effect.  (`C100_endogenous_intervention_refuted`)
* **C102** OutOfSampleCausalTuning reports a missing model: Refuted: the check never fires, TypeError in the first fold. Proved: what happens to every configuration.  (`C102_missing_model_reported_refuted`)
* **C103** OutOfSampleCausalTuning picks the best score: Refuted with NaN scores; proved for score lists without NaN.  (`C103_best_score_refuted`)
* **C122** Longitudinal bootstrap: probabilities and total effects: probabilities and the list of total effects proved; the median is taken over all samples with a non-zero effect and ignores the threshold (C122_effect_uses_threshold_refuted)  (`C122_effect_uses_threshold_refuted`)
* **C124** Longitudinal total effect by regression adjusts for the parents: columns of the regression characterised; for two or more lags they are not the parents' columns because the lags are stored reversed (C124_adjusts_for_parents_refuted, see C50)  (`C124_adjusts_for_parents_refuted`)
* **C125** Longitudinal error p-values are available for every fitted model: proved after a fit without prior knowledge; with prior knowledge the residuals are never set and the method raises AttributeError (C125_prior_knowledge_refuted)  (`C125_prior_knowledge_refuted`)
* **C126** make_dot draws exactly the significant edges: Proved: nodes, edges, path and cycle marks, prediction edges, and the double-headed arrows for NaN entries on or below the diagonal. Refuted (C126_unknown_refuted): NaN entries above the diagonal only are not drawn. Numbers are labels, not formatted text.  (`C126_unknown_refuted`)
* **C127** make_dot accepts valid arguments and rejects invalid ones: Proved: valid arguments give a drawing; the documented errors. Refuted: a path end equal to the number of variables passes the check and fails inside networkx (C127_path_range_refuted), a non-square matrix with default names raises IndexError (C127_wide_matrix_refuted), coefficients equal to lower_limit are dropped although the documentation excludes only smaller ones (C127_limit_refuted).  (`C127_path_range_refuted`, `C127_wide_matrix_refuted`, `C127_limit_refuted`)
* **C128** make_dot_highlight places every node by its distance from the target: Proved: clusters, heights, edges, valid arguments. Refuted: NaN entries are rejected although double-headed arrows are documented (C128_unknown_refuted), path nodes are never coloured because an index is compared with names (C128_path_nodes_refuted), a target without edges is drawn twice (C128_isolated_target_refuted).  (`C128_unknown_refuted`, `C128_path_nodes_refuted`, `C128_isolated_target_refuted`)
* **C130** remove_effect leaves residuals that are uncorrelated with the removed features: Proved for indices 0 <= i < n_features: residuals, idempotence, errors. Refuted (C130_negative_index_refuted): with a negative index the regressed feature itself counts as one of the other columns and is replaced by zeros.  (`C130_negative_index_refuted`)
* **C132** evaluate_model_fit describes exactly the given model: Proved for non-negative is_ordinal. Refuted (C132_ordinal_refuted): flags of both signs that sum to zero are ignored. The formatting of a number is an arbitrary function; semopy is an arbitrary function of the text.  (`C132_ordinal_refuted`)
* **C135** LiNA returns a thresholded weight matrix; when it is acyclic: Proved for rho_max > 1; the acyclicity theorem has the tolerance condition. Refuted: rho_max <= 1 gives a TypeError (C135_rho_max_refuted); with the default constants a cycle through five factors passes the tolerance (C135_five_factors_refuted); when rho reaches rho_max a cyclic matrix is returned (C135_rho_limit_refuted). The defaults are safe for up to four factors (C135_default_safe_partial).  (`C135_rho_max_refuted`, `C135_five_factors_refuted`, `C135_rho_limit_refuted`)
* **C137** MD-LiNA alternates until the likelihood settles and relabels the factors consistently: Proved for a scale array with two rows and at least two domains. Refuted: the documented scale of shape (1, n) never works (C137_documented_scale_refuted); a likelihood that never settles ends in an IndexError after 9999 rounds (C137_no_limit_refuted); the third and later domains never influence the matching (C137_third_domain_refuted). A round is an arbitrary function that does not raise.  (`C137_documented_scale_refuted`, `C137_no_limit_refuted`, `C137_third_domain_refuted`)
* **C138** MD-LiNA's factor matrix comes from the last minimisation: What holds: the matrix comes from the last run (C138_last_run). Refuted: not from the best one (C138_best_run_refuted). max_iter = 0 leaves it undefined.  (`C138_best_run_refuted`)
* **C143** The ancestors found by RCD are true ancestors even when there are hidden variables: proved for max_explanatory_num = 1 with any hidden variables; refuted for the default 2 with one hidden variable (hidden q causes a and b, a causes i: b is recorded as ancestor of i) and for 3 without hidden variables (0->1, 0->2, 0->3, 4->2, 4->3: variables 2 and 3 are recorded as ancestors of 1)  (`C143_hidden_confounder_refuted`, `C143_three_explanatory_refuted`)
* **C147** LiM hands its optimiser the gradient of its objective: logistic and mixed with continuous variables proved; refuted for laplace, mixed with discrete variables and poisson: genuine defects of the code  (`C147_laplace_refuted`, `C147_mixed_discrete_refuted`, `C147_mixed_entries_refuted`, `C147_poisson_refuted`)
* **C148** The losses of LiM are average negative log-likelihoods: logistic, laplace and mixed with continuous variables proved; refuted for mixed with discrete variables and poisson: genuine defects of the code  (`C148_mixed_discrete_refuted`, `C148_mixed_unbounded_refuted`, `C148_poisson_refuted`)
* **C149** MD-LiNA accepts the losses of LiNA and follows the gradient when it maps domains: refuted: genuine defects of the code; laplace with an invertible product never raises  (`C149_loss_refuted`, `C149_gradient_refuted`)
* **C158** More parents fit a continuous variable at least as well: the statement is false of the code: coefficients are fitted by least squares and judged by a Laplace likelihood; a counterexample with four samples is proved, and what decides comparisons is proved  (`C158_more_parents_fit_better_refuted`)
* **C159** The score of a count variable is the log-likelihood of its Poisson regression on the parents: the statement is false of the code: the term is proved to be minus the log-likelihood of the regression on the last parent alone without intercept, hence positive, decreasing in the fit, and a column of zeros is always accepted as a first parent  (`C159_loglikelihood_refuted`, `C159_better_fit_scores_lower_refuted`, `C159_useless_parent_refuted`)
* **C167** On an exact sample HighDimDirectLiNGAM finds a causal order: refuted with four variables: the variable placed last is regressed out of the others and its statistic is then recomputed, so it becomes zero and a true cause is dropped from later conditioning sets; proved for the loop with that and the early return repaired, for every number of variables  (`C167_causal_order_refuted`)
* **C168** Expressing all variables in another common unit does not change the order of HighDimDirectLiNGAM: refuted: statistics are capped at 100000, so for large numbers the order becomes that of the columns; proved as long as no statistic reaches the cap  (`C168_large_numbers_refuted`)
* **C169** The unit and the origin of a variable do not change the order of HighDimDirectLiNGAM: refuted: for two columns with non-zero statistics either order is obtained by choosing the unit of one column, and adding a constant reverses a correct order; proved for the first two variables of exact samples  (`C169_unit_of_one_column_refuted`, `C169_origin_refuted`)
* **C170** Every accepted degree K makes HighDimDirectLiNGAM use the data: refuted: K = 2 makes every statistic zero, and so does K = 1 with centred columns, hence the order is that of the columns; every K >= 3 uses the data  (`C170_degree_two_refuted`, `C170_degree_one_refuted`)
* **C172** The order found by ICALiNGAM does not depend on the units of the variables: refuted: for every unmixing matrix without zeros and every order there are units in which the order found is that one; proved for exact unmixing matrices of acyclic models, where the order is a causal order in all units  (`C172_every_order_in_some_units_refuted`)
* **C175** The quantity MLHSICR minimises is a number and does not depend on units or signs: refuted: the width used for the residual is the combination of the widths of the columns, so for all data there are coefficients at which it is zero and the objective NaN, while with one column negated it is a number at the corresponding point; proved: never negative, and the same values and minimisers in all units with positive factors  (`C175_sign_of_a_variable_refuted`)
* **C177** The kernel measure of DirectLiNGAM is zero exactly for independent samples: refuted: the Gram matrices are not centred, so the quantity is positive for every sample, and on four rows with exactly independent noise the effect is put first; proved: never negative, and with centred matrices it is zero exactly for independent samples and prefers the cause  (`C177_zero_when_independent_refuted`, `C177_order_with_independent_noise_refuted`)
* **C178** The default measure of DirectLiNGAM finds the order when the noise is exactly independent: refuted by 36 rows (cause and noise with values -3,-1,0,0,1,3 and coefficient 1) for which the effect is put first; proved for cause and noise with two equally frequent values each, any coefficient and any number of rows  (`C178_order_with_independent_noise_refuted`)
* **C180** RESIT reports exactly the direct causes: refuted: the pruning step compares the residual with the remaining predictors only, so for every effect that is a sum of functions of independent causes all but one of the causes are removed and the remaining one is reported as a cause of all the others, whatever the functions; also on eight explicit rows; proved for two variables  (`C180_independent_causes_refuted`, `C180_direct_causes_refuted`)
* **C181** OutOfSampleCausalTuning prefers configurations that predict better: refuted: the score depends on the squared correlation only, reversed predictions score the same; the mean prediction of an empty graph is negatively correlated with the truth in every cross validation with equal folds (minus the root of the share of the variance between folds), it has an infinite score with leave-one-out and is then chosen over every configuration with a finite score; proved: when the score is undefined, infinite, zero, never negative  (`C181_opposite_predictions_refuted`, `C181_leave_one_out_refuted`, `C181_empty_graph_chosen_refuted`)
* **C182** num_explanatory_vals of CAMUV is the maximum number of explanatory variables: refuted: the values 1 and 2 always give the same result, and with the value 1 a variable gets two direct causes; proved: the sets tested at once have at most max(2, value) members, the child included (C110, C110_smaller_sets_first)  (`C182_one_is_two_refuted`, `C182_more_than_the_maximum_refuted`)
* **C183** CAMUV reports exactly the direct causes when no variable is hidden: proved for one effect of any number of independent causes (whatever num_explanatory_vals); refuted for x -> y -> z with x -> z: sets that contain an identified pair are never tested, so both pairs with z are reported as hidden, for every exact regressor and test and every num_explanatory_vals  (`C183_triangle_refuted`)
* **C186** VARLiNGAM does not depend on the units and origins of the variables: proved for changes of units with the same origins (lag search, pruning and prior knowledge included); refuted for changes of origin: the VAR model is fitted without a constant term (trend="n"), so values around a level without any dependence on the past get the autoregressive coefficient level^2/(level^2+1)  (`C186_origin_refuted`)
* **C187** VARMALiNGAM's residuals for given coefficients are the innovations of the series: refuted when there is a moving average part: the first residuals are random draws from numpy's global generator and their error is passed on by the moving average recursion, for one variable as (-theta)^t; proved: that recursion in general, exactness without moving average part or with the right start values  (`C187_moving_average_refuted`, `C187_not_reproducible_refuted`)
* **C188** LiM's result cannot be improved by changing one edge: refuted: with at most d-1 edges no link is ever removed, with two variables none is added, and at most one link is added in all, whatever the score; a concrete run that can be improved by one more edge; proved: no acyclic graph obtained by reversing edges of the first phase's result scores better than the result  (`C188_links_refuted`, `C188_local_optimum_refuted`)
* **C189** Estimates of CausalEffect do not depend on units: proved: the propagated means follow the units, the effects on the prediction are the same for every predictor (up and down exchanged where a scale is turned round), and the optimal intervention follows the units where no row of coefficients cancels; refuted: a row that cancels in one unit and not in another gives a different intervention, and a cycle of small coefficients is accepted in one unit and rejected in another  (`C189_intervention_refuted`, `C189_acceptance_refuted`)
* **C190** The simulator works for every table with distinct column labels: proved: arrays and text labels give distinct names (for time series at all lags, even with brackets in the labels), and with distinct names the program on names computes what the program on positions (C52-C54) computes; refuted: the labels 1 and "1" collide, so the replay returns the first column twice or fails, and a time series with an integer label is always a TypeError  (`C190_like_labels_refuted`, `C190_like_parents_refuted`, `C190_integer_labels_refuted`)
* **C191** is_discrete marks the variables it names, at every lag: proved for lists of flags, and for arrays with plain data; refuted for arrays with time series, where the flags are read as positions 0 and n_lags+1  (`C191_time_series_array_refuted`, `C191_array_not_list_refuted`)
* **C192** MultiGroupRCD recovers the common graph and each group's coefficients: proved whenever the joint decisions are ideal, which Fisher's method over decisive p-values gives (independence='hsic'); refuted for independence='fcorr', where only the last group decides and an ancestor whose effect cancels there is lost  (`C192_fcorr_refuted`)
* **C195** OutOfSampleCausalTuning's sparsity penalty prefers sparser configurations that predict as well: refuted when the best score is infinite or NaN: then no other configuration is ever chosen (t_obs is inf or NaN and no trial exceeds it). Proved for equal predictions with a finite score: of two opposite series of draws at least one selects a configuration that is at most as large, unless more than 1 - 2 thr of the trials tie. Also proved: the trials do not depend on which prediction belongs to which row  (`C195_infinite_score_refuted`)
* **C196** CausalEffect reports changes of the expected prediction for every kind of prediction model: proved for regression models and for two classes labelled -1 and 1; for labels a, b the change of the expected label is reported times 2/|b-a|, so refuted for labels 0 and 1 (twice the change of the probability); refuted for classifiers with one class or more than two: ValueError  (`C196_labels_zero_one_refuted`, `C196_more_classes_refuted`)
* **C197** VARMALiNGAM chooses the order with the best criterion, for every data set it is fitted to: proved for an object that has no coefficients yet (first minimum, coefficients and residuals of that order); refuted: AttributeError when no criterion value is a number or order is (0, 0); a second fit searches only up to the order chosen before, or re-estimates nothing at all; a single given array is ignored  (`C197_no_number_refuted`, `C197_order_zero_refuted`, `C197_single_array_ignored_refuted`, `C197_second_search_refuted`, `C197_second_fit_refuted`)
* **C198** VARMALiNGAM's bootstrap resamples the fitted model: proved for a new object with p, q >= 1: one entry per sample, each series follows the recursion with the fitted coefficients, criterion and order restored; refuted: errors of later samples are drawn from the previous sample's residuals, the object keeps the last sample's coefficients, the order of the criterion is ignored, TypeError for orders (p, 0) and (0, q), ValueError after fit when pruning  (`C198_object_afterwards_refuted`, `C198_ignores_criterion_refuted`, `C198_pure_orders_refuted`, `C198_after_fit_refuted`, `C198_residuals_drift_refuted`)
* **C200** VARLiNGAM.estimate_total_effect reports the effect of the source at its lag: proved for series continued cyclically (np.roll), all lags; refuted for ordinary series: the end of the series is used as the past of its beginning, so that a doubling series yields -5/14 instead of 2  (`C200_boundary_refuted`)
* **C201** VARMALiNGAM.estimate_total_effect reports the effect of the source at its lag: proved for lag 0; refuted for lags: every positive lag is treated as lag 1, and the parents at the last lags are replaced by errors or by zeros; differs from VARLiNGAM on the same model and data  (`C201_lag_ignored_refuted`, `C201_lagged_parents_refuted`, `C201_differs_refuted`)
* **C202** Changing the coefficients of a simulated variable changes nothing else about it: proved: the exact effect of new coefficients, which includes the loss of the trained intercept; refuted that a model's own coefficients reproduce the data: the variable moves by minus the intercept  (`C202_same_coefficients_refuted`)
* **C205** MultiGroupRCD with hidden variables records only true ancestors: proved for max_explanatory_num=1; refuted for the default of 2: with a hidden common cause a false ancestor is recorded although every test decides correctly  (`C205_hidden_confounder_refuted`)
* **C206** RESIT does not depend on the units in which the variables are measured: proved for a common unit with individual origins, for individual units with two variables, and for the unit of the target of each regression; refuted for individual units with three variables: several predictors share one kernel width, so doubling one variable can change the order  (`C206_single_unit_refuted`)
* **C207** CAMUV and MultiGroupCAMUV with independence='fcorr' accept every documented num_explanatory_vals: proved for num_explanatory_vals of one and two; refuted from three on: f_correlation raises ValueError for every block of two or more columns, so the fit either raises (exact condition proved) or returns the answer of two  (`C207_every_number_refuted`)
* **C209** DirectLiNGAM gives the same order for whole numbers stored as integers and as floats: refuted: residuals are written into a copy with the dtype of X and lose their decimals, so a table of eight rows of -1, 0, 1 has different orders as integers and as floats; whenever the residuals of one variable on the first are smaller than 1, the rest of the order is the order of the columns; proved: the first variable, tables with at most two variables, the kernel measure and runs with whole residuals are not affected, and the result is an order of all variables  (`C209_same_numbers_refuted`)
* **C210** remove_effect removes the effects from tables of whole numbers too: refuted: the residuals are written back into an integer array and lose their decimals, so the columns need not have mean zero nor be uncorrelated with the removed feature; proved: coefficients and removed columns are the same as for floats, every entry differs by less than one and is no larger, and whole residuals are kept  (`C210_uncorrelated_refuted`)
* **C211** RESIT's bootstrap and its total effects: Refuted: in every resample with at least two variables the inherited bootstrap records, for the first variable of the order, a positive total effect on every other variable. Proved instead: the bootstrap never fails, and the number recorded for i <- j is exactly the number of directed paths from j to i in the zero-one graph of that resample.  (`C211_effects_agree_refuted`)
* **C212** RCD gives the same result for whole numbers stored as integers and as floats: Refuted: the residuals are written into np.zeros_like(X) and lose their decimals. For a linear model of four observed variables with zero-one errors, ideal tests and default settings, the float table gives the model (C142) and the integer table misses an ancestor, reports a confounded pair that does not exist and a coefficient 2 instead of 1. Proved: floats are not affected; same result for two variables, whenever no two variables have a recorded ancestor in common, and when all residuals are whole; with residuals below one the search runs as if all conditioned variables were Gaussian.  (`C212_same_numbers_refuted`)
* **C213** VARMALiNGAM recovers the structural matrices of a series that follows its model: Refuted for Omega: np.dot is given the inverse as its output array, so Omega_k (I - Psi_0) is returned instead of Omega_k; for x0_t = e0_t + e1_(t-1), x1_t = x0_t + x0_(t-1) + e1_t an effect -1 of e0_(t-1) on x0_t is reported that does not exist. Proved: the causal order and all Psi matrices are right, and Omega_k is right exactly when Omega_k Psi_0 = 0, both for given coefficients (with the innovations as start values or no moving average, see C187) and for estimated ones; without pruning, the causal order also with pruning of estimated coefficients.  (`C213_moving_average_refuted`)
* **C214** CAM-UV gives the same graph for whole numbers stored as integers and stored as floats: Refuted: Y is a copy of X, so residuals stored in an integer table are cut off; on the chain x0 -> x1 -> x2 with errors 0 or 1 and exact regressions and tests the integer table gives x0 -> x1, x0 -> x2 and a hidden common cause of x1 and x2, the float table the chain. Proved: the results agree for two variables, and whenever the residuals of the regressions in the search are whole; if all residuals are below one in size, no variable gets more than max(2, num_explanatory_vals) - 1 parents from an integer table.  (`C214_chain_refuted`)
* **C216** VARLiNGAM uses the lag with the best information criterion: Refuted: bootstrap of an object that was not fitted switches the criterion off and uses the maximal lag throughout; fit raises AttributeError when no lag has a number as its criterion. Proved: fit uses the lag with the smallest criterion, or lags without a criterion (first fit of an object; later ones keep the coefficients, see C44).  (`C216_no_number_refuted`, `C216_bootstrap_maximal_lag_refuted`)
* **C217** A VARLiNGAM call that fails leaves the settings of the object unchanged: Refuted: bootstrap sets the criterion to None and restores it only when it succeeds, so later fits do not choose the lag any more; a negative n_sampling is noticed after the fit, whose coefficients then stay. Proved: a failed fit changes no setting and leaves no stale result; a bootstrap with rejected data changes nothing; otherwise a failed bootstrap (n_sampling not negative) loses only the criterion.  (`C217_failed_bootstrap_refuted`, `C217_later_fit_refuted`, `C217_negative_sampling_refuted`)
* **C218** calc_vif gives the variance inflation factors: The factors are right when all variables have mean zero (C218_centred_partial) or when the other variables span the constant (C218_constant_partial); otherwise not: two uncorrelated variables with mean 2 get 25/9 instead of 1 (C218_intercept_refuted). Called on an object the method raises TypeError, because it lacks self (C218_method_refuted).  (`C218_method_refuted`, `C218_intercept_refuted`)
* **C219** The causal order and the matrix of an object belong together: True after a call that returns (C219_returned), after one that fails before the order is known (C219_failed_search), and always if the adaptive lasso never raises (C219_history_partial). Otherwise the object has the order of one data set and the matrix of another (C219_history); with the contract of LassoLarsIC this happens for every data set with at most as many rows as variables (C219_short_data_refuted), and order and matrix can contradict each other (C219_contradiction_refuted).  (`C219_short_data_refuted`, `C219_contradiction_refuted`)
* **C220** A multi-group model answers for every data set: True after a fit that returns (C220_returned) and for queries with as many data sets as were fitted (C220_p_values_partial). A fit that fails at the k-th data set leaves the new order with k matrices, and effects are reported for k data sets only (C220_failed_refuted); p-values of further data sets are all zero, which reads as dependence (C220_more_data_sets_refuted).  (`C220_failed_refuted`, `C220_more_data_sets_refuted`)
* **C221** CausalDataGenerator returns its data whatever its estimators are used for: Proved if the two estimators are different objects and no later call of fit is given them (C221_replay_partial). The estimators are trained in place, not cloned: one object for both models makes every generate raise ValueError (C221_shared_refuted), and a second generator that is given the same estimators changes what the first one generates (C221_two_generators_refuted).  (`C221_shared_refuted`, `C221_two_generators_refuted`)
* **C222** A CausalEffect object answers for the model it was given: From the first query on, for LiNGAM objects and lists (C222_kept_partial). The first query reads the LiNGAM object as it is then (C222_first_query_refuted). A numpy array is not copied, so later assignments are combined with the old order (C222_array) and the effects reported solve neither model (C222_alias_refuted). A LiNGAM object left by a failed fit (C219) makes an effect disappear (C222_mixed_object_refuted).  (`C222_first_query_refuted`, `C222_alias_refuted`, `C222_mixed_object_refuted`)
* **C223** OutOfSampleCausalTuning rejects unusable configurations before it evaluates any: Accepted configurations and exceptions are exactly described (C223_accepted, C223_exceptions, C223_values, C223_rejected_first). A missing model is not rejected, because the defaults contain the key: the configurations before it are evaluated and then None is called, a TypeError (C223_missing_model_refuted).  (`C223_missing_model_refuted`)
* **C224** OutOfSampleCausalTuning answers for the last list of configurations: True after a successful fit (C224_successful_fit) and for objects never fitted successfully (C224_not_fitted). A failed fit keeps the old answers (C224_failed_fit), whose index can lie outside the new list (C224_old_index_refuted).  (`C224_old_index_refuted`)
* **C225** CausalDataGenerator generates what its models allow, and returns its data: Values: C225_generated_values. A continuous effect is returned whenever the cause is (C225_continuous_effect), a continuous cause with adjustments of any type too (C225_continuous_cause). A categorical variable is drawn anew, so the data are not returned (C225_categorical_replay_refuted).  (`C225_categorical_replay_refuted`)
* **C226** An exogenous intervention of CausalDataGenerator replaces the error of its variable: Holds for continuous variables (C226_continuous). For categorical variables the values given in interv_exog are overwritten and have no influence (C226_categorical_refuted), and a replaced model receives NaN as error (C226_replaced_model_refuted).  (`C226_categorical_refuted`, `C226_replaced_model_refuted`)
* **C227** An intervention of CausalDataGenerator that changes nothing changes nothing: Holds for a continuous cause (C227_continuous). Setting a categorical cause saves its draws, so the effect is drawn with other random numbers (C227_categorical_refuted).  (`C227_categorical_refuted`)
* **C228** CausalDataGenerator uses a given estimator or rejects it before training: Acceptance and rejection: C228_accepted, C228_rejected. Without adjustments an accepted estimator of the cause is silently dropped and generate() raises AttributeError (C228_cause_model_dropped_refuted).  (`C228_cause_model_dropped_refuted`)
* **C229** visualize_nonlinear_causal_effect draws the percentiles of the effects at every position: Distinct positions and percentiles: C229_lines. The default positions are distinct exactly if the cause is not constant (C229_default_positions). A repeated position raises ValueError (C229_repeated_position_refuted), hence also a constant cause with default positions (C229_constant_cause_refuted).  (`C229_repeated_position_refuted`, `C229_constant_cause_refuted`)
* **C230** Every bootstrap run counts in visualize_nonlinear_causal_effect: One value per run that contains the class, in the order of the runs (C230_counts). A resample without the class is left out instead of counting as zero (C230_missing_class_refuted).  (`C230_missing_class_refuted`)
* **C231** visualize_nonlinear_causal_effect accepts the arguments it documents: Exactly what is accepted: C231_accepted, C231_percentiles. Nested lists raise AttributeError (C231_nested_lists_refuted), a tuple of percentiles TypeError (C231_tuple_refuted).  (`C231_nested_lists_refuted`, `C231_tuple_refuted`)
* **C232** A failed call leaves a VARMALiNGAM object with its settings: A failed fit keeps the settings (C232_failed_fit), rejected data change nothing (C232_rejected_bootstrap), a successful bootstrap restores the criterion (C232_successful_bootstrap); outcomes agree with the model of successful calls (C232_same_outcome). A failed bootstrap leaves criterion=None, wherever it fails (C232_failed_bootstrap_refuted): after the TypeError of a pure AR or MA order every later fit skips the order search (C232_later_fit_refuted), and bootstrap after a pruned fit raises ValueError and loses the results (C232_bootstrap_after_fit_refuted).  (`C232_failed_bootstrap_refuted`, `C232_later_fit_refuted`, `C232_bootstrap_after_fit_refuted`)
* **C233** A LongitudinalLiNGAM object answers for its last successful fit: Matrices, orders and residuals: C233_results, C233_successful_fit, C233_short_list; p-values after a successful fit: C233_p_values; resamples: C233_bootstrap. A failed fit overwrites the remembered shape: with more time points the p-values of the additional times are tests on uninitialised memory (C233_uninitialised_refuted), with fewer they raise IndexError (C233_fewer_times_refuted), with another number of rows p-values and total effects of the fitted model raise ValueError (C233_other_rows_refuted). bootstrap replaces the fitted model by that of the last resample (C233_bootstrap_replaces_fit_refuted).  (`C233_uninitialised_refuted`, `C233_fewer_times_refuted`, `C233_other_rows_refuted`, `C233_bootstrap_replaces_fit_refuted`)
* **C234** A fitted HighDimDirectLiNGAM answers queries whatever estimate_adj_mat is: Orders, and queries with estimate_adj_mat=True: C234_fit, C234_queries. With estimate_adj_mat=False total effects and p-values raise TypeError after any number of fits (C234_no_matrix_refuted) and bootstrap raises ValueError for two or more variables (C234_bootstrap_refuted). Unfitted objects: C234_unfitted.  (`C234_no_matrix_refuted`, `C234_bootstrap_refuted`)
* **C235** RCD.bootstrap completes whenever its fits do, and stores the total effects: Proved when every estimate is acyclic (C235_acyclic_estimates_give_a_result_partial). Not true in general: the ancestor sets may form a circle of three, and then bootstrap raises ValueError although every fit succeeds (C235_bootstrap_completes_when_its_fits_do_refuted). Also C235_bad_number_of_samplings, C235_first_failing_fit.  (`C235_bootstrap_completes_when_its_fits_do_refuted`)
* **C236** The queries of MultiGroupRCD answer for every data set they are given: Proved for as many data sets as at fit: C236_total_effects, C236_p_values; exceptions: C236_errors. Not true for longer lists: surplus data sets are ignored, with p-values all zero and a shorter list of effects (C236_surplus_data_sets_refuted).  (`C236_surplus_data_sets_refuted`)
* **C237** BottomUpParceLiNGAM.bootstrap records the total effects its own query reports: Proved for all pairs of which at most one has unknown order (C237_bootstrap_partial, C237_errors). Two variables of unknown order have the effect NaN in the query and zero in the result of bootstrap (C237_unknown_order_recorded_as_zero_refuted).  (`C237_unknown_order_recorded_as_zero_refuted`)
* **C238** bootstrap_with_imputation works with its defaults for every accepted n_repeats: Proved for at least two repeats, bootstrap samples with an observed value of each variable and prior knowledge that can be obeyed (C238_defaults_partial, C238_result); prior knowledge no order obeys is rejected (C238_contradictory_prior_knowledge) and every failure is a ValueError (C238_errors). n_repeats=1 passes the argument check and always ends in ValueError, since the default discovery model wants two data sets (C238_single_repeat_refuted).  (`C238_single_repeat_refuted`)
* **C239** MultiGroupRCD.bootstrap completes whenever the fits of its resamples do: Proved for estimates without directed circles (C239_bootstrap_partial, C239_errors). The ancestor sets may form a circle of three (C31 excludes circles of two); then every fit succeeds and bootstrap raises ValueError (C239_bootstrap_completes_when_its_fits_do_refuted; the answers of the tests are given, not computed from data).  (`C239_bootstrap_completes_when_its_fits_do_refuted`)

## 7. Where the theorems are

| id | status | files | theorems |
|----|--------|-------|----------|
| C01 | proved | `Props_Direct.v` | 2 |
| C02 | proved | `Props_Direct.v` | 2 |
| C03 | proved | `Props_Direct.v` | 2 |
| C04 | proved | `Props_Direct.v`, `Props_DirectR2.v` | 3 |
| C05 | partial | `Props_Direct.v` | 2 |
| C06 | partial | `Props_Direct.v` | 2 |
| C07 | proved | `Props_Direct.v` | 2 |
| C08 | proved | `Props_Direct.v` | 1 |
| C09 | partial | `Props_Direct.v`, `Props_More.v` | 3 |
| C10 | proved | `Props_Direct.v` | 2 |
| C11 | proved | `Props_Direct.v`, `Props_More.v` | 3 |
| C12 | proved | `Props_Order.v` | 1 |
| C13 | proved | `Props_Order.v` | 3 |
| C14 | partial | `Props_Order.v` | 1 |
| C15 | proved | `Props_Paths.v` | 1 |
| C16 | proved | `Props_Paths.v` | 1 |
| C17 | partial | `Props_Paths.v` | 2 |
| C18 | proved | `Props_Paths.v` | 3 |
| C19 | partial | `Props_Paths.v` | 2 |
| C20 | proved | `Props_Bootstrap.v` | 5 |
| C21 | proved | `Props_Bootstrap.v` | 1 |
| C22 | proved | `Props_Bootstrap.v` | 3 |
| C23 | partial | `Props_Bootstrap.v` | 3 |
| C24 | proved | `Props_Bootstrap.v` | 2 |
| C25 | proved | `Props_Bootstrap.v` | 2 |
| C26 | partial | `Props_Bootstrap.v` | 3 |
| C27 | proved | `Props_Order.v` | 2 |
| C28 | proved | `Props_Effect.v` | 4 |
| C29 | partial | `Props_Effect.v` | 4 |
| C30 | proved | `Props_RCD.v` | 2 |
| C31 | proved | `Props_RCD.v` | 2 |
| C32 | partial | `Props_RCD.v` | 2 |
| C33 | partial | `Props_RCD.v`, `Props_RCD2.v` | 6 |
| C34 | proved | `Props_CAMUV.v` | 3 |
| C35 | proved | `Props_CAMUV.v` | 1 |
| C36 | proved | `Props_Resit.v` | 2 |
| C37 | partial | `Props_Resit.v` | 3 |
| C38 | proved | `Props_Parce.v` | 3 |
| C39 | partial | `Props_Parce.v` | 2 |
| C40 | proved | `Props_HighDim.v`, `Props_HighDim2.v` | 2 |
| C41 | partial | `Props_HighDim.v` | 4 |
| C42 | proved | `Props_TimeSeries2.v`, `Props_VAR.v` | 2 |
| C43 | proved | `Props_VAR.v` | 1 |
| C44 | partial | `Props_VAR.v` | 3 |
| C45 | partial | `Props_VAR.v` | 2 |
| C46 | proved | `Props_VAR.v` | 2 |
| C47 | partial | `Props_VAR.v` | 2 |
| C48 | partial | `Props_VAR.v` | 3 |
| C49 | partial | `Props_More.v`, `Props_VAR.v` | 3 |
| C50 | partial | `Props_Long.v`, `Props_TimeSeries2.v` | 6 |
| C51 | partial | `Props_Long.v` | 2 |
| C52 | proved | `Props_Sim.v`, `Props_TimeSeries2.v` | 3 |
| C53 | proved | `Props_Sim.v` | 2 |
| C54 | proved | `Props_Sim.v` | 2 |
| C55 | proved | `Props_Lim.v` | 1 |
| C56 | partial | `Props_Lim.v` | 4 |
| C57 | partial | `Props_Lim.v` | 2 |
| C58 | proved | `Props_Hsic.v` | 3 |
| C59 | partial | `Props_Tools.v` | 3 |
| C60 | partial | `Props_Root.v` | 2 |
| C61 | proved | `Props_Direct.v` | 3 |
| C62 | proved | `Props_Direct.v` | 1 |
| C63 | partial | `Props_Exper.v` | 2 |
| C64 | partial | `Props_Exper.v` | 2 |
| C65 | proved | `Props_Exper.v` | 2 |
| C66 | partial | `Props_Direct.v` | 2 |
| C67 | partial | `Props_Effect.v` | 2 |
| C68 | partial | `Props_RCD.v`, `Props_RCD2.v` | 5 |
| C69 | partial | `Props_RCD.v` | 1 |
| C70 | partial | `Props_CAMUV.v` | 1 |
| C71 | partial | `Props_CAMUV.v` | 1 |
| C72 | proved | `Props_More.v`, `Props_Parce.v` | 2 |
| C73 | partial | `Props_Parce.v` | 1 |
| C74 | partial | `Props_Parce.v` | 1 |
| C75 | partial | `Props_VAR.v` | 2 |
| C76 | proved | `Props_VAR.v` | 1 |
| C77 | partial | `Props_VAR.v` | 2 |
| C78 | partial | `Props_VAR.v` | 2 |
| C79 | partial | `Props_VAR.v` | 2 |
| C80 | proved | `Props_VAR.v` | 1 |
| C81 | proved | `Props_Long.v` | 1 |
| C82 | proved | `Props_Long.v` | 1 |
| C83 | partial | `Props_Long.v` | 2 |
| C84 | partial | `Props_Sim.v` | 2 |
| C85 | partial | `Props_Sim.v` | 2 |
| C86 | partial | `Props_Sim.v` | 1 |
| C87 | proved | `Props_Sim.v` | 1 |
| C88 | partial | `Props_Lim.v`, `Props_Lim2.v` | 4 |
| C89 | proved | `Props_Lim.v`, `Props_Lim2.v` | 2 |
| C90 | partial | `Props_Lim.v` | 2 |
| C91 | partial | `Props_Hsic.v` | 2 |
| C92 | proved | `Props_Hsic.v` | 1 |
| C93 | partial | `Props_Hsic.v` | 2 |
| C94 | partial | `Props_Tools.v` | 2 |
| C95 | partial | `Props_Checks2.v`, `Props_Tools.v` | 3 |
| C96 | partial | `Props_Tools.v` | 2 |
| C97 | proved | `Props_Root.v` | 1 |
| C98 | partial | `Props_Exper.v` | 2 |
| C99 | partial | `Props_Exper.v` | 2 |
| C100 | partial | `Props_Exper.v` | 2 |
| C101 | proved | `Props_Exper.v` | 1 |
| C102 | partial | `Props_Exper.v` | 2 |
| C103 | partial | `Props_Exper.v` | 2 |
| C104 | proved | `Props_Exper.v` | 1 |
| C105 | proved | `Props_Pop.v` | 4 |
| C106 | proved | `Props_Pop.v` | 1 |
| C107 | proved | `Props_Pop.v` | 2 |
| C108 | proved | `Props_Pop.v` | 1 |
| C109 | proved | `Props_Pop.v` | 2 |
| C110 | proved | `Props_CAMUV.v`, `Props_CamData.v` | 2 |
| C111 | proved | `Props_Hsic.v` | 2 |
| C112 | proved | `Props_Parce2.v` | 2 |
| C113 | proved | `Props_Parce2.v` | 4 |
| C114 | proved | `Props_RCD2.v` | 2 |
| C115 | proved | `Props_Query.v` | 7 |
| C116 | proved | `Props_Query.v` | 4 |
| C117 | proved | `Props_Checks.v` | 3 |
| C118 | proved | `Props_Checks2.v` | 14 |
| C119 | proved | `Props_HighDim2.v` | 1 |
| C120 | proved | `Props_LongResult.v` | 4 |
| C121 | proved | `Props_LongResult.v` | 1 |
| C122 | partial | `Props_LongResult.v` | 3 |
| C123 | proved | `Props_LongResult.v` | 2 |
| C124 | partial | `Props_LongResult.v` | 3 |
| C125 | partial | `Props_LongResult.v` | 2 |
| C126 | partial | `Props_Draw.v` | 5 |
| C127 | partial | `Props_Draw.v` | 5 |
| C128 | partial | `Props_Draw.v` | 7 |
| C129 | proved | `Props_Draw.v` | 3 |
| C130 | partial | `Props_Util.v` | 4 |
| C131 | proved | `Props_Util.v` | 4 |
| C132 | partial | `Props_Util.v` | 4 |
| C133 | proved | `Props_MGCamuv.v` | 4 |
| C134 | proved | `Props_MGCamuv.v` | 6 |
| C135 | partial | `Props_Lina.v` | 7 |
| C136 | proved | `Props_Lina.v` | 2 |
| C137 | partial | `Props_Lina.v` | 5 |
| C138 | partial | `Props_Lina.v`, `Props_Tight2.v` | 4 |
| C139 | proved | `Props_MGPop.v` | 3 |
| C140 | proved | `Props_VarPop.v` | 2 |
| C141 | proved | `Props_LongPop.v` | 2 |
| C142 | proved | `Props_RCDPop.v` | 1 |
| C143 | partial | `Props_RCDPop.v` | 3 |
| C144 | proved | `Props_ParcePop.v` | 6 |
| C145 | proved | `Props_ParcePop.v` | 2 |
| C146 | proved | `Props_Loss.v` | 4 |
| C147 | partial | `Props_Loss.v` | 8 |
| C148 | partial | `Props_Loss.v` | 6 |
| C149 | partial | `Props_Loss.v` | 2 |
| C150 | proved | `Props_Kernel.v` | 3 |
| C151 | proved | `Props_Kernel.v` | 3 |
| C152 | proved | `Props_Kernel.v` | 2 |
| C153 | proved | `Props_Fcorr.v` | 3 |
| C154 | proved | `Props_Fcorr.v` | 3 |
| C155 | proved | `Props_Fcorr.v` | 4 |
| C156 | proved | `Props_Bic.v` | 4 |
| C157 | proved | `Props_Bic.v` | 5 |
| C158 | partial | `Props_Bic.v` | 2 |
| C159 | partial | `Props_Bic.v` | 5 |
| C160 | proved | `Props_DirectR.v` | 2 |
| C161 | proved | `Props_DirectR.v` | 3 |
| C162 | proved | `Props_DirectR.v` | 1 |
| C163 | proved | `Props_DirectR.v` | 2 |
| C164 | proved | `Props_DirectR.v`, `Props_DirectR2.v` | 4 |
| C165 | proved | `Props_DirectR.v` | 4 |
| C166 | proved | `Props_HighDimData.v` | 2 |
| C167 | partial | `Props_HighDimData.v` | 2 |
| C168 | partial | `Props_HighDimData.v` | 2 |
| C169 | partial | `Props_HighDimData.v` | 3 |
| C170 | partial | `Props_HighDimData.v` | 3 |
| C171 | proved | `Props_HighDimData.v` | 3 |
| C172 | partial | `Props_IcaUnits.v` | 2 |
| C173 | proved | `Props_IcaUnits.v` | 2 |
| C174 | proved | `Props_RCDUnits.v` | 1 |
| C175 | partial | `Props_MlHsic.v` | 4 |
| C176 | proved | `Props_ParceUnits.v` | 1 |
| C177 | partial | `Props_KernelMI.v` | 5 |
| C178 | partial | `Props_PwlingOrder.v` | 2 |
| C179 | proved | `Props_ResitData.v` | 1 |
| C180 | partial | `Props_ResitData.v`, `Props_Tight.v` | 4 |
| C181 | partial | `Props_Oct.v`, `Props_Tight.v` | 6 |
| C182 | partial | `Props_CamData.v` | 2 |
| C183 | partial | `Props_CamData.v`, `Props_Tight.v` | 3 |
| C184 | proved | `Props_MultiDirectR.v`, `Props_Tight.v` | 3 |
| C185 | proved | `Props_MultiDirectR.v` | 3 |
| C186 | partial | `Props_VarR.v` | 2 |
| C187 | partial | `Props_Varma.v` | 5 |
| C188 | partial | `Props_Lim3.v` | 3 |
| C189 | partial | `Props_EffectUnits.v` | 5 |
| C190 | partial | `Props_SimNames.v` | 7 |
| C191 | partial | `Props_SimNames.v`, `Props_Tight.v` | 5 |
| C192 | partial | `Props_MGRCD.v` | 3 |
| C193 | proved | `Props_LongR.v`, `Props_Tight.v` | 3 |
| C194 | proved | `Props_MGCamData.v` | 1 |
| C195 | partial | `Props_OctSp.v`, `Props_Tight.v` | 4 |
| C196 | partial | `Props_Predict.v` | 6 |
| C197 | partial | `Props_VarmaObj.v` | 7 |
| C198 | partial | `Props_VarmaObj.v` | 6 |
| C199 | proved | `Props_VarmaObj.v` | 2 |
| C200 | partial | `Props_TsEffect.v` | 3 |
| C201 | partial | `Props_TsEffect.v` | 5 |
| C202 | partial | `Props_SimCheck.v` | 3 |
| C203 | proved | `Props_SimCheck.v`, `Props_Tight2.v` | 4 |
| C204 | proved | `Props_SimCheck.v`, `Props_Tight2.v` | 7 |
| C205 | partial | `Props_MGRCDHid.v` | 2 |
| C206 | partial | `Props_ResitR.v` | 4 |
| C207 | partial | `Props_CamFcorr.v` | 6 |
| C208 | proved | `Props_CamHsic.v` | 4 |
| C209 | partial | `Props_DirectInt.v` | 8 |
| C210 | partial | `Props_UtilInt.v` | 3 |
| C211 | partial | `Props_ResitBoot.v` | 2 |
| C212 | partial | `Props_RCDInt.v` | 6 |
| C213 | partial | `Props_VarmaPop.v` | 4 |
| C214 | partial | `Props_CamInt.v` | 5 |
| C215 | proved | `Props_CamTwo.v` | 2 |
| C216 | partial | `Props_VarState.v` | 4 |
| C217 | partial | `Props_VarState.v` | 7 |
| C218 | partial | `Props_Vif.v` | 4 |
| C219 | partial | `Props_BaseState.v` | 6 |
| C220 | partial | `Props_BaseState.v` | 5 |
| C221 | partial | `Props_CdgShare.v` | 3 |
| C222 | partial | `Props_CeState.v` | 5 |
| C223 | partial | `Props_OctConf.v` | 5 |
| C224 | partial | `Props_OctConf.v` | 4 |
| C225 | partial | `Props_CdgCat.v` | 6 |
| C226 | partial | `Props_CdgCat.v` | 3 |
| C227 | partial | `Props_CdgCat.v` | 2 |
| C228 | partial | `Props_CdgCat.v` | 3 |
| C229 | partial | `Props_Viz.v` | 4 |
| C230 | partial | `Props_Viz.v` | 2 |
| C231 | partial | `Props_Viz.v` | 4 |
| C232 | partial | `Props_VarmaState.v` | 7 |
| C233 | partial | `Props_LongState.v` | 9 |
| C234 | partial | `Props_HdQuery.v` | 7 |
| C235 | partial | `Props_RcdBoot.v` | 4 |
| C236 | partial | `Props_MGRcdQuery.v` | 4 |
| C237 | partial | `Props_ParceBoot.v` | 3 |
| C238 | partial | `Props_ToolsDefault.v` | 5 |
| C239 | partial | `Props_MGRcdBoot.v` | 3 |
