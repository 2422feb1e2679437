{"id": "C01", "title": "DirectLiNGAM causal order is a permutation", "statement": "Whenever DirectLiNGAM.fit(X) returns, causal_order_ lists every variable 0..n_features-1 exactly once; without prior knowledge fit always reaches such an order.", "quantifier": "every number of variables, every outcome of the independence scores (including NaN), every prior-knowledge matrix, hard or soft, pwling or kernel measure", "why_tests_cant": "The order depends on floating-point scores of arbitrary data; tests fix a few data sets, while the claim must hold whatever the scores turn out to be, at every dimension.", "anchors": ["lingam/direct_lingam.py: DirectLiNGAM.fit, _search_candidate, _search_causal_order, _search_causal_order_kernel"]}
{"id": "C02", "title": "Estimated adjacency matrices are acyclic", "statement": "After fit, adjacency_matrix_[i,j] is non-zero only if j comes strictly before i in causal_order_; hence the estimated graph has no directed cycle and no self loop.", "quantifier": "every data set, every permutation order, every regression outcome (including NaN coefficients), with or without prior knowledge", "why_tests_cant": "The regression coefficients are arbitrary reals; only the index bookkeeping guarantees acyclicity and it must do so for all of them.", "anchors": ["lingam/base.py: _BaseLiNGAM._estimate_adjacency_matrix"]}
{"id": "C03", "title": "Prior knowledge is honoured by the result", "statement": "With prior knowledge applied strongly, if fit returns then for every entry 1 at [i,j], j precedes i in causal_order_; for every entry 0 at [i,j] whose mirror [j,i] is not 0, i precedes j; in both modes adjacency_matrix_[i,j] is 0 wherever the prior knowledge is 0.", "quantifier": "every prior-knowledge matrix, every data set, every score outcome", "why_tests_cant": "The number of prior-knowledge matrices is exponential and the order also depends on data; tests try a handful of 3- or 4-variable matrices.", "anchors": ["lingam/direct_lingam.py: _extract_partial_orders, _search_candidate, fit", "lingam/base.py: _estimate_adjacency_matrix"]}
{"id": "C04", "title": "Strong prior knowledge: fit completes exactly when the constraints are orderable", "statement": "With strong prior knowledge of the right shape, fit produces a causal order for every data set if and only if the ordering constraints (1-entries, and 0-entries whose mirror is not 0) admit a linear order; contradictory prior knowledge always ends in ValueError, never in a wrong order.", "quantifier": "every prior-knowledge matrix of every size, every score outcome", "why_tests_cant": "Needs a completeness argument (acyclic implies a candidate always exists) over all relations.", "anchors": ["lingam/direct_lingam.py: _extract_partial_orders, _search_candidate, _search_causal_order"]}
{"id": "C05", "title": "Satisfiable prior knowledge is accepted", "statement": "If some acyclic causal graph satisfies every 0 (no directed path) and 1 (directed path) entry of the prior-knowledge matrix, DirectLiNGAM.fit accepts it.", "quantifier": "every prior-knowledge matrix for which a compatible DAG exists", "why_tests_cant": "The space of matrices/DAGs is unbounded; the counterexample needs three mutually constrained variables.", "anchors": ["lingam/direct_lingam.py: _extract_partial_orders", "lingam/utils/__init__.py: make_prior_knowledge"]}
{"id": "C06", "title": "Cyclic path constraints are diagnosed", "statement": "If the 1-entries of the prior knowledge form a directed cycle, fit rejects the matrix with its documented inconsistency ValueError before running the search.", "quantifier": "every prior-knowledge matrix whose path entries are cyclic", "why_tests_cant": "Cycles of every length have to be covered; tests only contain 2-cycles.", "anchors": ["lingam/direct_lingam.py: _extract_partial_orders"]}
{"id": "C07", "title": "make_prior_knowledge entry semantics", "statement": "make_prior_knowledge returns at [i,j]: -1 on the diagonal; else 0 if i is exogenous; else 0 if j is a sink; else 1 if (j,i) is in paths; else 0 if (j,i) is in no_paths; else -1.", "quantifier": "every number of variables and every combination (including overlapping) of the four lists", "why_tests_cant": "Overlapping specifications interact through the order of the assignments; only a proof covers all overlaps.", "anchors": ["lingam/utils/__init__.py: make_prior_knowledge"]}
{"id": "C08", "title": "Exogenous and sink variables end-to-end", "statement": "If prior knowledge made by make_prior_knowledge names exogenous and sink variables and DirectLiNGAM.fit returns, every exogenous variable precedes every non-exogenous one and has an all-zero row, and every sink follows every non-sink and has an all-zero column (zero diagonal included).", "quantifier": "every choice of exogenous and sink variables, every data set", "why_tests_cant": "Composition of three functions over all subsets and all data.", "anchors": ["lingam/utils/__init__.py: make_prior_knowledge", "lingam/direct_lingam.py: fit"]}
{"id": "C09", "title": "Soft prior knowledge never makes fit fail", "statement": "With apply_prior_knowledge_softly=True fit always finds a candidate at every step and returns a complete causal order.", "quantifier": "every prior-knowledge matrix, every data set", "why_tests_cant": "Failing matrices need particular mixtures of 1 and unknown entries.", "anchors": ["lingam/direct_lingam.py: _search_candidate (soft branch)"]}
{"id": "C10", "title": "fit is independent of earlier fits (DirectLiNGAM)", "statement": "The result of DirectLiNGAM.fit(X) depends only on the constructor arguments and X, not on previously fitted data or on earlier calls that raised.", "quantifier": "every history of fit calls, succeeding or raising", "why_tests_cant": "Quantifies over call histories.", "anchors": ["lingam/direct_lingam.py: fit"]}
{"id": "C11", "title": "MultiGroupDirectLiNGAM shares one order between groups", "statement": "Whenever MultiGroupDirectLiNGAM.fit returns, one permutation causal_order_ fits every group: each adjacency matrix only has entries from earlier to later variables and is zero where prior knowledge is 0, so the union of all estimated graphs is acyclic; the order does not depend on the order in which the data sets are listed.", "quantifier": "every number of groups, every data, every prior knowledge", "why_tests_cant": "Quantifies over lists of data sets and permutations of them.", "anchors": ["lingam/multi_group_direct_lingam.py: fit, _search_causal_order"]}
{"id": "C12", "title": "ICALiNGAM order search is exact", "statement": "Searching a causal order in a coefficient matrix succeeds exactly when the matrix (self loops counted) has no directed cycle, and the returned order is a permutation in which every non-zero entry [i,j] has j before i.", "quantifier": "every square matrix of every size", "why_tests_cant": "Requires soundness and completeness over all graphs.", "anchors": ["lingam/ica_lingam.py: _search_causal_order"]}
{"id": "C13", "title": "ICALiNGAM always ends with a causal order for two or more variables", "statement": "For n_features >= 2 and any ICA estimate with zero diagonal, the pruning loop ends with a permutation order, has set to zero only a prefix of the entries sorted by magnitude (at least n(n+1)/2 of them), and the remaining matrix is strictly triangular in that order.", "quantifier": "every estimated matrix of every size, every tie-breaking of the sort", "why_tests_cant": "Ties and magnitudes are arbitrary; success at the last step is a counting argument.", "anchors": ["lingam/ica_lingam.py: _estimate_causal_order"]}
{"id": "C14", "title": "ICALiNGAM works for every admissible number of variables", "statement": "ICALiNGAM.fit yields a causal order for every X accepted by its input check, including a single column.", "quantifier": "every n_features >= 1", "why_tests_cant": "Boundary case of a loop over an empty remainder.", "anchors": ["lingam/ica_lingam.py: _estimate_causal_order, fit"]}
{"id": "C15", "title": "find_all_paths is exact on acyclic graphs", "statement": "On an acyclic weighted graph, find_all_paths(dag, from, to, min_causal_effect) with from != to terminates without raising and returns every directed path from `from` to `to` whose edges all exceed min_causal_effect in absolute value, exactly once, each with the product of its coefficients.", "quantifier": "every acyclic matrix of every size, all pairs, all thresholds", "why_tests_cant": "The iterative search with explicit stacks must be exact for exponentially many paths.", "anchors": ["lingam/utils/__init__.py: find_all_paths"]}
{"id": "C16", "title": "find_all_paths terminates and rejects or answers on every graph", "statement": "find_all_paths ends on every matrix, cyclic or not: either it raises the cycle ValueError, or it returns.", "quantifier": "every matrix, all pairs, all thresholds", "why_tests_cant": "Termination on all graphs.", "anchors": ["lingam/utils/__init__.py: find_all_paths"]}
{"id": "C17", "title": "find_all_paths reports cycles", "statement": "If a directed cycle can be reached from `from` without passing through `to`, find_all_paths raises ValueError, and every returned list is a simple path.", "quantifier": "every cyclic matrix", "why_tests_cant": "The failing cases are cycles through the start node together with enough further nodes.", "anchors": ["lingam/utils/__init__.py: find_all_paths"]}
{"id": "C18", "title": "Total effect equals the matrix-inverse total effect", "statement": "For an acyclic adjacency matrix B and from != to in range, calculate_total_effect returns the (to,from) entry of I + B + B^2 + ... (= (I-B)^-1); in particular it satisfies T(to,from) = sum_k B[to,k] T(k,from) with T(from,from)=1, and it is 0 whenever `to` precedes `from` in some causal order.", "quantifier": "every acyclic matrix of every size, all pairs", "why_tests_cant": "Equality between a path enumeration and an algebraic inverse for all DAGs.", "anchors": ["lingam/utils/__init__.py: calculate_total_effect, find_all_paths"]}
{"id": "C19", "title": "Path queries with identical endpoints are answered or rejected cleanly", "statement": "A path query whose start equals its end never ends in an internal indexing error.", "quantifier": "every matrix and index", "why_tests_cant": "Degenerate input not covered by example-based tests.", "anchors": ["lingam/utils/__init__.py: find_all_paths", "lingam/bootstrap.py: BootstrapResult.get_paths"]}
{"id": "C20", "title": "Causal direction counts are exact", "statement": "get_causal_direction_counts reports each (from,to) with |coefficient| above min_causal_effect in at least one resample exactly once, with count equal to the number of such resamples, sorted by decreasing count; n_directions truncates to a top list; split_by_causal_effect_sign splits each count into its positive and negative resamples.", "quantifier": "every list of adjacency matrices (NaN allowed), thresholds, truncations, sort tie-breaks", "why_tests_cant": "Counting identity over arbitrary lists and arbitrary tie-breaking of argsort.", "anchors": ["lingam/bootstrap.py: BootstrapResult.get_causal_direction_counts"]}
{"id": "C21", "title": "DAG counts partition the resamples", "statement": "get_directed_acyclic_graph_counts without truncation returns pairwise distinct graphs whose counts add up to n_sampling, each equal to the number of resamples with exactly that edge set (and signs when requested), in decreasing order.", "quantifier": "every list of adjacency matrices, thresholds, sort tie-breaks", "why_tests_cant": "Counting identity over arbitrary lists.", "anchors": ["lingam/bootstrap.py: BootstrapResult.get_directed_acyclic_graph_counts"]}
{"id": "C22", "title": "Bootstrap probabilities are frequencies", "statement": "get_probabilities()[..][i,j] is (number of resamples with |coefficient[i,j]| > threshold)/n_sampling, hence in [0,1], is antitone in the threshold, and equals count/n_sampling of get_causal_direction_counts; for block matrices the i-th returned block is the i-th lag.", "quantifier": "every non-empty list of adjacency matrices and threshold", "why_tests_cant": "Quantifies over arbitrary lists of matrices.", "anchors": ["lingam/bootstrap.py: BootstrapResult.get_probabilities"]}
{"id": "C23", "title": "Total-effect table uses only effects above the threshold", "statement": "In get_total_causal_effects(min_causal_effect) the reported probability is the frequency of |effect| > min_causal_effect and the reported effect is the median of exactly those effects.", "quantifier": "every array of total effects and threshold", "why_tests_cant": "Depends on mixtures of sub- and super-threshold effects.", "anchors": ["lingam/bootstrap.py: BootstrapResult.get_total_causal_effects"]}
{"id": "C24", "title": "Bootstrap path probabilities", "statement": "get_paths(from,to) lists each directed path occurring in some resample once, with probability = (number of resamples containing it)/n_sampling <= 1, when resampled graphs are acyclic; distinct paths are never merged by the textual encoding.", "quantifier": "every list of acyclic matrices, every pair", "why_tests_cant": "Needs uniqueness of enumerated paths per resample and injectivity of the string key.", "anchors": ["lingam/bootstrap.py: BootstrapResult.get_paths", "lingam/utils/__init__.py: find_all_paths"]}
{"id": "C25", "title": "Bootstrap total effects agree with bootstrap adjacency matrices", "statement": "In the result of bootstrap(), total_effects_[s,to,from] equals the (I-B)^-1 entry of adjacency_matrices_[s] for all from != to and 0 on the diagonal.", "quantifier": "every data set, resampling, number of samplings, model whose matrices are triangular in its order", "why_tests_cant": "The code only fills pairs ordered by causal_order; the rest must be 0 for the claim to hold.", "anchors": ["lingam/bootstrap.py: BootstrapMixin.bootstrap", "lingam/utils/__init__.py: calculate_total_effect"]}
{"id": "C26", "title": "bootstrap leaves the fitted model unchanged", "statement": "After model.fit(X), calling model.bootstrap(X, n) does not change model.causal_order_ and model.adjacency_matrix_.", "quantifier": "every data set and n_sampling", "why_tests_cant": "Quantifies over histories fit;bootstrap.", "anchors": ["lingam/bootstrap.py: BootstrapMixin.bootstrap"]}
{"id": "C27", "title": "CausalEffect accepts exactly the (numerically) acyclic matrices", "statement": "CausalEffect(matrix) raises ValueError iff no order exists in which each row sum of absolute values of remaining columns falls below 1e-10; otherwise its order is a permutation in which every coefficient of magnitude >= 1e-10 points forward.", "quantifier": "every square matrix", "why_tests_cant": "Soundness and completeness over all graphs.", "anchors": ["lingam/causal_effect.py: _check_init_params"]}
{"id": "C28", "title": "Intervention propagation solves the structural equations", "statement": "For a model in triangular form, the means computed for do(x_i = v) satisfy x_i = v and x_j = sum_k B[j,k] x_k + e_j for all other j (the unique solution): intervening at the observed mean returns the observed means, and shifting v by d moves x_j by d times the total effect of i on j.", "quantifier": "every triangular matrix, every mean vector, target and value", "why_tests_cant": "Algebraic identity for all DAGs.", "anchors": ["lingam/causal_effect.py: _get_propagated_effects, estimate_effects_on_prediction"]}
{"id": "C29", "title": "Optimal intervention attains the desired output", "statement": "estimate_optimal_intervention returns a value c such that the linear prediction at the intervened means do(x_i = c) equals desired_output whenever the intervention influences the prediction; the result is independent of the random visiting order.", "quantifier": "every acyclic matrix, every means, every linear predictor, every random choice sequence", "why_tests_cant": "Quantifies over random schedules and over matrices whose rows may cancel.", "anchors": ["lingam/causal_effect.py: estimate_optimal_intervention"]}
{"id": "C30", "title": "RCD terminates", "statement": "RCD.fit's ancestor search ends for every outcome of the statistical tests, within a bound depending only on n_features and max_explanatory_num.", "quantifier": "every sequence of test outcomes, every n_features and max_explanatory_num", "why_tests_cant": "The loop restarts whenever something changes; termination needs a measure argument.", "anchors": ["lingam/rcd.py: _extract_ancestors", "lingam/utils/_rcd.py: extract_ancestors", "lingam/multi_group_rcd.py: _extract_ancestors"]}
{"id": "C31", "title": "RCD ancestor sets and adjacency shape", "statement": "After RCD.fit no variable is its own ancestor, two variables are never ancestors of each other, every non-zero non-NaN adjacency entry [i,j] has j in ancestors_list_[i], NaN entries are symmetric, off-diagonal and never coincide with a parent relation in either direction.", "quantifier": "every sequence of test and regression outcomes", "why_tests_cant": "Invariant over all runs of the search.", "anchors": ["lingam/rcd.py: _extract_ancestors, _extract_parents, _extract_vars_sharing_confounders, _estimate_adjacency_matrix"]}
{"id": "C32", "title": "RCD never returns a cyclic ancestor relation", "statement": "The ancestor relation (and hence the directed part of the adjacency matrix) returned by RCD is acyclic, so that total effects and bootstrap can be computed.", "quantifier": "every sequence of test outcomes", "why_tests_cant": "Cycles of length three or more arise from pairwise decisions that tests on generated data rarely produce.", "anchors": ["lingam/rcd.py: _extract_ancestors, _exists_ancestor_in_U, bootstrap"]}
{"id": "C33", "title": "MultiGroupRCD independence decision uses every group", "statement": "With independence='fcorr', a pair is judged independent only if the F-correlation is below the threshold in all groups; the decision does not depend on the order of the data sets.", "quantifier": "every number of groups and every vector of per-group F-correlations", "why_tests_cant": "Quantifies over groups; failing cases need the last group to differ from the others.", "anchors": ["lingam/multi_group_rcd.py: _is_independent"]}
{"id": "C34", "title": "CAMUV terminates and respects prior knowledge", "statement": "CAMUV.fit ends for every test outcome; if prior_knowledge contains (a,b) then adjacency_matrix_[b,a] is never 1.", "quantifier": "every sequence of test outcomes, prior knowledge list, n_features, num_explanatory_vals", "why_tests_cant": "Restarting loop over subsets under arbitrary statistical outcomes.", "anchors": ["lingam/camuv.py: _find_parents, _check_prior_knowledge, _get_child, _estimate_adjacency_matrix"]}
{"id": "C35", "title": "CAMUV adjacency shape", "statement": "CAMUV's matrix has zero diagonal, entries in {0,1,NaN}; two variables never both point at each other; NaN is symmetric and only between pairs with no edge; edges only join variables that are neighbours (dependent) in the screening step.", "quantifier": "every sequence of test outcomes", "why_tests_cant": "Invariant over all runs.", "anchors": ["lingam/camuv.py: _find_parents, _estimate_adjacency_matrix"]}
{"id": "C36", "title": "RESIT result shape", "statement": "RESIT.fit returns a permutation causal_order_ and a 0/1 matrix whose ones point from earlier to later variables.", "quantifier": "every regressor and HSIC outcome", "why_tests_cant": "Loop with set bookkeeping under arbitrary regressors.", "anchors": ["lingam/resit.py: _estimate_order, _remove_edges, fit"]}
{"id": "C37", "title": "RESIT can return a variable without parents", "statement": "If every independence test accepts independence, RESIT removes every edge (a variable independent of all its predecessors ends up without parents).", "quantifier": "every regressor/HSIC outcome", "why_tests_cant": "Must hold for all outcomes; tests check only one generated data set with true edges.", "anchors": ["lingam/resit.py: _remove_edges"]}
{"id": "C38", "title": "BottomUpParceLiNGAM order structure", "statement": "causal_order_ of BottomUpParceLiNGAM consists of at most one block of two or more unordered variables, which comes first, followed by single variables; together they list every variable exactly once; adjacency entries are NaN exactly between different members of the block and otherwise non-zero only from earlier to later positions.", "quantifier": "every sequence of test outcomes, prior knowledge", "why_tests_cant": "Invariant over all runs.", "anchors": ["lingam/bottom_up_parce_lingam.py: fit, _search_causal_order, _estimate_adjacency_matrix"]}
{"id": "C39", "title": "BottomUpParceLiNGAM does not accept an order every test rejects", "statement": "If every candidate's independence test rejects (smallest possible p-values), BottomUpParceLiNGAM reports those variables as an unordered block rather than as a causal order.", "quantifier": "every outcome of the HSIC tests, including p-values that are exactly 0", "why_tests_cant": "Needs p-values underflowing to 0 for every candidate, which sampled test data do not hit.", "anchors": ["lingam/bottom_up_parce_lingam.py: _find_exo_vec, _fisher_hsic_test, _is_reject, _search_causal_order"]}
{"id": "C40", "title": "HighDimDirectLiNGAM order", "statement": "HighDimDirectLiNGAM.fit ends with a permutation causal_order_ and a matrix triangular in it, for every outcome of the statistics.", "quantifier": "every statistic outcome", "why_tests_cant": "Loop bookkeeping under arbitrary statistics.", "anchors": ["lingam/high_dim_direct_lingam.py: fit"]}
{"id": "C41", "title": "HighDimDirectLiNGAM minimises over all conditioning sets", "statement": "The pruning statistic of a variable is the minimum over all conditioning subsets of the permitted size.", "quantifier": "every table of tau values", "why_tests_cant": "Depends on the smallest statistic not being attained at the first subset.", "anchors": ["lingam/high_dim_direct_lingam.py: _calc_taus, _get_prune_stats"]}
{"id": "C42", "title": "VARLiNGAM residuals and structural form", "statement": "The residual series of VARLiNGAM is X_t - sum_tau M_tau X_{t-tau} for t >= lags, and without pruning the returned matrices satisfy the structural equations: (I-B_0) n_t = X_t - B_0 X_t - sum_tau B_tau X_{t-tau}.", "quantifier": "every series, every lag order, every coefficient matrices", "why_tests_cant": "Algebraic identity over all data.", "anchors": ["lingam/var_lingam.py: _calc_residuals, _calc_b, fit"]}
{"id": "C43", "title": "VARLiNGAM pruning aligns lags without leaking across the series boundary", "statement": "In the regression used for pruning, the row for time t contains exactly X_t and its true predecessors X_{t-1},...,X_{t-lags}; no row mixes the end of the series with its beginning.", "quantifier": "every series length and lag order", "why_tests_cant": "np.roll wrap-around affects only a few rows and hardly changes estimates in tests.", "anchors": ["lingam/var_lingam.py: _pruning", "lingam/varma_lingam.py: _pruning"]}
{"id": "C44", "title": "Time-series refit uses the new data", "statement": "VARLiNGAM.fit(X2) gives the same result whether or not the object was fitted to other data X1 before.", "quantifier": "every history of fits", "why_tests_cant": "Quantifies over histories.", "anchors": ["lingam/var_lingam.py: fit", "lingam/varma_lingam.py: fit"]}
{"id": "C45", "title": "Lagged total effects count every path through time", "statement": "VARLiNGAM.estimate_total_effect2 for a lagged source equals the sum over all directed paths from x_i(t-lag) to x_j(t) in the time-unrolled graph (the graph used by get_paths).", "quantifier": "every coefficient matrices, lag and pair", "why_tests_cant": "Requires comparing with the unrolled graph for all coefficients.", "anchors": ["lingam/var_lingam.py: estimate_total_effect2, VARBootstrapResult.get_paths"]}
{"id": "C46", "title": "VAR bootstrap get_paths uses the unrolled graph", "statement": "The graph searched by VARBootstrapResult.get_paths has an edge x_j(t-b) -> x_i(t-a) exactly when b>=a and B_{b-a}[i,j] is non-zero (b-a within the lag order), and none otherwise.", "quantifier": "every number of lags, features and coefficients", "why_tests_cant": "Index arithmetic on block matrices for every size.", "anchors": ["lingam/var_lingam.py: VARBootstrapResult.get_paths"]}
{"id": "C47", "title": "VARMA moving-average structural matrices", "statement": "VARMALiNGAM's Omega_j equals (I-Psi_0) Theta_j (I-Psi_0)^-1.", "quantifier": "every invertible I-Psi_0 and Theta", "why_tests_cant": "Algebraic identity; tests only check shapes.", "anchors": ["lingam/varma_lingam.py: _calc_psi_and_omega"]}
{"id": "C48", "title": "VARMA total effects address the requested lag", "statement": "VARMALiNGAM.estimate_total_effect2(..., from_lag=k) is the effect of the variable at lag k.", "quantifier": "every lag k >= 0", "why_tests_cant": "Only lags >= 2 expose an index error.", "anchors": ["lingam/varma_lingam.py: estimate_total_effect2, estimate_total_effect"]}
{"id": "C49", "title": "VARMALiNGAM accepts user-supplied coefficients", "statement": "VARMALiNGAM with given ar_coefs and ma_coefs and prune=True fits every valid series.", "quantifier": "every series length, orders p,q >= 1", "why_tests_cant": "Shape arithmetic over all sizes.", "anchors": ["lingam/varma_lingam.py: fit, _calc_residuals, _pruning"]}
{"id": "C50", "title": "LongitudinalLiNGAM stores lags in the documented order", "statement": "adjacency_matrices_[t, tau] is the matrix of effects from time t-tau to time t, for tau = 0..n_lags.", "quantifier": "every number of lags, time points, data", "why_tests_cant": "The test-suite uses n_lags=1, the only value at which reversal is invisible.", "anchors": ["lingam/longitudinal_lingam.py: fit, _compute_residuals, _estimate_lagged_matrices"]}
{"id": "C51", "title": "LongitudinalLiNGAM default bootstrap works for every n_lags", "statement": "bootstrap(X_list, n) with default start_from_t runs for every n_lags the model was fitted with.", "quantifier": "every n_lags >= 1", "why_tests_cant": "Only n_lags >= 2 exposes NaN orders.", "anchors": ["lingam/longitudinal_lingam.py: bootstrap, fit"]}
{"id": "C52", "title": "Simulation without changes replays the training data", "statement": "CausalBasedSimulator.run() without changes (shuffle off, continuous variables) returns exactly the data train() was given, whatever regression models are used.", "quantifier": "every data set, every DAG, every regression models", "why_tests_cant": "Holds by induction along the causal order for arbitrary models.", "anchors": ["lingam/causal_based_simulator.py: train, _train, run, _simulate"]}
{"id": "C53", "title": "Simulator order and cycle rejection", "statement": "run() simulates every variable after all of its (possibly changed) parents, raises ValueError exactly when the changed graph is cyclic, and a change of one variable's model or error leaves all non-descendants unchanged.", "quantifier": "every graph and change set", "why_tests_cant": "All graphs and all changes.", "anchors": ["lingam/causal_based_simulator.py: CBSILiNGAM._calc_causal_order, get_causal_order, _simulate"]}
{"id": "C54", "title": "Simulator time-series alignment", "statement": "For the time-series simulator the row r of variable v at lag l is X[n_lags - l + r, v], and all lagged columns have n_samples - n_lags rows.", "quantifier": "every series and lag", "why_tests_cant": "Slice arithmetic with negative and None bounds.", "anchors": ["lingam/causal_based_simulator.py: CBSITimeSeriesLiNGAM.get_data"]}
{"id": "C55", "title": "Acyclicity measure of LiM and LiNA", "statement": "The constraint value h(W) used by LiM and LiNA is >= 0 and equals 0 exactly when the graph of W is acyclic.", "quantifier": "every real (rational) square matrix of every size", "why_tests_cant": "A theorem about matrix powers for all sizes.", "anchors": ["lingam/lim.py: _h", "lingam/lina.py: _h"]}
{"id": "C56", "title": "LiM's acyclicity tolerance implies acyclicity", "statement": "A matrix passing LiM's local-search check h(W) < h_tol (1e-8) after thresholding at w_threshold (0.1) is acyclic.", "quantifier": "every thresholded matrix", "why_tests_cant": "Counterexamples need long cycles of small weights.", "anchors": ["lingam/lim.py: fit, _h"]}
{"id": "C57", "title": "LiM fit is independent of earlier fits", "statement": "LiM.fit(X) behaves the same on a fresh object and on one fitted before.", "quantifier": "every history of fits", "why_tests_cant": "Quantifies over histories.", "anchors": ["lingam/lim.py: fit"]}
{"id": "C58", "title": "HSIC statistic is symmetric and centred", "statement": "The centred Gram matrix has zero row and column sums, and the HSIC statistic satisfies HSIC(x,y) = HSIC(y,x).", "quantifier": "every kernel matrix and sample size >= 1", "why_tests_cant": "Algebraic identity over all samples.", "anchors": ["lingam/hsic.py: get_gram_matrix, hsic_teststat"]}
{"id": "C59", "title": "bootstrap_with_imputation bookkeeping", "statement": "In the returned imputation results a value is present exactly at the positions that were missing in the resampled data, and it is the imputed value; a causal order from a user model is accepted iff it is a permutation of the variables.", "quantifier": "every data set, missingness pattern, imputer and model output", "why_tests_cant": "All missingness patterns.", "anchors": ["lingam/tools/__init__.py: bootstrap_with_imputation, _check_cd_output"]}
{"id": "C60", "title": "Distance from root nodes", "statement": "calculate_distance_from_root_nodes returns for each variable the length of the shortest directed path from a variable without parents.", "quantifier": "every acyclic matrix", "why_tests_cant": "Coefficients that cancel in a row sum are needed to see the failure.", "anchors": ["lingam/utils/__init__.py: calculate_distance_from_root_nodes"]}
{"id": "C61", "title": "Exogenous and sink queries", "statement": "get_exo_variables returns exactly the variables with no non-zero off-diagonal row entry, get_sink_variables those with no non-zero off-diagonal column entry, in increasing order.", "quantifier": "every matrix", "why_tests_cant": "All matrices.", "anchors": ["lingam/utils/__init__.py: get_exo_variables, get_sink_variables"]}
{"id": "C62", "title": "Error independence p-value matrices are symmetric", "statement": "get_error_independence_p_values returns a symmetric matrix with zero diagonal whose [i,j] entry (i != j) is the p-value of the pair.", "quantifier": "every data set and fitted matrix", "why_tests_cant": "All sizes.", "anchors": ["lingam/base.py: get_error_independence_p_values"]}
{"id": "C63", "title": "visualize_nonlinear_causal_effect adjusts for all parents", "statement": "The covariates used for the effect of cause on effect are the cause and all its parents in the supplied causal graph (except the effect), for every graph in the supplied bootstrap result.", "quantifier": "every adjacency matrix and bootstrap result", "why_tests_cant": "Needs non-unit weights and several resamples.", "anchors": ["lingam/utils/_visualize_nonlinear_causal_effect.py: _calculate"]}
{"id": "C64", "title": "CausalDataGenerator replays its data", "statement": "For continuous variables CausalDataGenerator.generate() with no interventions returns the fitted data for every admissible set of adjustments, including none, and for every DataFrame.", "quantifier": "every data set, adjustments list and regression models", "why_tests_cant": "Covers the empty adjustment list and extra columns.", "anchors": ["lingam/experimental/cdg.py: fit, generate"]}
{"id": "C65", "title": "OutOfSampleCausalTuning Markov blankets", "statement": "The Markov blanket used by OCT for variable i consists of its parents, children and the other parents of its children, never i itself, and is symmetric for loop-free graphs; the selected configuration never has a larger blanket size than the unpenalised best.", "quantifier": "every matrix and every score table", "why_tests_cant": "All graphs.", "anchors": ["lingam/experimental/oct.py: _get_mb, _sparsity_penalty"]}
{"id": "C66", "title": "Estimated graphs contain no directed path excluded by the prior knowledge", "statement": "If prior knowledge says there is no directed path from j to i, the graph estimated by DirectLiNGAM contains no directed path (of any length) from j to i.", "quantifier": "every prior knowledge accepted by fit, every score and regression outcome", "why_tests_cant": "Direct edges are removed, but indirect paths depend on the order that the data happen to produce.", "anchors": ["lingam/direct_lingam.py: fit, _search_candidate", "lingam/base.py: _estimate_adjacency_matrix"]}
{"id": "C67", "title": "CausalEffect follows its causal model", "statement": "Every estimate requested from a CausalEffect object is computed from the causal model as it is fitted at the time of the request.", "quantifier": "every history of (re)fits of the causal model and estimate requests", "why_tests_cant": "Depends on the whole history of calls.", "anchors": ["lingam/causal_effect.py: CausalEffect.__init__, _check_init_params"]}
{"id": "C68", "title": "MultiGroupRCD reports one total effect per data set", "statement": "MultiGroupRCD.estimate_total_effect2 returns a list with one entry per data set, NaN where the source is confounded, and the bootstrap results record the same.", "quantifier": "every set of fitted matrices and every pair of variables", "why_tests_cant": "All confounder patterns.", "anchors": ["lingam/multi_group_rcd.py: estimate_total_effect, estimate_total_effect2, bootstrap"]}
{"id": "C69", "title": "RCD's ancestor search ends at a fixpoint", "statement": "When RCD's ancestor search returns, applying its own rule to any subset of variables would add no further ancestor.", "quantifier": "every outcome of the tests and every size", "why_tests_cant": "Needs interactions between overlapping subsets.", "anchors": ["lingam/rcd.py: _extract_ancestors (hu_history)", "lingam/utils/_rcd.py: extract_ancestors"]}
{"id": "C70", "title": "CAMUV prior knowledge excludes causes", "statement": "If prior_knowledge contains (a,b), 'X_a cannot be a cause of X_b', the estimated graph has no directed path from a to b.", "quantifier": "every outcome of the tests and every prior knowledge", "why_tests_cant": "Indirect paths depend on all test outcomes together.", "anchors": ["lingam/camuv.py: _check_prior_knowledge, _get_child"]}
{"id": "C71", "title": "CAMUV returns an acyclic graph", "statement": "The directed part of CAMUV's adjacency matrix has no directed cycle.", "quantifier": "every outcome of the tests", "why_tests_cant": "Needs an unlucky combination of three or more tests.", "anchors": ["lingam/camuv.py: _find_parents"]}
{"id": "C72", "title": "BottomUpParceLiNGAM respects prior knowledge", "statement": "Whenever the prior knowledge orders a before b, a stands before b in causal_order_ or both are members of the unordered block; no edge is reported where the prior knowledge excludes a path.", "quantifier": "every prior knowledge and every outcome of the tests", "why_tests_cant": "Invariant over all runs and prior-knowledge matrices.", "anchors": ["lingam/bottom_up_parce_lingam.py: fit, _extract_partial_orders, _search_candidate, _search_causal_order, _estimate_adjacency_matrix"]}
{"id": "C73", "title": "BottomUpParceLiNGAM tests a sink against all remaining variables", "statement": "A variable is only placed behind the remaining variables after its residual from all other remaining variables was found independent of them, with or without prior knowledge.", "quantifier": "every prior knowledge and outcome of the tests", "why_tests_cant": "Needs prior knowledge that leaves several but not all variables as candidates.", "anchors": ["lingam/bottom_up_parce_lingam.py: _find_exo_vec, _search_candidate"]}
{"id": "C74", "title": "A failed BottomUpParceLiNGAM refit leaves no stale result", "statement": "If fit raises, neither causal_order_ nor adjacency_matrix_ reports the result of an earlier fit.", "quantifier": "every history of fits", "why_tests_cant": "Quantifies over histories.", "anchors": ["lingam/bottom_up_parce_lingam.py: fit, adjacency_matrix_"]}
{"id": "C75", "title": "Lagged columns never mix the end of a series with its beginning", "statement": "In the design matrices built by VARLiNGAM/VARMALiNGAM.estimate_total_effect and by VARMALiNGAM pruning, the lag-p column of row t is X_{t-p}.", "quantifier": "every series, row, lag and variable", "why_tests_cant": "Index arithmetic for all lengths and lags.", "anchors": ["lingam/var_lingam.py: estimate_total_effect", "lingam/varma_lingam.py: estimate_total_effect, _pruning"]}
{"id": "C76", "title": "VARLiNGAM bootstrap series follow the fitted autoregression", "statement": "Each bootstrap series satisfies X*_t = sum_tau M_tau X*_{t-tau} + e*_t for t >= lags, where e*_t is the residual row drawn for t.", "quantifier": "every fitted model, draw and length", "why_tests_cant": "Recursion over all lengths.", "anchors": ["lingam/var_lingam.py: bootstrap"]}
{"id": "C77", "title": "VARLiNGAM bootstrap draws from the residuals of the original fit", "statement": "In every bootstrap iteration the drawn residuals are rows of the residual series of the fit to the original data.", "quantifier": "every number of samples and every draw", "why_tests_cant": "A history property: it fails only from the second sample on.", "anchors": ["lingam/var_lingam.py: bootstrap", "lingam/varma_lingam.py: bootstrap"]}
{"id": "C78", "title": "VARLiNGAM bootstrap does not depend on earlier fits", "statement": "bootstrap(X, k) gives the same results on a fresh object and on one that was fitted before, for the same random draws.", "quantifier": "every history of fits and every draw", "why_tests_cant": "Quantifies over histories.", "anchors": ["lingam/var_lingam.py: bootstrap, fit"]}
{"id": "C79", "title": "VARLiNGAM pruning uses the lag order of the coefficients", "statement": "With given ar_coefs of any number of lags and prune=True, fit succeeds whatever the constructor's lags is.", "quantifier": "every number of coefficient matrices and lags", "why_tests_cant": "Shape reasoning for all sizes.", "anchors": ["lingam/var_lingam.py: fit, _pruning"]}
{"id": "C80", "title": "VARMALiNGAM residuals satisfy the VARMA equations", "statement": "With given coefficients the residual series e satisfies X_t = sum AR_k X_{t-k} + sum MA_k e_{t-k} + e_t wherever all terms are defined, whatever the random initial values.", "quantifier": "every series, coefficients and initial noise", "why_tests_cant": "Recursion over all lengths.", "anchors": ["lingam/varma_lingam.py: _calc_residuals"]}
{"id": "C81", "title": "Longitudinal prior knowledge constrains exactly the stated effects", "statement": "With prior_knowledge A of shape (T, n_lags+1, p, p), the constraint used for the effect of variable j at time s on variable i at time t is A[t, t-s, i, j] for t-n_lags <= s <= t (anything but 0/1 meaning unknown), and 'no effect' for every later or more distant s.", "quantifier": "every T, n_lags, p and prior knowledge", "why_tests_cant": "Block index arithmetic for all sizes.", "anchors": ["lingam/longitudinal_lingam.py: fit"]}
{"id": "C82", "title": "Longitudinal causal orders with prior knowledge are orders of each time point", "statement": "With prior knowledge, causal_orders_[t] is a permutation of the variables that lists them in the same relative order as the joint order over all time points.", "quantifier": "every joint order, T and p", "why_tests_cant": "For all orders.", "anchors": ["lingam/longitudinal_lingam.py: fit"]}
{"id": "C83", "title": "Longitudinal estimate_total_effect2 is the total effect of the unrolled model", "statement": "estimate_total_effect2(from_t, i, to_t, j) is the entry of (I-E)^-1 of the unrolled model over from_t..to_t, and E is the law of the data: the matrix multiplying X_s in the fitted equation of X_t.", "quantifier": "every fitted model and pair of (time, variable)", "why_tests_cant": "Unbounded unrolling and matrix inverse.", "anchors": ["lingam/longitudinal_lingam.py: estimate_total_effect2"]}
{"id": "C84", "title": "Simulated time series are series", "statement": "In the time-series simulator's output the column of variable v at lag l is the column of v at lag 0 moved by l rows.", "quantifier": "every series, graph and change of errors or models", "why_tests_cant": "Relation between all rows and lags under all changes.", "anchors": ["lingam/causal_based_simulator.py: CBSITimeSeriesLiNGAM, _simulate"]}
{"id": "C85", "title": "changing_exog accepts any array-like of the right length", "statement": "run(changing_exog={name: values}) uses values as the error of the variable whenever values is array-like with n_samples entries.", "quantifier": "every container type and values", "why_tests_cant": "The check accepts what the use then rejects; needs all container types.", "anchors": ["lingam/causal_based_simulator.py: _check_changing_exog, _simulate"]}
{"id": "C86", "title": "run() before train() is reported", "statement": "run() on an object that was never trained raises the RuntimeError the code intends.", "quantifier": "every argument", "why_tests_cant": "A history property.", "anchors": ["lingam/causal_based_simulator.py: run"]}
{"id": "C87", "title": "Shuffling residuals only permutes the rows", "statement": "With shuffle_residual=True, no changes and models that predict row by row, the simulated data are the training rows in permuted order (the same permutation for all variables).", "quantifier": "every graph, data, row-wise model and permutation", "why_tests_cant": "For all models and permutations.", "anchors": ["lingam/causal_based_simulator.py: _simulate"]}
{"id": "C88", "title": "LiM's global phase returns an optimum", "statement": "LiM(...).fit(X, dis_con, only_global=True) returns the thresholded matrix of the last point found by the optimiser, never a random starting point.", "quantifier": "every optimiser, random stream, and setting of max_iter, h_tol, rho_max and w_threshold", "why_tests_cant": "Depends on the whole run of a nested loop and its restarts.", "anchors": ["lingam/lim.py: _estimate_LiM"]}
{"id": "C89", "title": "LiM's local search only improves", "statement": "The matrix LiM.fit returns after the local search has a loss no larger than the global estimate, is either that estimate or a matrix within the acyclicity tolerance with strictly smaller loss, and no admissible reversal of a subset of the estimated edges has a smaller loss.", "quantifier": "every estimate, loss and tolerance, every number of variables", "why_tests_cant": "Exhaustive over exponentially many reversals and every loss.", "anchors": ["lingam/lim.py: _estimate_LiM"]}
{"id": "C90", "title": "LiM's global phase ends with a result for every rho_max", "statement": "The nested loops of LiM's global phase terminate and return a matrix for every max_iter >= 1 and every rho_max.", "quantifier": "every optimiser, random stream and setting", "why_tests_cant": "Termination for every optimiser.", "anchors": ["lingam/lim.py: _estimate_LiM"]}
{"id": "C91", "title": "HSIC test ignores the order of the samples", "statement": "hsic_test_gamma gives the same statistic and p-value when the rows of both samples are permuted in the same way.", "quantifier": "every pair of samples, every permutation of the rows", "why_tests_cant": "For all permutations of all samples.", "anchors": ["lingam/hsic.py: hsic_test_gamma, get_kernel_width"]}
{"id": "C92", "title": "HSIC test ignores units", "statement": "With the median bandwidth, shifting the columns of a sample and multiplying it by a non-zero number changes neither the statistic nor the p-value.", "quantifier": "every pair of samples, shift and factor", "why_tests_cant": "For all shifts and factors.", "anchors": ["lingam/hsic.py: hsic_test_gamma, get_kernel_width, get_gram_matrix"]}
{"id": "C93", "title": "HSIC test yields a statistic and a p-value", "statement": "hsic_test_gamma returns a numeric statistic and p-value for every pair of non-constant samples.", "quantifier": "every pair of non-constant samples of every size", "why_tests_cant": "All sample sizes and data.", "anchors": ["lingam/hsic.py: hsic_test_gamma"]}
{"id": "C94", "title": "bootstrap_with_imputation returns one matrix per repetition", "statement": "adj_matrices_list of bootstrap_with_imputation has shape (n_sampling, n_repeats, n_features, n_features).", "quantifier": "every imputer and discovery model supplied by the user", "why_tests_cant": "Depends on what user-supplied objects return.", "anchors": ["lingam/tools/__init__.py: bootstrap_with_imputation, _check_cd_output"]}
{"id": "C95", "title": "bootstrap_with_imputation keeps observed values", "statement": "Every data set given to the discovery model equals the bootstrap sample at every observed position.", "quantifier": "every imputer, data set and bootstrap draw", "why_tests_cant": "Depends on what user-supplied objects return.", "anchors": ["lingam/tools/__init__.py: bootstrap_with_imputation, _check_imputer_outout"]}
{"id": "C96", "title": "bootstrap_with_imputation works with the default imputer", "statement": "With the default imputer bootstrap_with_imputation does not fail for data in which every variable has an observed value.", "quantifier": "every data set, every bootstrap draw", "why_tests_cant": "Rare draws only.", "anchors": ["lingam/tools/__init__.py: _DefaultMultipleImputation, _check_imputer_outout"]}
{"id": "C97", "title": "calculate_distance_from_root_nodes lists every variable once", "statement": "In an acyclic graph calculate_distance_from_root_nodes without a distance limit lists every variable under exactly one distance, once, and no distance key twice.", "quantifier": "every acyclic matrix whose row sums do not cancel", "why_tests_cant": "All graphs and sizes.", "anchors": ["lingam/utils/__init__.py: calculate_distance_from_root_nodes"]}
{"id": "C98", "title": "visualize_nonlinear_causal_effect uses every bootstrap matrix", "statement": "For a BootstrapResult one regression is run per bootstrap matrix, on the rows of that resample and with the covariates of that matrix.", "quantifier": "every bootstrap result, with or without stored resampled indices", "why_tests_cant": "Silent truncation of a loop.", "anchors": ["lingam/utils/_visualize_nonlinear_causal_effect.py: visualize_nonlinear_causal_effect, _calculate"]}
{"id": "C99", "title": "visualize_nonlinear_causal_effect ignores row labels", "statement": "For a single matrix the regression uses every row of X exactly once, whatever the row labels of X are.", "quantifier": "every index of the data frame", "why_tests_cant": "Test frames have the default index.", "anchors": ["lingam/utils/_visualize_nonlinear_causal_effect.py: visualize_nonlinear_causal_effect, _calculate"]}
{"id": "C100", "title": "CausalDataGenerator applies endogenous interventions", "statement": "A value passed in interv_endog for an accepted variable appears in the generated data.", "quantifier": "every accepted dictionary", "why_tests_cant": "Needs an intervention on an adjustment variable.", "anchors": ["lingam/experimental/cdg.py: generate, _check_data_dict"]}
{"id": "C101", "title": "CausalDataGenerator intervention semantics", "statement": "Under an intervention on the cause the adjustments keep their values and the effect is the effect model at the new cause plus the effect's residual; an intervention on the effect changes no other column.", "quantifier": "every pair of models, data set and intervention vector", "why_tests_cant": "All models and data.", "anchors": ["lingam/experimental/cdg.py: fit, generate"]}
{"id": "C102", "title": "OutOfSampleCausalTuning reports a missing model", "statement": "A configuration without model and without all_others is rejected by the configuration check.", "quantifier": "every configuration", "why_tests_cant": "Checks a message that can never be raised.", "anchors": ["lingam/experimental/oct.py: _check_configs, _estimate_graph"]}
{"id": "C103", "title": "OutOfSampleCausalTuning picks the best score", "statement": "Without sparsity penalty the chosen configuration is the first one with the highest score.", "quantifier": "every list of scores, NaN included", "why_tests_cant": "NaN scores.", "anchors": ["lingam/experimental/oct.py: fit"]}
{"id": "C104", "title": "OutOfSampleCausalTuning Markov blanket sizes", "statement": "The reported mb_size is between 0 and n_features - 1 for graphs without self loops and equals n_features - 1 for all_others.", "quantifier": "every list of estimated graphs", "why_tests_cant": "All graphs.", "anchors": ["lingam/experimental/oct.py: _get_mb_sizes, _select_explanatory"]}
{"id": "C105", "title": "DirectLiNGAM finds a causal order of the generating model", "statement": "On data that obey a linear acyclic model with uncorrelated errors of positive variance, the causal order returned by fit puts every cause before its effects, provided the independence measure scores variables without remaining parents better than the others, and the strong prior knowledge, if any, is obeyed by some causal order of the model.", "quantifier": "every linear acyclic model, number of variables and rows, data set generated by it, measure with this property, and consistent strong prior knowledge", "why_tests_cant": "Tests run a handful of simulated data sets; correctness is about every model.", "anchors": ["lingam/direct_lingam.py: fit, _search_causal_order, _search_causal_order_kernel, _residual, _search_candidate"]}
{"id": "C106", "title": "The estimated adjacency matrix is the generating one", "statement": "If the causal order is a causal order of the generating model and the regression returns least-squares coefficients, every entry of adjacency_matrix_ equals the coefficient of the model, also when prior knowledge removes predictors that are truly absent.", "quantifier": "every linear acyclic model, data set, correct order and correct prior knowledge", "why_tests_cant": "Tests check approximate values on one simulated data set.", "anchors": ["lingam/base.py: _estimate_adjacency_matrix"]}
{"id": "C107", "title": "estimate_total_effect returns the true total effect", "statement": "On data of a linear acyclic model, with a correct order and every true parent of the source found, estimate_total_effect returns the entry of (I-B)^-1 for the pair, and warns exactly if the destination precedes the source.", "quantifier": "every model, data set and pair of variables, causally related or not", "why_tests_cant": "Adjustment sets must be right in every graph.", "anchors": ["lingam/base.py: estimate_total_effect"]}
{"id": "C108", "title": "DirectLiNGAM end to end", "statement": "Under the assumptions of the previous three properties fit followed by estimate_total_effect returns a causal order, the generating matrix and its total effects.", "quantifier": "every linear acyclic model and data set", "why_tests_cant": "Composition over all models.", "anchors": ["lingam/direct_lingam.py: fit", "lingam/base.py: _estimate_adjacency_matrix, estimate_total_effect"]}
{"id": "C109", "title": "ICALiNGAM recovers the model from an exact unmixing matrix", "statement": "If ICA returns the rows of I-B scaled and in any order, the row assignment without zeros recovers B exactly, the order found is a causal order of the model and the adjacency matrix equals B (at least two variables, least-squares regression).", "quantifier": "every linear acyclic model, scaling, row permutation, assignment and tie-breaking of the sort", "why_tests_cant": "All permutations, scalings and graphs.", "anchors": ["lingam/ica_lingam.py: fit, _search_causal_order, _estimate_causal_order"]}
{"id": "C110", "title": "CAMUV reports exactly the parents its search justifies", "statement": "The parent sets returned by fit come from a sequence of discoveries each justified by the independence tests (all members of the set not yet related, pairwise correlated, residual of the child independent of the set, residuals without it dependent), no set of at most num_explanatory_vals variables admits a further discovery, and the result is the pruning of that final state.", "quantifier": "every outcome of the tests, number of variables, num_explanatory_vals, threshold, prior knowledge and iteration order of sets", "why_tests_cant": "The loop restarts after each discovery; no finite set of data decides that it neither stops early nor accepts too much.", "anchors": ["lingam/camuv.py: _find_parents, _get_child, _check_independence_withou_K, _check_identified_causality, _check_correlation"]}
{"id": "C111", "title": "The HSIC p-value is the gamma approximation", "statement": "hsic_test_gamma returns the statistic n times the biased HSIC estimate and the gamma tail whose mean and variance are those of the null distribution of Gretton et al., with the kernel width the median of the positive pairwise distances.", "quantifier": "every data set of at least four rows and every bandwidth rule", "why_tests_cant": "Tests compare with a few stored numbers.", "anchors": ["lingam/hsic.py: hsic_test_gamma, hsic_teststat, get_gram_matrix, get_kernel_width"]}
{"id": "C112", "title": "BottomUpParceLiNGAM places exactly the sinks its tests select", "statement": "The ordered part of causal_order_ is built from the end: at each step the candidate (a variable that prior knowledge does not force before another remaining one) least dependent on the other candidates is taken, with the combined p-value or largest correlation of its residual deciding whether it is placed or the remaining variables become the unordered block.", "quantifier": "every number of variables, prior knowledge, threshold and finite test statistics, for both independence measures", "why_tests_cant": "The choice depends on all subsets and all ties.", "anchors": ["lingam/bottom_up_parce_lingam.py: fit, _search_causal_order, _find_exo_vec, _is_reject, _fisher_hsic_test, _f_correlation, _search_candidate"]}
{"id": "C113", "title": "BottomUpParceLiNGAM is correct under latent confounding", "statement": "If the test never accepts a variable that has an effect among the remaining ones, every true cause precedes its effects in causal_order_ or both are in the unordered block; if it also accepts true sinks and prefers them, and the data obey a linear acyclic model with exact regressions, the order is complete and adjacency_matrix_ is the generating matrix.", "quantifier": "every acyclic graph, number of variables, test statistics and data set of a linear acyclic model", "why_tests_cant": "Correctness over all graphs, confounded or not.", "anchors": ["lingam/bottom_up_parce_lingam.py: fit, _search_causal_order, _find_exo_vec, _estimate_adjacency_matrix"]}
{"id": "C114", "title": "RCD's ancestor search is exact", "statement": "The ancestor sets returned by RCD are obtained from empty sets only by discoveries: a set of 2 to max_explanatory_num+1 variables whose residuals given their common ancestors are all non-Gaussian and pairwise correlated, with exactly one member that is no ancestor of the others and whose regression residual is independent of them. Conversely every such set of variables was examined in a state with the same common ancestors as at the end, and what was found then is in the result; an accepted unambiguous pair without common ancestors is always recorded.", "quantifier": "all numbers of variables, all max_explanatory_num, all answers of the tests", "why_tests_cant": "the search restarts after each discovery and skips sets it has seen; missed or superfluous sets show only for particular answer patterns", "anchors": ["lingam/rcd.py:RCD._extract_ancestors", "lingam/utils/_rcd.py:extract_ancestors", "lingam/multi_group_rcd.py:MultiGroupRCD"]}
{"id": "C115", "title": "Total effects of RCD, bottom-up and multi-group models", "statement": "On data from a linear acyclic model, estimate_total_effect of RCD, BottomUpParceLiNGAM and (for each data set) MultiGroupDirectLiNGAM is the true total effect whenever the source's row of the estimated matrix has the true parents; it is NaN exactly for a source with an unknown incoming edge; the warning is given exactly when the target is an ancestor of (RCD), in an earlier item than (Parce), or before (multi-group) the source. The multi-group bootstrap stores, for each data set, its matrix of total effects.", "quantifier": "all linear models, data, estimated matrices, orders with blocks, sources and targets", "why_tests_cant": "holds for every data set and matrix; needs an algebraic identity, not examples", "anchors": ["lingam/rcd.py:RCD.estimate_total_effect", "lingam/bottom_up_parce_lingam.py:BottomUpParceLiNGAM.estimate_total_effect", "lingam/bottom_up_parce_lingam.py:BottomUpParceLiNGAM.estimate_total_effect2", "lingam/multi_group_direct_lingam.py:MultiGroupDirectLiNGAM.estimate_total_effect", "lingam/multi_group_direct_lingam.py:MultiGroupDirectLiNGAM.bootstrap"]}
{"id": "C116", "title": "Error independence p-values", "statement": "get_error_independence_p_values returns a symmetric matrix with zero diagonal in which entry (i,j) is the p-value of the test between the errors of x_i and x_j; for RCD and BottomUpParceLiNGAM it is NaN exactly for pairs involving a variable with an unknown edge. When the estimated matrix is the model's, the columns tested are the model's error variables (also for VARLiNGAM, computed from the VAR residuals).", "quantifier": "all numbers of variables, matrices (with NaN entries), data and tests", "why_tests_cant": "quantifies over all matrices and patterns of unknown entries", "anchors": ["lingam/base.py:_BaseLiNGAM.get_error_independence_p_values", "lingam/rcd.py:RCD.get_error_independence_p_values", "lingam/bottom_up_parce_lingam.py:BottomUpParceLiNGAM.get_error_independence_p_values", "lingam/var_lingam.py:VARLiNGAM.get_error_independence_p_values"]}
{"id": "C117", "title": "Invalid imputation or discovery results are never accepted", "statement": "bootstrap_with_imputation accepts the output of the given imputer and of the given discovery model exactly when they are valid: at least one completed data set of the shape of X without missing values; a causal order whose set of values is {0,...,p-1} and whose length is the number of variables; p x p adjacency matrices of finite numbers. Everything else is rejected with a ValueError, and nothing is returned.", "quantifier": "every data set, sequence of bootstrap draws, imputer output and discovery output", "why_tests_cant": "Tests try a handful of malformed outputs; the equivalence has to hold for every output an arbitrary user object may return.", "anchors": ["lingam/tools/__init__.py:bootstrap_with_imputation", "lingam/tools/__init__.py:_check_imputer_outout", "lingam/tools/__init__.py:_check_cd_output"]}
{"id": "C118", "title": "Invalid arguments are rejected with the documented exception", "statement": "Out-of-range indices, identical endpoints, non-positive thresholds, unusable dictionaries, non-linear predictors, missing prior matrices and cyclic graphs given to the query functions (root distances, total effects, paths, bootstrap probabilities, optimal intervention, VAR paths, VARMA coefficients, longitudinal effects, visualisation helper, data generator and simulator) are rejected with the exception named in the code, and where the theorem is an equivalence nothing else is rejected.", "quantifier": "all argument values of the listed functions", "why_tests_cant": "Tests check one invalid value per argument; whether every invalid combination is rejected, and no valid one, needs a statement over all of them.", "anchors": ["lingam/utils/__init__.py:calculate_distance_from_root_nodes", "lingam/utils/__init__.py:calculate_total_effect", "lingam/utils/__init__.py:find_all_paths", "lingam/bootstrap.py:BootstrapResult.get_probabilities", "lingam/causal_effect.py:CausalEffect.estimate_optimal_intervention", "lingam/var_lingam.py:VARBootstrapResult.get_paths", "lingam/varma_lingam.py:VARMALiNGAM.fit", "lingam/longitudinal_lingam.py:LongitudinalLiNGAM.estimate_total_effect2", "lingam/causal_based_simulator.py:CausalBasedSimulator.run", "lingam/experimental/cdg.py:CausalDataGenerator"]}
{"id": "C119", "title": "HighDimDirectLiNGAM places, in each round, the first variable whose largest statistic is smallest", "statement": "Fitting HighDimDirectLiNGAM returns an order built round by round. Statistics only decrease: in the first round they are compared with those of the raw columns, later with those of residuals on the last placed variable and at most J-1 placed variables whose statistic exceeds the cut-off. The variable placed is the first whose largest statistic over the unplaced variables is smallest, and the cut-off rises to alpha times that value when this is larger.", "quantifier": "All data sets, all numbers of variables, all moment statistics and regressions supplied from outside, all rounds.", "why_tests_cant": "Tests check one order on one simulated data set; they cannot show that every round of every input follows the rule or that ties go to the first variable.", "anchors": ["lingam/high_dim_direct_lingam.py:HighDimDirectLiNGAM.fit", "lingam/high_dim_direct_lingam.py:HighDimDirectLiNGAM._get_prune_stats", "lingam/high_dim_direct_lingam.py:HighDimDirectLiNGAM._calc_taus"]}
{"id": "C120", "title": "Longitudinal bootstrap: direction counts per time point", "statement": "LongitudinalBootstrapResult.get_causal_direction_counts returns one table per time point; the row for (to, from, lag) of time t counts exactly the bootstrap samples whose coefficient of that variable at that lag exceeds the threshold in absolute value (by sign if requested); rows are distinct and sorted by count, n_directions keeps the first ones, and the only errors are ValueErrors for invalid arguments or for results without samples.", "quantifier": "all numbers of variables, lags, time points and samples, all coefficients (with NaN), thresholds and argsort tie-breaking", "why_tests_cant": "The column index of a table mixes lag and variable; a test on one data set cannot show that no coefficient is counted at a wrong lag or lost.", "anchors": ["lingam/longitudinal_lingam.py:LongitudinalBootstrapResult.get_causal_direction_counts"]}
{"id": "C121", "title": "Longitudinal bootstrap: graph counts per time point", "statement": "LongitudinalBootstrapResult.get_directed_acyclic_graph_counts partitions, at every time point, the samples by the set of their large coefficients (with signs if requested): every listed graph occurs exactly count times, every sample is counted once, equal graphs are not listed twice, and the counts sum to the number of samples.", "quantifier": "all numbers of variables, lags, time points and samples, all coefficients and thresholds", "why_tests_cant": "Holds for every multiset of graphs; tests list a few.", "anchors": ["lingam/longitudinal_lingam.py:LongitudinalBootstrapResult.get_directed_acyclic_graph_counts"]}
{"id": "C122", "title": "Longitudinal bootstrap: probabilities and total effects", "statement": "LongitudinalBootstrapResult.get_probabilities returns for each time, lag and pair the fraction of the samples whose coefficient exceeds the threshold; get_total_causal_effects lists every pair (time, variable) -> (time, variable) whose total effect exceeds the threshold in some sample, with the fraction of these samples and the median of their effects.", "quantifier": "all samples, thresholds and sizes", "why_tests_cant": "A median over a wrong subset of the samples agrees with the right one on most test data.", "anchors": ["lingam/longitudinal_lingam.py:LongitudinalBootstrapResult.get_probabilities", "lingam/longitudinal_lingam.py:LongitudinalBootstrapResult.get_total_causal_effects"]}
{"id": "C123", "title": "Longitudinal bootstrap: paths through the unrolled graph", "statement": "LongitudinalBootstrapResult.get_paths lists exactly the directed paths from variable from_index at from_t to to_index at to_t in the graphs unrolled over time, each once, with the fraction of the samples that contain it and the median over these samples of the product of its coefficients; it raises for a target before the source, for equal nodes and for times out of range.", "quantifier": "all samples with acyclic instantaneous graphs, all time spans, lags and thresholds", "why_tests_cant": "The number of unrolled paths grows exponentially with the span; tests check single paths.", "anchors": ["lingam/longitudinal_lingam.py:LongitudinalBootstrapResult.get_paths"]}
{"id": "C124", "title": "Longitudinal total effect by regression adjusts for the parents", "statement": "LongitudinalLiNGAM.estimate_total_effect regresses the target on the source and on exactly the parents of the source at their times, and returns the coefficient of the source; without a causal order at the time it raises ValueError.", "quantifier": "all fitted models, panels, times and variables", "why_tests_cant": "A regression on a column of a wrong time returns a plausible number; no test compares the column sets.", "anchors": ["lingam/longitudinal_lingam.py:LongitudinalLiNGAM.estimate_total_effect"]}
{"id": "C125", "title": "Longitudinal error p-values are available for every fitted model", "statement": "After fit, LongitudinalLiNGAM.get_error_independence_p_values returns for every later time a symmetric matrix with the p-values of the pairs of errors (residuals with the instantaneous effects removed) and NaN for the first time.", "quantifier": "all data, fitted models and independence tests", "why_tests_cant": "Depends on the history of the object (with or without prior knowledge), for all data.", "anchors": ["lingam/longitudinal_lingam.py:LongitudinalLiNGAM.get_error_independence_p_values", "lingam/longitudinal_lingam.py:LongitudinalLiNGAM.residuals_"]}
{"id": "C126", "title": "make_dot draws exactly the significant edges", "statement": "The drawing of make_dot has one node per variable (labels or x0, x1, ...), one edge from -> to, in row-major order, for exactly the coefficients with absolute value above lower_limit, labelled with the coefficient; the edges on directed paths between the given ends and the edges on cycles are marked exactly; prediction edges are those above the limit; every pair of unknown order gets a double-headed arrow.", "quantifier": "all matrices with NaN entries, labels, limits, path ends and prediction models; all enumerations of simple paths and cycles that networkx may return", "why_tests_cant": "A drawing is not compared edge by edge in tests; a transposed or lost edge gives a plausible picture.", "anchors": ["lingam/utils/__init__.py:make_dot"]}
{"id": "C127", "title": "make_dot accepts valid arguments and rejects invalid ones", "statement": "make_dot returns a drawing for every square matrix with matching labels, prediction features in range and path ends in range, and raises a documented error (ValueError or TypeError) for wrong shapes, label counts, path types and path ends out of range.", "quantifier": "all shapes, labels, prediction arguments, paths and flags", "why_tests_cant": "Argument checks must hold for every combination of arguments.", "anchors": ["lingam/utils/__init__.py:make_dot"]}
{"id": "C128", "title": "make_dot_highlight places every node by its distance from the target", "statement": "make_dot_highlight draws the target alone in its cluster, every variable that is reachable within max_dsc steps in the cluster of its shortest distance below the target, every variable that reaches the target within max_anc steps above it, and the rest among the others exactly if requested; descendants are drawn lower and ancestors higher the further they are; every edge that is shown is drawn once between any two copies of its ends, with path and cycle edges marked; variables on the highlighted path are coloured.", "quantifier": "all matrices, targets, limits, labels and paths; all enumerations of simple paths and cycles that networkx may return", "why_tests_cant": "Shortest distances in both directions on arbitrary (also cyclic) graphs; tests only check that a graph is returned.", "anchors": ["lingam/utils/__init__.py:make_dot_highlight"]}
{"id": "C129", "title": "Printed bootstrap tables show every row with its names, sign and percentage", "statement": "print_causal_directions and print_dagc print one line per row in the order of the table: target and source by label (or x<i>), (b>0) or (b<0) exactly when the table has signs, and 100 * count / n_sampling; a label that is missing raises IndexError and nothing else fails.", "quantifier": "all tables, numbers of samples and label lists", "why_tests_cant": "Swapped names in a printed line are not noticed by tests that only run the function.", "anchors": ["lingam/utils/__init__.py:print_causal_directions", "lingam/utils/__init__.py:print_dagc"]}
{"id": "C130", "title": "remove_effect leaves residuals that are uncorrelated with the removed features", "statement": "remove_effect(X, remove_features) leaves the removed features unchanged and replaces every other column by its least-squares residual on all of them: mean zero, uncorrelated with every removed feature. Applying it again changes nothing. An index outside the columns or an empty selection raises an error.", "quantifier": "all data, all lists of feature indices, every procedure that returns least-squares fits", "why_tests_cant": "Columns are replaced in place while others are still to be computed; orthogonality must hold for every selection of features.", "anchors": ["lingam/utils/__init__.py:remove_effect"]}
{"id": "C131", "title": "The adaptive lasso selects predictors and refits them by least squares", "statement": "predict_adaptive_lasso returns one coefficient per predictor: zero for the predictors that are not selected, the least-squares coefficients on the selected ones otherwise; if the selection keeps the true parents among the earlier variables, the coefficients are the true ones, and DirectLiNGAM then returns the true matrix.", "quantifier": "all data, predictor lists and targets; every standardisation, weighting and lasso path; every least-squares procedure", "why_tests_cant": "The result depends on external solvers; which coefficients can be non-zero and what they equal is a claim about all of them.", "anchors": ["lingam/utils/__init__.py:predict_adaptive_lasso", "lingam/high_dim_direct_lingam.py:HighDimDirectLiNGAM._predict_adaptive_lasso"]}
{"id": "C132", "title": "evaluate_model_fit describes exactly the given model", "statement": "The model description that evaluate_model_fit passes to semopy has one equation per variable with an entry, in order, whose right side lists exactly the non-zero coefficients with their variables and one latent variable per pair of unknown relation; each latent variable is declared once and two pairs never share one; every variable with a non-zero flag in is_ordinal is declared ordinal. Wrong shapes raise ValueError.", "quantifier": "all adjacency matrices with NaN entries, data shapes and is_ordinal arguments", "why_tests_cant": "A lost term or two pairs that share a latent variable change the statistics without any error.", "anchors": ["lingam/utils/__init__.py:evaluate_model_fit"]}
{"id": "C133", "title": "MultiGroupCAMUV always returns a well-formed result", "statement": "MultiGroupCAMUV's constructor and fit accept exactly valid arguments: a list of at least two data sets with the same number of features; everything else raises ValueError. For a valid list fit returns; entries are 0, 1 or NaN; no variable causes itself; no pair is directed both ways; NaN marks, symmetrically, exactly the undirected pairs that stay dependent given their parents; excluded directions from the prior knowledge never appear; the parents are exactly those the combined tests justify.", "quantifier": "all lists of data sets, all results of the independence tests on them, all settings and prior knowledge, all iteration orders of Python sets", "why_tests_cant": "The search depends on every test result; the shape must hold for all of them.", "anchors": ["lingam/multi_group_camuv.py:MultiGroupCAMUV", "lingam/multi_group_camuv.py:MultiGroupCAMUV.fit", "lingam/multi_group_camuv.py:MultiGroupCAMUV._check_X_list"]}
{"id": "C134", "title": "MultiGroupCAMUV uses every data set and ignores their order", "statement": "With F-correlation two residuals are independent exactly if their F-correlation is below the threshold in every data set; with HSIC exactly if Fisher's combination of the p-values of all data sets exceeds the threshold; larger p-values never turn independence into dependence and one p-value 0 decides. Permuting the data sets does not change the result; copies of one data set give CAMUV's result on it.", "quantifier": "all lists of data sets, all tests, all thresholds, all permutations of the list", "why_tests_cant": "Dropping or double counting one data set gives plausible matrices for most inputs.", "anchors": ["lingam/multi_group_camuv.py:MultiGroupCAMUV._is_independent_by", "lingam/multi_group_camuv.py:MultiGroupCAMUV.fit"]}
{"id": "C135", "title": "LiNA returns a thresholded weight matrix; when it is acyclic", "statement": "LiNA's estimation of the weights between latent factors returns for every minimiser and data; the weights are those of a point found by the minimiser, with weights below w_threshold in absolute value set to zero; no factor causes itself; if the acyclicity value reached h_tol and h_tol is below (w_threshold^2/d)^d, the matrix is acyclic.", "quantifier": "all minimisers, all settings, any number of factors", "why_tests_cant": "Acyclicity is only enforced through a penalty; whether the stopping rule guarantees it is a statement about all matrices.", "anchors": ["lingam/lina.py:LiNA", "lingam/lina.py:LiNA._estimate_LiNA", "lingam/lina.py:MDLiNA._estimate_MDLiNA_B"]}
{"id": "C136", "title": "LiNA recovers the factor scores of data generated from its loadings", "statement": "If the data are factor scores times the loading matrix, the factor scores used by LiNA.fit are exactly those scores, each multiplied by its entry of scale; a scale array that is too small raises IndexError.", "quantifier": "all data, loadings with invertible Gram matrix, scales", "why_tests_cant": "Needs the algebra of the pseudo-inverse for all shapes.", "anchors": ["lingam/lina.py:LiNA.fit"]}
{"id": "C137", "title": "MD-LiNA alternates until the likelihood settles and relabels the factors consistently", "statement": "MDLiNA.fit stops at the first round whose likelihood settles; the returned matrix is the estimated one with rows and columns permuted alike; the permutation matches concepts to factors by the largest weights first, so acyclicity is preserved.", "quantifier": "all data, all results of the two estimation steps, any number of factors and domains, all scale arrays", "why_tests_cant": "The matching is greedy with ties and zero columns; that it is a permutation must hold for every weight matrix.", "anchors": ["lingam/lina.py:MDLiNA", "lingam/lina.py:MDLiNA.fit"]}
{"id": "C138", "title": "MD-LiNA's factor matrix comes from the last minimisation", "statement": "The estimated matrix between multi-domain factors and factors of interest is the best point among the minimisations that were run.", "quantifier": "all minimisers, random starts and settings", "why_tests_cant": "Depends on the sequence of scores of random restarts.", "anchors": ["lingam/lina.py:MDLiNA._estimate_MDLiNA_H"]}
{"id": "C139", "title": "MultiGroupDirectLiNGAM is correct on model data", "statement": "If every data set comes from its own linear acyclic model (own size, coefficients, errors and edges) and one variable order suits all of them, and if the pairwise measure tells directions in each data set and the regressions are exact, then MultiGroupDirectLiNGAM.fit returns one order that is causal in every data set - an edge present in a single data set is enough to settle the order of its ends - each adjacency matrix equals the coefficients of its data set, and estimate_total_effect returns the true total effect in every data set. A shared order can only exist if the edges of all data sets together are acyclic.", "quantifier": "all numbers of groups and variables, all linear acyclic models per group with a common order, all measures that tell directions, all strong prior knowledge obeyed by a common order", "why_tests_cant": "the guarantee is about all models and data satisfying the assumptions, and depends on the weighted sum over groups never cancelling evidence; tests only try a few simulated groups", "anchors": ["lingam/multi_group_direct_lingam.py:fit", "lingam/multi_group_direct_lingam.py:_search_causal_order", "lingam/multi_group_direct_lingam.py:estimate_total_effect"]}
{"id": "C140", "title": "VARLiNGAM is correct on series from a structural autoregression", "statement": "If a series follows x_t = B0 x_t + B1 x_(t-1) + ... + Bp x_(t-p) + e_t with acyclic B0 and errors that have mean zero, positive variance and no correlation with each other or with the past values, and the autoregression and the regressions are exact, then VARLiNGAM.fit with p lags (with and without pruning) returns a causal order of B0 and adjacency matrices equal to B0, B1, ..., Bp; whatever LiNGAM method is used, the residuals it is given obey exactly the instantaneous model B0 and (I - B0) times the autoregressive coefficients are the lagged coefficients.", "quantifier": "all lengths, numbers of variables and lags >= 1, all structural autoregressions and series satisfying the assumptions, both measures, prune on and off", "why_tests_cant": "identification is a statement about all models; it needs the argument that least squares recovers the reduced form and that pruning regresses on the right columns at the right times", "anchors": ["lingam/var_lingam.py:fit", "lingam/var_lingam.py:_estimate_var_coefs", "lingam/var_lingam.py:_calc_b", "lingam/var_lingam.py:_pruning"]}
{"id": "C141", "title": "LongitudinalLiNGAM is correct on panels from a linear model at every time", "statement": "If the variables at time t follow x_t = B_t,0 x_t + B_t,1 x_(t-1) + ... + B_t,L x_(t-L) + e_t over the subjects, with acyclic B_t,0 and errors that have positive variance and no correlation with each other or with the past values, and the regressions are exact, then LongitudinalLiNGAM.fit returns for time t a causal order of B_t,0, exactly B_t,0 as the instantaneous matrix, residuals that obey the instantaneous model, and as lag blocks 1..L exactly the matrices B_t,L, ..., B_t,1 (for one lag, the default, every entry at its documented place).", "quantifier": "all numbers of subjects, variables, lags and all time points t >= L, all models and panels satisfying the assumptions, both measures", "why_tests_cant": "identification is a statement about all models; tests on simulated panels compare with tolerances and usually use one lag", "anchors": ["lingam/longitudinal_lingam.py:fit", "lingam/longitudinal_lingam.py:_compute_residuals", "lingam/longitudinal_lingam.py:_estimate_instantaneous_effects", "lingam/longitudinal_lingam.py:_estimate_lagged_effects"]}
{"id": "C142", "title": "RCD recovers the model when no variable is hidden", "statement": "If all variables of a linear acyclic model with uncorrelated errors are observed, effects along different paths do not cancel and the tests answer correctly on linear combinations of the errors, then RCD.fit with max_explanatory_num 1 or 2 (the default) records for every variable exactly its ancestors in the true graph and returns an adjacency matrix equal to the true coefficients, without any NaN.", "quantifier": "all numbers of rows and variables, all models, all regressions that solve least squares, all ideal tests, MLHSICR on or off", "why_tests_cant": "identification is a statement about all graphs; tests run a few simulated graphs whose answers depend on sampling noise", "anchors": ["lingam/rcd.py:fit", "lingam/rcd.py:_extract_ancestors", "lingam/rcd.py:_extract_parents", "lingam/rcd.py:_extract_vars_sharing_confounders", "lingam/rcd.py:_estimate_adjacency_matrix"]}
{"id": "C143", "title": "The ancestors found by RCD are true ancestors even when there are hidden variables", "statement": "If some variables of a linear acyclic model are hidden, effects do not cancel and the tests answer correctly, every variable that RCD.fit records as an ancestor of another (ancestors_list_) is an ancestor of it in the true graph.", "quantifier": "all models, all choices of hidden variables, all ideal tests, all values of max_explanatory_num", "why_tests_cant": "a counterexample needs a hidden common cause of two variables with a third caused by one of them and exact tests; with noisy tests a wrong ancestor looks like a test error", "anchors": ["lingam/rcd.py:_extract_ancestors", "lingam/rcd.py:ancestors_list_"]}
{"id": "C144", "title": "BottomUpParceLiNGAM never contradicts the truth when there are hidden variables", "statement": "If the data contain some of the variables of a linear acyclic model with uncorrelated errors, effects do not cancel and the dependence measure (F-correlation or HSIC with Fisher's method) answers correctly on combinations of the errors, then BottomUpParceLiNGAM.fit returns, no variable stands after one of its effects, the row of every ordered variable whose direct causes are all observed holds the true coefficients, and every variable of the unordered block without effects inside the block has a hidden direct cause.", "quantifier": "all numbers of rows, observed and hidden variables, all models, both independence measures, all ideal measures", "why_tests_cant": "robustness to hidden causes is a statement about all graphs and all choices of hidden variables; tests run one or two simulated graphs and do not compare with the truth", "anchors": ["lingam/bottom_up_parce_lingam.py:fit", "lingam/bottom_up_parce_lingam.py:_search_causal_order", "lingam/bottom_up_parce_lingam.py:_find_exo_vec", "lingam/bottom_up_parce_lingam.py:_compute_residuals", "lingam/bottom_up_parce_lingam.py:_estimate_adjacency_matrix"]}
{"id": "C145", "title": "BottomUpParceLiNGAM recovers the model when no variable is hidden", "statement": "If all variables of a linear acyclic model are observed, effects do not cancel, the regressions solve least squares and the dependence measure answers correctly, BottomUpParceLiNGAM.fit without prior knowledge returns a complete causal order without a block, consistent with the true graph, and the true adjacency matrix.", "quantifier": "all numbers of rows and variables, all models, both independence measures, all ideal measures", "why_tests_cant": "identification is a statement about all graphs; tests run a few simulated graphs whose answers depend on sampling noise", "anchors": ["lingam/bottom_up_parce_lingam.py:fit", "lingam/bottom_up_parce_lingam.py:_search_causal_order", "lingam/bottom_up_parce_lingam.py:_estimate_adjacency_matrix"]}
{"id": "C146", "title": "LiNA hands its optimiser the gradient of its objective", "statement": "For each of the losses l2, logistic, poisson and laplace, the vector that LiNA (and the second step of MD-LiNA) returns to the optimiser together with the augmented Lagrangian (loss, acyclicity terms, L1 penalty on the doubled variables) is its gradient at every point: the derivative along every direction is the inner product with the direction. Any other loss name raises ValueError.", "quantifier": "all numbers of samples and factors, all data, points, directions, losses and multipliers", "why_tests_cant": "a test compares a few finite differences; a gradient must be right at every point of every data set", "anchors": ["lingam/lina.py:_loss", "lingam/lina.py:_h", "lingam/lina.py:_func", "lingam/lina.py:_adj"]}
{"id": "C147", "title": "LiM hands its optimiser the gradient of its objective", "statement": "For each loss type of LiM, the matrix returned with the loss is its gradient at every point. True for logistic and, if all variables are continuous, mixed. False for laplace (minus the gradient: stepping against it raises the loss), for mixed with discrete variables (minus the gradient on discrete effects, spurious summands between variables of different kinds) and for poisson (row sums of the data instead of entries).", "quantifier": "all numbers of samples and variables, all data, indicators of discrete variables, points and directions", "why_tests_cant": "the optimiser still returns something when the gradient is wrong; tests check only that fit runs", "anchors": ["lingam/lim.py:_loss", "lingam/lim.py:_h", "lingam/lim.py:_func"]}
{"id": "C148", "title": "The losses of LiM are average negative log-likelihoods", "statement": "The loss minimised by LiM is the average over the samples of the negative log-likelihood of the variables given their predictors. True for logistic, laplace and, if all variables are continuous, mixed. False for mixed with discrete variables (it is minus the average, and has no lower bound on binary data) and for poisson (which adds the products of every predictor with the values of the other variables).", "quantifier": "all numbers of samples and variables, all data, all weights", "why_tests_cant": "a wrong sign in a loss is invisible to tests that only look at shapes and types of results", "anchors": ["lingam/lim.py:_loss"]}
{"id": "C149", "title": "MD-LiNA accepts the losses of LiNA and follows the gradient when it maps domains", "statement": "The step of MD-LiNA that estimates the mapping between domains accepts every loss that LiNA accepts and hands the optimiser the gradient of its objective. False: logistic and poisson always raise ValueError, l2 raises unless there is one domain, and for laplace in the first round with centred factors the matrix returned is never the gradient.", "quantifier": "all numbers of samples, domains and factors, all data, all mappings, all correct inversion routines", "why_tests_cant": "the optimiser still returns something when the gradient is wrong; tests check only that fit runs with the default loss", "anchors": ["lingam/lina.py:_estimate_MDLiNA_H"]}
{"id": "C150", "title": "The HSIC statistic is a squared norm", "statement": "The Gaussian gram matrix and the centred gram matrix returned by get_gram_matrix are positive semidefinite, the statistic hsic_teststat of two samples is never negative, and its square is at most the product of the statistics of either sample with itself.", "quantifier": "all numbers of samples and columns, all data, all non-zero kernel widths", "why_tests_cant": "semidefiniteness speaks of all vectors and all data; tests look at a few matrices", "anchors": ["lingam/hsic.py:get_gram_matrix", "lingam/hsic.py:hsic_teststat", "lingam/hsic.py:_rbf_dot"]}
{"id": "C151", "title": "The HSIC statistic is zero exactly on independent samples", "statement": "hsic_teststat of the centred gram matrices of two samples is zero if and only if the empirical distribution of the pairs is the product of its marginals (n times the number of samples with given rows x and y is the product of the numbers of samples with row x and with row y). In particular, if no two samples agree on X it is zero only for constant Y, and whether it is zero does not depend on the kernel widths.", "quantifier": "all numbers of samples and columns, all data with or without repeated rows, all non-zero kernel widths", "why_tests_cant": "no finite number of tests shows that every kind of dependence is seen", "anchors": ["lingam/hsic.py:hsic_teststat", "lingam/hsic.py:get_gram_matrix"]}
{"id": "C152", "title": "The moments behind the HSIC p-value are those of a distribution on the positive numbers", "statement": "The mean under the null hypothesis used by hsic_test_gamma lies in [0, 1/n) and is zero exactly if one sample is constant; the variance is never negative from four samples on, is zero for four and five samples whatever the data, and from six samples on is zero exactly if the centred gram matrices have no common non-zero entry off the diagonal.", "quantifier": "all numbers of samples and columns, all data, all non-zero kernel widths", "why_tests_cant": "the gamma parameters are quotients of these; when they are undefined depends on all of the data", "anchors": ["lingam/hsic.py:hsic_test_gamma"]}
{"id": "C153", "title": "The incomplete Cholesky factor approximates the Gaussian gram matrix from below", "statement": "The decomposition used by f_correlation ends after at most as many columns as there are samples; it returns a reordering of the samples and a lower trapezoidal factor with positive diagonal; with the rows put back in order, the gram matrix minus G G^T is positive semidefinite, has trace and all entries at most the tolerance, and vanishes on the chosen samples; no column is computed unless more than the tolerance is missing, and every pivot is a largest one. With tolerance zero it is exact.", "quantifier": "all sample sizes, all samples, all kernel widths other than zero, all tolerances from zero", "why_tests_cant": "termination and the error bound are statements about all samples; tests look at a few", "anchors": ["lingam/utils/_f_correlation.py:_incomplete_cholesky"]}
{"id": "C154", "title": "The F-correlation is a regularised canonical correlation in [0, 1)", "statement": "A value returned by f_correlation is at least 0 and less than 1, and is the largest inner product of features A a and B b with |(A + n kappa/2 I) a| = |(B + n kappa/2 I) b| = 1, where A and B are positive semidefinite matrices that approximate the doubly centred Gaussian gram matrices of the standardised samples from below within n kappa / 50 in the order of forms. It is zero exactly when the product of A and B is zero.", "quantifier": "all sample sizes, all samples, all sorting and eigenvalue routines that meet their documentation", "why_tests_cant": "a variational characterisation ranges over all vectors; tests compare single numbers", "anchors": ["lingam/utils/_f_correlation.py:f_correlation", "lingam/utils/_f_correlation.py:_svd"]}
{"id": "C155", "title": "The F-correlation is symmetric and does not depend on units", "statement": "Both orders of the arguments give the same value; any change of origin and scale of either sample (reversals included) leaves the outcome as it is; samples of different sizes and constant samples are rejected with ValueError, and in all other cases the outcome is 1 minus the eigenvalue found by eigsh, or its error.", "quantifier": "all sample sizes, all samples, all affine changes, all routines (for symmetry: those that meet their documentation)", "why_tests_cant": "pivoting and truncation are applied to either sample; that they do not break symmetry must hold for all data", "anchors": ["lingam/utils/_f_correlation.py:f_correlation"]}
{"id": "C156", "title": "LiM scores graphs variable by variable", "statement": "The score used by LiM's local search is a sum of one term per variable minus log(n)/2 for every edge and every variable; a term depends on the graph only through the parents of its variable, so weights do not matter, and changing the parents of one variable leaves the other terms alone. The term of a discrete variable without parents is the largest log-likelihood that any distribution on its values gives its samples; it is never positive and zero exactly for a constant column.", "quantifier": "all data, all graphs, all regression routines", "why_tests_cant": "the claim compares the scores of all graphs; maximality ranges over all distributions", "anchors": ["lingam/lim.py:_bic_scoring"]}
{"id": "C157", "title": "The score of a continuous variable is a Laplace log-likelihood up to a constant", "statement": "The local log-likelihood of a continuous variable is the log-likelihood of its residuals under the Laplace density whose standard deviation is that of the residuals, plus n (log sqrt 2 - 0.35): the constant -0.35 of the code makes the total mass sqrt 2 exp(-0.35) < 1 instead of 1, the same for all graphs. In other units of all variables it changes by -n log |a_i| only, and it is undefined exactly when all residuals are equal.", "quantifier": "all data, coefficients, intercepts and affine changes of units", "why_tests_cant": "an identity between real functions, with an improper integral", "anchors": ["lingam/utils/__init__.py:likelihood_i", "lingam/utils/__init__.py:log_p_super_gaussian", "lingam/utils/__init__.py:variance_i"]}
{"id": "C158", "title": "More parents fit a continuous variable at least as well", "statement": "Apart from the penalty, adding parents to a continuous variable never lowers LiM's score.", "quantifier": "all data and pairs of nested graphs, least squares coefficients", "why_tests_cant": "the counterexample needs the plugged-in least squares fit to be worse under the Laplace likelihood", "anchors": ["lingam/lim.py:_bic_scoring", "lingam/utils/__init__.py:likelihood_i"]}
{"id": "C159", "title": "The score of a count variable is the log-likelihood of its Poisson regression on the parents", "statement": "With is_poisson, a count variable with parents adds the log-likelihood of its Poisson regression on these parents to LiM's score, so better fits score higher and uninformative parents do not pay.", "quantifier": "all count data, graphs and coefficients", "why_tests_cant": "the sign and the overwritten loop variable only show in the comparison of graphs", "anchors": ["lingam/lim.py:_bic_scoring"]}
{"id": "C160", "title": "The causal order does not depend on the units of the variables", "statement": "Multiplying every variable by its own nonzero factor (negative ones included) and adding its own constant leaves the causal order of DirectLiNGAM unchanged, for both measures and any prior knowledge.", "quantifier": "all data over the real numbers, all affine changes of units, both measures, all prior knowledge", "why_tests_cant": "tests rescale one data set; the claim is about every data set and every factor", "anchors": ["lingam/direct_lingam.py:DirectLiNGAM.fit", "lingam/direct_lingam.py:_search_causal_order", "lingam/direct_lingam.py:_search_causal_order_kernel"]}
{"id": "C161", "title": "The causal order does not depend on the order of the samples", "statement": "Reordering the rows leaves the causal order of DirectLiNGAM unchanged; with the default measure so does repeating all rows the same number of times.", "quantifier": "all data over the real numbers, all permutations and repetitions of rows, all prior knowledge", "why_tests_cant": "there are n! orders of the rows", "anchors": ["lingam/direct_lingam.py:DirectLiNGAM.fit"]}
{"id": "C162", "title": "Connection strengths change with the units of the variables as they should", "statement": "If the columns are linearly independent, then in other units x_i -> a_i x_i + t_i DirectLiNGAM returns the same causal order and the matrix with entries a_i / a_j B_ij: the adaptive lasso keeps the same edges.", "quantifier": "all data with linearly independent columns, all changes of units, every LinearRegression that returns least squares fits, every LARS that respects signs", "why_tests_cant": "needs the uniqueness of least squares fits for all designs", "anchors": ["lingam/direct_lingam.py:DirectLiNGAM.fit", "lingam/base.py:_estimate_adjacency_matrix", "lingam/utils/__init__.py:predict_adaptive_lasso"]}
{"id": "C163", "title": "The names of the variables do not matter", "statement": "Without prior knowledge and ties, permuting the columns permutes the causal order of DirectLiNGAM accordingly.", "quantifier": "all data over the real numbers, all permutations of the columns", "why_tests_cant": "there are p! orders of the columns; the sums over other variables are taken in another order", "anchors": ["lingam/direct_lingam.py:DirectLiNGAM.fit", "lingam/direct_lingam.py:_search_causal_order"]}
{"id": "C164", "title": "For two variables one comparison decides the causal direction", "statement": "For two variables that are not linearly related the default measure puts the first one first exactly if H(x0) + H(r1|0) <= H(x1) + H(r0|1), where H is the entropy approximation of the standardised variables and residuals; exchanging the variables changes the sign of the difference.", "quantifier": "all data over the real numbers", "why_tests_cant": "a statement about all real data sets", "anchors": ["lingam/direct_lingam.py:_diff_mutual_info", "lingam/direct_lingam.py:_entropy", "lingam/direct_lingam.py:_search_causal_order"]}
{"id": "C165", "title": "Constant or collinear columns silently determine the causal order", "statement": "The score of a variable is NaN exactly if it satisfies a linear equation with another remaining variable (for example if one of them is constant). If that happens at the start, the first such variable is put first and all others follow in the order of the columns, whatever the data; in particular one constant column makes the causal order the order of the columns. The kernel measure raises ValueError for a constant column.", "quantifier": "all data over the real numbers with linearly related columns", "why_tests_cant": "the outcome must be independent of all other data", "anchors": ["lingam/direct_lingam.py:DirectLiNGAM.fit", "lingam/direct_lingam.py:_search_causal_order", "lingam/direct_lingam.py:_residual"]}
{"id": "C166", "title": "On an exact sample HighDimDirectLiNGAM finds the first two variables", "statement": "If the data are an exact sample of a linear acyclic model with independent centred errors and no statistic of a variable towards one of its parents vanishes by accident, then the first variable of causal_order_ has no cause and the second none but the first; with two variables the order is a causal order.", "quantifier": "all linear acyclic models, all exact samples, any number of variables, any K >= 1, J and alpha, any iteration order of sets", "why_tests_cant": "quantifies over all models and samples", "anchors": ["lingam/high_dim_direct_lingam.py:HighDimDirectLiNGAM.fit", "lingam/high_dim_direct_lingam.py:HighDimDirectLiNGAM._calc_tau", "lingam/high_dim_direct_lingam.py:HighDimDirectLiNGAM._get_prune_stats"]}
{"id": "C167", "title": "On an exact sample HighDimDirectLiNGAM finds a causal order", "statement": "Under the same assumptions and with no variable having more than J causes, every cause comes before its effects in causal_order_.", "quantifier": "all linear acyclic models with in-degree at most J, all exact samples", "why_tests_cant": "quantifies over all models and samples", "anchors": ["lingam/high_dim_direct_lingam.py:HighDimDirectLiNGAM.fit", "lingam/high_dim_direct_lingam.py:HighDimDirectLiNGAM._get_prune_stats"]}
{"id": "C168", "title": "Expressing all variables in another common unit does not change the order of HighDimDirectLiNGAM", "statement": "Multiplying the whole data matrix by a positive number leaves causal_order_ unchanged.", "quantifier": "all data, all positive factors", "why_tests_cant": "the claim is about every factor; a cap on the statistics only shows for large numbers", "anchors": ["lingam/high_dim_direct_lingam.py:HighDimDirectLiNGAM.fit", "lingam/high_dim_direct_lingam.py:HighDimDirectLiNGAM._calc_tau"]}
{"id": "C169", "title": "The unit and the origin of a variable do not change the order of HighDimDirectLiNGAM", "statement": "Multiplying one column by a positive number, or adding a constant to it, leaves causal_order_ unchanged.", "quantifier": "all data, all changes of unit and origin", "why_tests_cant": "the claim is about every data set and every factor", "anchors": ["lingam/high_dim_direct_lingam.py:HighDimDirectLiNGAM.fit", "lingam/high_dim_direct_lingam.py:HighDimDirectLiNGAM._calc_tau"]}
{"id": "C170", "title": "Every accepted degree K makes HighDimDirectLiNGAM use the data", "statement": "For every K the constructor accepts, the order depends on the data.", "quantifier": "all K, all data", "why_tests_cant": "a claim about all data sets", "anchors": ["lingam/high_dim_direct_lingam.py:HighDimDirectLiNGAM.__init__", "lingam/high_dim_direct_lingam.py:HighDimDirectLiNGAM.fit", "lingam/high_dim_direct_lingam.py:HighDimDirectLiNGAM._calc_tau"]}
{"id": "C171", "title": "The order of HighDimDirectLiNGAM does not depend on the order of the rows or on the solver", "statement": "Reordering the rows, repeating all of them equally often, or computing the regressions with another solver of the normal equations leaves causal_order_ unchanged.", "quantifier": "all data, all permutations and repetitions of the rows, all solvers", "why_tests_cant": "there are n! orders of the rows; collinear columns have many least squares solutions", "anchors": ["lingam/high_dim_direct_lingam.py:HighDimDirectLiNGAM.fit", "lingam/high_dim_direct_lingam.py:HighDimDirectLiNGAM._get_prune_stats"]}
{"id": "C172", "title": "The order found by ICALiNGAM does not depend on the units of the variables", "statement": "Expressing the variables in other units (the same components, hence an unmixing matrix with its columns divided by the factors) leaves causal_order_ unchanged.", "quantifier": "all unmixing matrices, all units, all assignments of components to variables", "why_tests_cant": "the claim is about every choice of units; tests fit data in one set of units", "anchors": ["lingam/ica_lingam.py:ICALiNGAM.fit", "lingam/ica_lingam.py:ICALiNGAM._estimate_causal_order", "lingam/ica_lingam.py:ICALiNGAM._search_causal_order"]}
{"id": "C173", "title": "The signs and the order of the independent components do not matter to ICALiNGAM", "statement": "If FastICA returns the same components in another order and with other signs, fit returns the same estimate (the same for ties of the assignment being broken alike).", "quantifier": "all unmixing matrices without zeros, all permutations and signs of the components", "why_tests_cant": "FastICA is free to return any of n! 2^n equivalent matrices", "anchors": ["lingam/ica_lingam.py:ICALiNGAM.fit"]}
{"id": "C174", "title": "RCD gives the same result in all units and for all orders of the rows", "statement": "Multiplying columns by non-zero numbers, adding constants to them and reordering the rows leaves ancestors_list_ and the NaN entries of adjacency_matrix_ unchanged and multiplies every coefficient by the factor of the effect over that of the cause.", "quantifier": "all data, all units, origins and row orders, all tests that do not depend on these", "why_tests_cant": "the claim is about every rescaling and reordering of every data set", "anchors": ["lingam/rcd.py:RCD.fit", "lingam/rcd.py:RCD._get_resid_and_coef", "lingam/rcd.py:RCD._extract_ancestors", "lingam/rcd.py:RCD._estimate_adjacency_matrix"]}
{"id": "C175", "title": "The quantity MLHSICR minimises is a number and does not depend on units or signs", "statement": "For all coefficients the sum of HSIC statistics that RCD minimises (MLHSICR=True) is a number, never negative, and it has the same value at the corresponding coefficients when variables are expressed in other units or with the opposite sign.", "quantifier": "all data, all coefficients, all units", "why_tests_cant": "a statement about every point the optimiser may visit", "anchors": ["lingam/rcd.py:RCD._get_resid_and_coef_by_MLHSICR", "lingam/hsic.py:get_kernel_width", "lingam/hsic.py:get_gram_matrix"]}
{"id": "C176", "title": "BottomUpParceLiNGAM gives the same result in all units and for all orders of the rows", "statement": "Multiplying columns by non-zero numbers, adding constants to them and reordering the rows leaves causal_order_ and the NaN entries of adjacency_matrix_ unchanged and multiplies every coefficient by the factor of the effect over that of the cause.", "quantifier": "all data, all units, origins and row orders, both independence measures", "why_tests_cant": "the claim is about every rescaling and reordering of every data set", "anchors": ["lingam/bottom_up_parce_lingam.py:BottomUpParceLiNGAM.fit", "lingam/bottom_up_parce_lingam.py:BottomUpParceLiNGAM._compute_residuals", "lingam/bottom_up_parce_lingam.py:BottomUpParceLiNGAM._estimate_adjacency_matrix"]}
{"id": "C177", "title": "The kernel measure of DirectLiNGAM is zero exactly for independent samples", "statement": "With measure='kernel' the quantity DirectLiNGAM uses as mutual information is never negative and is zero when the two samples are exactly independent, so that an effect with exactly independent noise is never put before its cause.", "quantifier": "all samples, all regularisation constants and kernel widths", "why_tests_cant": "the claim is about every sample and every parameter", "anchors": ["lingam/direct_lingam.py:DirectLiNGAM._mutual_information", "lingam/direct_lingam.py:DirectLiNGAM._search_causal_order_kernel"]}
{"id": "C178", "title": "The default measure of DirectLiNGAM finds the order when the noise is exactly independent", "statement": "With measure='pwling' and two variables, one a linear function of the other plus noise exactly independent of it in the sample, DirectLiNGAM puts the cause first.", "quantifier": "all samples of two variables with exactly independent noise", "why_tests_cant": "the claim is about every sample and every coefficient", "anchors": ["lingam/direct_lingam.py:DirectLiNGAM._entropy", "lingam/direct_lingam.py:DirectLiNGAM._diff_mutual_info", "lingam/direct_lingam.py:DirectLiNGAM._search_causal_order"]}
{"id": "C179", "title": "RESIT finds a causal order of an additive noise model", "statement": "On data from an additive noise model, with a regressor without systematic error and a statistic that is zero exactly for independent samples, RESIT's causal_order_ is a causal order of the model and no reported edge points against the causal direction, provided no non-sink of the model looks like a sink.", "quantifier": "all additive noise models, all samples with exactly independent noise, all functions", "why_tests_cant": "the claim is about every model, every sample and every regressor", "anchors": ["lingam/resit.py:RESIT.fit", "lingam/resit.py:RESIT._estimate_order"]}
{"id": "C180", "title": "RESIT reports exactly the direct causes", "statement": "On data from an additive noise model, with exact regressions and tests, RESIT's adjacency_matrix_ has a one exactly where a variable is a direct cause of another.", "quantifier": "all additive noise models, all samples with exactly independent noise", "why_tests_cant": "the claim is about every model and every outcome of the pruning loop", "anchors": ["lingam/resit.py:RESIT.fit", "lingam/resit.py:RESIT._remove_edges"]}
{"id": "C181", "title": "OutOfSampleCausalTuning prefers configurations that predict better", "statement": "The score of a configuration of OutOfSampleCausalTuning grows with the quality of the out-of-sample predictions of its graphs: predictions that go against the truth, and the mean prediction made for variables without neighbours, do not score higher than informative ones.", "quantifier": "all data without constant columns, all graphs, all predictors, all numbers of folds that divide the rows", "why_tests_cant": "the claim ranges over every sample, every predictor and every configuration", "anchors": ["lingam/experimental/oct.py:OutOfSampleCausalTuning._calc_mutual_info", "lingam/experimental/oct.py:OutOfSampleCausalTuning._evaluate_config", "lingam/experimental/oct.py:OutOfSampleCausalTuning._make_var_models", "lingam/experimental/oct.py:OutOfSampleCausalTuning.fit"]}
{"id": "C182", "title": "num_explanatory_vals of CAMUV is the maximum number of explanatory variables", "statement": "The parameter num_explanatory_vals of CAMUV, documented as the maximum number of explanatory variables, bounds the number of explanatory variables: different values allow different searches, and no variable gets more direct causes than the value allows.", "quantifier": "all numbers of variables, all outcomes of the tests, all values of the parameter", "why_tests_cant": "the claim ranges over every outcome of the regressions and tests", "anchors": ["lingam/camuv.py:CAMUV.__init__", "lingam/camuv.py:CAMUV._find_parents"]}
{"id": "C183", "title": "CAMUV reports exactly the direct causes when no variable is hidden", "statement": "With regressions and independence tests that make no error, CAMUV.fit on data of an additive noise model in which every variable is observed reports exactly the direct causes and no pair as influenced by a hidden variable.", "quantifier": "all numbers of variables and rows, all exact regressors and tests, all orders in which Python visits a set", "why_tests_cant": "the claim ranges over every structure, every sample and every exact regressor and test", "anchors": ["lingam/camuv.py:CAMUV.fit", "lingam/camuv.py:CAMUV._find_parents", "lingam/camuv.py:CAMUV._check_identified_causality", "lingam/camuv.py:CAMUV._get_child", "lingam/camuv.py:CAMUV._get_residual", "lingam/camuv.py:CAMUV._check_independence_withou_K"]}
{"id": "C184", "title": "MultiGroupDirectLiNGAM follows its data sets when they agree", "statement": "If DirectLiNGAM finds the same causal order in each of several data sets, MultiGroupDirectLiNGAM finds that order from all of them together; if two collections of data sets lead to the same order, so does their union.", "quantifier": "all numbers of data sets, rows and variables, all data, all kinds of prior knowledge", "why_tests_cant": "the claim ranges over every data set and every collection of data sets", "anchors": ["lingam/multi_group_direct_lingam.py:MultiGroupDirectLiNGAM.fit", "lingam/multi_group_direct_lingam.py:MultiGroupDirectLiNGAM._search_causal_order"]}
{"id": "C185", "title": "The joint order does not depend on the order of the data sets or on their units", "statement": "The causal order found by MultiGroupDirectLiNGAM does not depend on the order of the data sets, on the units and origins used in each of them, on the order of the rows, nor on repeating all of them; the adjacency matrix of each data set changes with its units as it should.", "quantifier": "all data sets, all changes of units (different in each data set), all orders", "why_tests_cant": "the claim ranges over every data set, every permutation and every change of units", "anchors": ["lingam/multi_group_direct_lingam.py:MultiGroupDirectLiNGAM.fit", "lingam/multi_group_direct_lingam.py:MultiGroupDirectLiNGAM._search_causal_order"]}
{"id": "C186", "title": "VARLiNGAM does not depend on the units and origins of the variables", "statement": "If the variables of a series are given in other units or with other origins, VARLiNGAM finds the same lag and causal order, and each instantaneous and lagged coefficient changes by the ratio of the units of its two variables.", "quantifier": "all series, numbers of variables and lags, changes of units and origins, with and without lag search and pruning", "why_tests_cant": "the claim ranges over every series and every change of units", "anchors": ["lingam/var_lingam.py:VARLiNGAM.fit", "lingam/var_lingam.py:VARLiNGAM._estimate_var_coefs", "lingam/var_lingam.py:VARLiNGAM._calc_b", "lingam/var_lingam.py:VARLiNGAM._pruning"]}
{"id": "C187", "title": "VARMALiNGAM's residuals for given coefficients are the innovations of the series", "statement": "If ar_coefs and ma_coefs are the true coefficients of a VARMA series, the residuals VARMALiNGAM computes and hands to the instantaneous model are the innovations of the series, and are the same in every run with the same random_state.", "quantifier": "all VARMA series, numbers of variables, orders and random start values", "why_tests_cant": "the claim ranges over all series and all draws of the generator", "anchors": ["lingam/varma_lingam.py:VARMALiNGAM.fit", "lingam/varma_lingam.py:VARMALiNGAM._calc_residuals", "lingam/varma_lingam.py:VARMALiNGAM.residuals_"]}
{"id": "C188", "title": "LiM's result cannot be improved by changing one edge", "statement": "The graph LiM returns after its second phase scores at least as well as every acyclic graph obtained from it by adding, removing or reversing one edge.", "quantifier": "all scores, numbers of variables, settings and results of the first phase", "why_tests_cant": "the claim ranges over every score and every graph found by the first phase", "anchors": ["lingam/lim.py:LiM.fit", "lingam/lim.py:LiM._estimate_LiM"]}
{"id": "C189", "title": "Estimates of CausalEffect do not depend on units", "statement": "Measuring the variables in other units and from other origins (and adapting the matrix and the predictor) leaves the effects on the prediction and the acceptance of the causal model unchanged, and turns the optimal intervention into the same intervention in the new units.", "quantifier": "all acyclic matrices, orders, means, predictors, targets, desired outputs, draws, and all changes of units and origins", "why_tests_cant": "the claim ranges over every matrix, predictor and unit", "anchors": ["lingam/causal_effect.py:CausalEffect.estimate_effects_on_prediction", "lingam/causal_effect.py:CausalEffect.estimate_optimal_intervention", "lingam/causal_effect.py:CausalEffect._check_init_params"]}
{"id": "C190", "title": "The simulator works for every table with distinct column labels", "statement": "Training on a DataFrame whose column labels are distinct and running without changes returns the training data, and every run gives the result that the positions of the columns determine.", "quantifier": "all tables, labels (text or integers), graphs, models, changes, exogenous data and shuffles, for plain data and time series", "why_tests_cant": "the claim ranges over every set of labels", "anchors": ["lingam/causal_based_simulator.py:CBSILiNGAM._make_var_names", "lingam/causal_based_simulator.py:CBSITimeSeriesLiNGAM._make_var_names", "lingam/causal_based_simulator.py:CBSILiNGAM.get_data", "lingam/causal_based_simulator.py:CBSILiNGAM.get_parent_names", "lingam/causal_based_simulator.py:CausalBasedSimulator._simulate"]}
{"id": "C191", "title": "is_discrete marks the variables it names, at every lag", "statement": "A flag set for a column makes exactly that variable discrete, for time series at every lag, whether the flags are given as a list or as an array.", "quantifier": "all names, numbers of lags and flags", "why_tests_cant": "the claim ranges over every set of flags", "anchors": ["lingam/causal_based_simulator.py:CBSILiNGAM._make_var_names", "lingam/causal_based_simulator.py:CBSITimeSeriesLiNGAM._make_var_names"]}
{"id": "C192", "title": "MultiGroupRCD recovers the common graph and each group's coefficients", "statement": "Given data sets generated by linear acyclic models with one causal graph, no hidden variables and tests that answer correctly over all groups, the ancestor sets are those of the graph and each returned matrix holds the coefficients of its group, even if effects cancel in some of the groups.", "quantifier": "all numbers of variables, groups (at least two), rows, coefficients and errors, both regressions, explanatory sets of size 1 and 2", "why_tests_cant": "the claim is about every list of data sets", "anchors": ["lingam/multi_group_rcd.py:MultiGroupRCD.fit", "lingam/multi_group_rcd.py:MultiGroupRCD._extract_ancestors", "lingam/multi_group_rcd.py:MultiGroupRCD._is_correlated", "lingam/multi_group_rcd.py:MultiGroupRCD._is_independent", "lingam/multi_group_rcd.py:MultiGroupRCD._is_parent", "lingam/multi_group_rcd.py:MultiGroupRCD._extract_vars_sharing_confounders", "lingam/multi_group_rcd.py:MultiGroupRCD._estimate_adjacency_matrix"]}
{"id": "C193", "title": "LongitudinalLiNGAM in other units and origins at every time point", "statement": "If every variable is given another unit and another origin at every time point, LongitudinalLiNGAM finds the same causal orders, each coefficient changes with the units of its cause and effect at their time points, and residuals change with the unit of their variable; a trend common to all subjects changes nothing.", "quantifier": "all numbers of time points, subjects, variables and lags, all data whose columns within a window are linearly independent, all units (also negative) and origins, both measures", "why_tests_cant": "the claim is about every data set and every change of units", "anchors": ["lingam/longitudinal_lingam.py:LongitudinalLiNGAM.fit", "lingam/longitudinal_lingam.py:LongitudinalLiNGAM._compute_residuals", "lingam/longitudinal_lingam.py:LongitudinalLiNGAM._estimate_instantaneous_effects", "lingam/longitudinal_lingam.py:LongitudinalLiNGAM._estimate_lagged_effects"]}
{"id": "C194", "title": "MultiGroupCAMUV finds the direct causes several data sets show together", "statement": "If in every data set one variable is a sum of functions of the other, independent variables plus noise, the functions differing between the data sets, MultiGroupCAMUV reports exactly the direct causes, provided each cause makes a difference in some data set and in some data set does not look like an effect; no single data set needs to show all of them.", "quantifier": "all numbers of causes, data sets and rows, all functions and disturbances, all iteration orders of sets and all num_explanatory_vals", "why_tests_cant": "the claim is about every data-generating process of this form and every search path", "anchors": ["lingam/multi_group_camuv.py:MultiGroupCAMUV.fit", "lingam/multi_group_camuv.py:MultiGroupCAMUV._is_independent_by", "lingam/multi_group_camuv.py:MultiGroupCAMUV._get_residual", "lingam/multi_group_camuv.py:MultiGroupCAMUV._find_parents"]}
{"id": "C195", "title": "OutOfSampleCausalTuning's sparsity penalty prefers sparser configurations that predict as well", "statement": "With sparsity_penalty a configuration with smaller Markov blankets whose predictions are as good as those of the best scored one is chosen unless the permutation test speaks against it.", "quantifier": "all data, configurations, predictions and thresholds, all draws of the permutation test", "why_tests_cant": "the claim is about every outcome of a thousand random permutations and about infinite scores", "anchors": ["lingam/experimental/oct.py:OutOfSampleCausalTuning._sparsity_penalty", "lingam/experimental/oct.py:OutOfSampleCausalTuning._calc_mutual_info", "lingam/experimental/oct.py:OutOfSampleCausalTuning.fit"]}
{"id": "C196", "title": "CausalEffect reports changes of the expected prediction for every kind of prediction model", "statement": "estimate_effects_on_prediction returns for each variable the absolute change of the expectation of the prediction under do(mean +- std), for regression models as well as for classifiers with predict_proba; models without a prediction method are rejected with ValueError.", "quantifier": "all causal models, data, regression functions and classifiers with any number of classes", "why_tests_cant": "the claim is about every prediction model a user can supply", "anchors": ["lingam/causal_effect.py:CausalEffect._predict", "lingam/causal_effect.py:CausalEffect.estimate_effects_on_prediction"]}
{"id": "C197", "title": "VARMALiNGAM chooses the order with the best criterion, for every data set it is fitted to", "statement": "With criterion 'aic', 'bic' or 'hqic', fit uses the order (p, q) within the given one whose information criterion on the data given to this call is smallest, and the coefficients of that order; with other criteria it uses the given order; coefficient arrays given by the user are used.", "quantifier": "all data, orders, estimators of the VARMA coefficients, criteria values (including NaN) and all sequences of fits of one object", "why_tests_cant": "depends on the history of the object and on criterion values no test data set is guaranteed to show", "anchors": ["lingam/varma_lingam.py:VARMALiNGAM.fit", "lingam/varma_lingam.py:VARMALiNGAM._estimate_varma_coefs"]}
{"id": "C198", "title": "VARMALiNGAM's bootstrap resamples the fitted model", "statement": "bootstrap generates every sample from the fitted VARMA model, with the coefficients and the residuals of the data, refits it in the same way as fit and leaves the object as it was.", "quantifier": "all data, orders, estimators, random draws, numbers of samples and all earlier uses of the object", "why_tests_cant": "the resampled series depend on the random draws and on the state left by earlier calls", "anchors": ["lingam/varma_lingam.py:VARMALiNGAM.bootstrap", "lingam/varma_lingam.py:VARMALiNGAM.fit"]}
{"id": "C199", "title": "VARMALiNGAM's pruning keeps the causal order and puts each coefficient at its lag", "statement": "With prune=True every variable is regressed on the earlier variables, the lagged variables and the lagged errors; each coefficient is stored at its variable and lag; no instantaneous effect goes against the causal order.", "quantifier": "all numbers of variables and lags, data, causal orders and lasso results", "why_tests_cant": "a misplaced coefficient shows only for particular lags and orders", "anchors": ["lingam/varma_lingam.py:VARMALiNGAM._pruning"]}
{"id": "C200", "title": "VARLiNGAM.estimate_total_effect reports the effect of the source at its lag", "statement": "estimate_total_effect(X, i, j, lag) is the effect on x_j(t) of the part of x_i(t-lag) that its direct causes do not account for, whatever the lag and the regression used, when that part is uncorrelated with those causes and with everything else in x_j(t).", "quantifier": "all series, numbers of variables and lags, fitted matrices, sources, targets, lags and least-squares regressions", "why_tests_cant": "the claim is about every data set and every lag; the joined matrix depends on index arithmetic and on the ends of the series", "anchors": ["lingam/var_lingam.py:VARLiNGAM.estimate_total_effect"]}
{"id": "C201", "title": "VARMALiNGAM.estimate_total_effect reports the effect of the source at its lag", "statement": "estimate_total_effect(X, E, i, j, lag) is the effect on x_j(t) of the part of x_i(t-lag) that its direct causes - variables and errors, at their times - do not account for.", "quantifier": "all series, errors, numbers of variables and orders, fitted matrices, sources, targets and lags", "why_tests_cant": "the claim is about every data set, every order and every lag", "anchors": ["lingam/varma_lingam.py:VARMALiNGAM.estimate_total_effect"]}
{"id": "C202", "title": "Changing the coefficients of a simulated variable changes nothing else about it", "statement": "run(changing_models={x: {'parent_names': its parents, 'coef': c}}) moves x by the difference between c and the trained coefficients applied to its parents and leaves every variable that is not an effect of x as it was; in particular the trained coefficients themselves reproduce the training data.", "quantifier": "all data, acyclic graphs, variables with parents, trained linear regressions (coefficients and intercept) and new coefficients", "why_tests_cant": "the claim quantifies over all trained regressions and new coefficients; examples with centred data do not show the intercept", "anchors": ["lingam/causal_based_simulator.py:CausalBasedSimulator.run", "lingam/causal_based_simulator.py:_LinearRegression"]}
{"id": "C203", "title": "The simulator accepts exactly the documented models, errors and changes, and names the first fault", "statement": "models, changing_exog and changing_models are accepted exactly if every entry is allowed (known names, regressors for continuous and probability-giving classifiers for discrete variables, errors of the right length for continuous variables, a list of known parents with as many coefficients or a suitable model); the first entry that is not allowed determines the exception; coefficients take precedence over a model, and an empty list of parents over both.", "quantifier": "all dictionaries, names, estimators (plain, pipelines, searches), coefficient lists and simulators", "why_tests_cant": "combinations of faults in any number of entries and any order cannot be enumerated", "anchors": ["lingam/causal_based_simulator.py:CausalBasedSimulator._check_model_instance", "lingam/causal_based_simulator.py:CausalBasedSimulator._check_models", "lingam/causal_based_simulator.py:CausalBasedSimulator._check_changing_exog", "lingam/causal_based_simulator.py:CausalBasedSimulator._check_changing_models"]}
{"id": "C204", "title": "The simulator keeps its last successful training", "statement": "train succeeds exactly for a known algorithm name and a graph of the right size that is acyclic (open entries only for BottomUpParceLiNGAM, where they count as no edge); a call of train that raises and any calls of run leave the object as it was; a successful call makes the object independent of its past.", "quantifier": "all objects, sequences of calls of train and run, algorithm names, tables and graphs with open entries", "why_tests_cant": "the claim is about every history of calls", "anchors": ["lingam/causal_based_simulator.py:CausalBasedSimulator.train", "lingam/causal_based_simulator.py:CausalBasedSimulator._dispatch_impl", "lingam/causal_based_simulator.py:CBSIUnobsCommonCauseLiNGAM"]}
{"id": "C205", "title": "MultiGroupRCD with hidden variables records only true ancestors", "statement": "When some variables are not observed, fit over several datasets still records j as an ancestor of i only if j is one in the common graph of all groups.", "quantifier": "all families of linear models over one graph with observed and hidden variables, all sizes, significance levels and independence measures, with joint tests that decide correctly", "why_tests_cant": "hidden variables can be arranged in infinitely many ways; the fault needs two explanatory variables and a confounder of a particular shape", "anchors": ["lingam/multi_group_rcd.py:MultiGroupRCD.fit", "lingam/multi_group_rcd.py:MultiGroupRCD._extract_ancestors"]}
{"id": "C206", "title": "RESIT does not depend on the units in which the variables are measured", "statement": "Expressing the variables in other units and with other origins leaves the causal order and the edges found by RESIT unchanged, for regressors whose predictions do not depend on units.", "quantifier": "all tables, numbers of variables, regressors with unit-free predictions, significance levels, units and origins", "why_tests_cant": "the claim quantifies over all real units; the effect of one unit on a joint kernel width shows only in special data", "anchors": ["lingam/resit.py:RESIT.fit", "lingam/resit.py:RESIT._estimate_order", "lingam/hsic.py:hsic_test_gamma", "lingam/hsic.py:get_kernel_width"]}
{"id": "C207", "title": "CAMUV and MultiGroupCAMUV with independence='fcorr' accept every documented num_explanatory_vals", "statement": "With independence='fcorr' the fit of CAMUV and MultiGroupCAMUV returns for every num_explanatory_vals that the constructor accepts, and a larger value lets the search use larger sets of explanatory variables.", "quantifier": "all data sets of at least two samples, numbers of variables, values of the F-correlation, prior knowledge, values of num_explanatory_vals", "why_tests_cant": "whether several explanatory variables are ever tested together depends on all earlier test outcomes; tests with the default value 2 never reach that code", "anchors": ["lingam/camuv.py:CAMUV._get_child", "lingam/multi_group_camuv.py:MultiGroupCAMUV._is_independent_by", "lingam/utils/_f_correlation.py:f_correlation", "lingam/utils/_f_correlation.py:_squared_dist"]}
{"id": "C208", "title": "CAMUV and MultiGroupCAMUV with the HSIC test do not depend on units", "statement": "With independence='hsic' and an additive regression whose predictions do not depend on units, CAMUV and MultiGroupCAMUV return the same parents and matrix when the variables are expressed in other units and with other origins: with num_explanatory_vals of at most two every variable (in every data set) may have its own unit, with larger values the variables of a data set may be given another common unit; four rows are necessary and enough for an answer.", "quantifier": "all tables of real numbers, numbers of rows and columns, levels, prior knowledge, units and origins, p-value functions", "why_tests_cant": "the claim ranges over all real units and all data, through kernel widths that are medians of distances", "anchors": ["lingam/camuv.py:CAMUV.fit", "lingam/camuv.py:CAMUV._get_child", "lingam/multi_group_camuv.py:MultiGroupCAMUV.fit", "lingam/hsic.py:hsic_test_gamma", "lingam/hsic.py:get_kernel_width"]}
{"id": "C209", "title": "DirectLiNGAM gives the same order for whole numbers stored as integers and as floats", "statement": "The causal order of DirectLiNGAM depends on the values of the table only, not on whether whole numbers are stored as integers or as floats.", "quantifier": "all tables of whole numbers, numbers of rows and columns, measures, prior knowledge", "why_tests_cant": "unit tests use floating point samples; the claim compares two representations of every possible table of whole numbers through all steps of the search", "anchors": ["lingam/direct_lingam.py:DirectLiNGAM.fit", "lingam/direct_lingam.py:DirectLiNGAM._residual", "lingam/multi_group_direct_lingam.py:MultiGroupDirectLiNGAM.fit"]}
{"id": "C210", "title": "remove_effect removes the effects from tables of whole numbers too", "statement": "For a table of integers remove_effect returns, as for floats, columns with mean zero that are uncorrelated with the removed features.", "quantifier": "all tables of whole numbers, removed features, exact linear regressions", "why_tests_cant": "the loss depends on the dtype of the input, over all tables of integers; unit tests use floats", "anchors": ["lingam/utils/__init__.py:remove_effect"]}
{"id": "C211", "title": "RESIT's bootstrap and its total effects", "statement": "RESIT documents that it cannot estimate total effects and that estimate_total_effect always returns zero. The total effects stored in the BootstrapResult of RESIT.bootstrap should say the same.", "quantifier": "all numbers of variables, statistics and test answers of every resample, and all numbers of resamples", "why_tests_cant": "The test suite only checks that bootstrap runs; which numbers are recorded depends on the graph found in every resample.", "anchors": ["lingam/resit.py:RESIT.estimate_total_effect", "lingam/resit.py:RESIT.fit", "lingam/bootstrap.py:BootstrapMixin.bootstrap"]}
{"id": "C212", "title": "RCD gives the same result for whole numbers stored as integers and as floats", "statement": "For a table of whole numbers RCD records the same ancestors and returns the same matrix whether the table has an integer or a float dtype.", "quantifier": "all tables of whole numbers, numbers of variables, regressions and answers of the tests", "why_tests_cant": "the loss depends on the dtype, on which variables share recorded ancestors and on the decimals of their residuals; unit tests use floats", "anchors": ["lingam/rcd.py:RCD._get_residual_matrix", "lingam/rcd.py:RCD.fit", "lingam/utils/_rcd.py:extract_ancestors"]}
{"id": "C213", "title": "VARMALiNGAM recovers the structural matrices of a series that follows its model", "statement": "If X_t = Psi_0 X_t + Psi_1 X_(t-1) + ... + Omega_1 e_(t-1) + ... + e_t with an acyclic Psi_0 and uncorrelated errors, the VARMA coefficients are the true ones and the independence measure tells exogenous variables apart, then VARMALiNGAM.fit returns a causal order, Psi_0, ..., Psi_p and Omega_1, ..., Omega_q of the model.", "quantifier": "all numbers of variables and lags, structural matrices, errors, series, and all measures and regressions that are right on the residuals", "why_tests_cant": "correctness is a statement about every data-generating model; a unit test only checks shapes or one simulated series with tolerance", "anchors": ["lingam/varma_lingam.py:VARMALiNGAM.fit", "lingam/varma_lingam.py:VARMALiNGAM._calc_psi_and_omega", "lingam/varma_lingam.py:VARMALiNGAM._calc_residuals"]}
{"id": "C214", "title": "CAM-UV gives the same graph for whole numbers stored as integers and stored as floats", "statement": "CAMUV.fit returns the same parents, effects and NaN pairs for a table of whole numbers whether it is stored as integers or as floats.", "quantifier": "all numbers of variables and rows, all whole-number tables, all regressions, tests, significance levels and iteration orders of sets", "why_tests_cant": "the residuals kept between the steps take over the integer type of the table, so the outcome depends on the decimals of every regression in the search; a test on one table cannot settle it", "anchors": ["lingam/camuv.py:CAMUV._get_residuals_matrix", "lingam/camuv.py:CAMUV._find_parents", "lingam/camuv.py:CAMUV._check_independence_withou_K"]}
{"id": "C215", "title": "For two variables CAM-UV reports a hidden cause exactly when no additive noise model explains the dependence", "statement": "With exact regressions and tests CAMUV.fit on two variables reports no relation exactly for independent variables; for dependent ones it reports one of them as the cause when the other is a function of it plus noise independent of it (one direction only, and one in which this holds), and NaN exactly when this holds in neither direction.", "quantifier": "all tables of two variables, numbers of rows, num_explanatory_vals, significance levels, iteration orders, exact regressions and tests", "why_tests_cant": "whether an additive noise model exists is a statement about all functions, and the answer must be right for every joint distribution; tests try a few simulated ones", "anchors": ["lingam/camuv.py:CAMUV.fit", "lingam/camuv.py:CAMUV._find_parents", "lingam/camuv.py:CAMUV._get_child"]}
{"id": "C216", "title": "VARLiNGAM uses the lag with the best information criterion", "statement": "With a criterion, VARLiNGAM.fit and VARLiNGAM.bootstrap use the lag from 1 to lags with the smallest criterion (the first among equals); without one they use lags.", "quantifier": "all data, maximal lags, criteria, VAR estimates and LiNGAM models, also ones that raise", "why_tests_cant": "the choice compares the values of every lag for every data set; a unit test only runs one series and checks shapes", "anchors": ["lingam/var_lingam.py:VARLiNGAM._estimate_var_coefs", "lingam/var_lingam.py:VARLiNGAM.fit", "lingam/var_lingam.py:VARLiNGAM.bootstrap"]}
{"id": "C217", "title": "A VARLiNGAM call that fails leaves the settings of the object unchanged", "statement": "When VARLiNGAM.fit or VARLiNGAM.bootstrap raises, later calls of the object give what they would have given without the failed call.", "quantifier": "all objects, data, numbers of samplings, and all points at which the estimation, the LiNGAM model or the resampling can raise", "why_tests_cant": "the exception can come from any of the fits of the bootstrap; unit tests only look at the exception, not at the object it leaves behind", "anchors": ["lingam/var_lingam.py:VARLiNGAM.fit", "lingam/var_lingam.py:VARLiNGAM.bootstrap"]}
{"id": "C218", "title": "calc_vif gives the variance inflation factors", "statement": "MDLiNA.calc_vif reports, for every variable of the table, the variance inflation factor 1/(1-R^2) of its regression with intercept on all other variables.", "quantifier": "All tables, all positions of the variable, all least-squares regressions without intercept (the contract of the statsmodels routine).", "why_tests_cant": "No test calls it; and on standardised data, the usual input, a missing intercept does not show in any output.", "anchors": ["lingam/lina.py:MDLiNA.calc_vif"]}
{"id": "C219", "title": "The causal order and the matrix of an object belong together", "statement": "After any sequence of fit calls of a DirectLiNGAM or ICALiNGAM object, some of which may raise, causal_order_ and adjacency_matrix_ belong to the same data: every entry of the matrix goes from an earlier to a later variable of the order.", "quantifier": "All sequences of calls, all data, all prior knowledge, all searches, all exceptions raised by the search or by the adaptive lasso.", "why_tests_cant": "A test checks one fit of a new object; the defect needs an earlier fit and a failure at a late point.", "anchors": ["lingam/base.py:_BaseLiNGAM._estimate_adjacency_matrix", "lingam/direct_lingam.py:DirectLiNGAM.fit", "lingam/ica_lingam.py:ICALiNGAM.fit"]}
{"id": "C220", "title": "A multi-group model answers for every data set", "statement": "After any call of fit, MultiGroupDirectLiNGAM holds one matrix for every data set of the last successful call, total effects are reported for each data set given, and so are the p-values of error independence.", "quantifier": "All lists of data sets at fit and at query, all positions at which the estimation can raise.", "why_tests_cant": "Tests query a fitted model with the list it was fitted to.", "anchors": ["lingam/multi_group_direct_lingam.py:MultiGroupDirectLiNGAM.fit", "lingam/multi_group_direct_lingam.py:MultiGroupDirectLiNGAM.estimate_total_effect", "lingam/multi_group_direct_lingam.py:MultiGroupDirectLiNGAM.get_error_independence_p_values"]}
{"id": "C221", "title": "CausalDataGenerator returns its data whatever its estimators are used for", "statement": "After CausalDataGenerator.fit with given estimators and at least one adjustment, generate() without arguments returns the columns cause and effect of the data, also if the same estimator object is passed for both models and whatever other generators are fitted later.", "quantifier": "All data, all estimators that predict on their training data and refuse another number of columns, all later sequences of fit calls of other generators.", "why_tests_cant": "Depends on the identity of objects and on later calls; a test uses fresh estimators and one generator.", "anchors": ["lingam/experimental/cdg.py:CausalDataGenerator.fit", "lingam/experimental/cdg.py:CausalDataGenerator._make_model", "lingam/experimental/cdg.py:CausalDataGenerator.generate"]}
{"id": "C222", "title": "A CausalEffect object answers for the model it was given", "statement": "All queries of a CausalEffect object answer for the model passed to its constructor, whatever the caller does with the LiNGAM object, the array or the list afterwards.", "quantifier": "All models, all sequences of queries and of later fits or assignments, all interventions.", "why_tests_cant": "Depends on when the first query happens and on aliasing; a test queries once, right after construction.", "anchors": ["lingam/causal_effect.py:CausalEffect.__init__", "lingam/causal_effect.py:CausalEffect._check_init_params", "lingam/causal_effect.py:CausalEffect._get_propagated_effects"]}
{"id": "C223", "title": "OutOfSampleCausalTuning rejects unusable configurations before it evaluates any", "statement": "fit(data, configs) accepts exactly a non-empty list of dicts whose keys and values are as documented; every other argument raises the exception of its first fault (TypeError, or ValueError for an empty list, an unknown key or a missing model) before any configuration is evaluated.", "quantifier": "All lists of configurations, all keys, values and orders of items.", "why_tests_cant": "Every combination of faults in every order; tests check one fault at a time and do not look at the work done before the exception.", "anchors": ["lingam/experimental/oct.py:OutOfSampleCausalTuning._check_configs", "lingam/experimental/oct.py:OutOfSampleCausalTuning.fit"]}
{"id": "C224", "title": "OutOfSampleCausalTuning answers for the last list of configurations", "statement": "best_config_index_ and scores_ belong to the configurations of the last call of fit; before a successful fit they raise.", "quantifier": "All sequences of calls of fit, successful or not.", "why_tests_cant": "Depends on the history of the object; tests fit once.", "anchors": ["lingam/experimental/oct.py:OutOfSampleCausalTuning.fit", "lingam/experimental/oct.py:OutOfSampleCausalTuning.best_config_index_"]}
{"id": "C225", "title": "CausalDataGenerator generates what its models allow, and returns its data", "statement": "Every generated value is the value of an intervention, or comes from the model at the generated values of the explanatory variables: error plus prediction for a continuous variable, a class of positive probability for a categorical one. Without interventions generate() returns the data.", "quantifier": "All data with any mixture of continuous and categorical variables, all estimators, interventions and states of the random generator.", "why_tests_cant": "Depends on random draws and on the combination of types; tests look at shapes for one data set.", "anchors": ["lingam/experimental/cdg.py:CausalDataGenerator.fit", "lingam/experimental/cdg.py:CausalDataGenerator.generate"]}
{"id": "C226", "title": "An exogenous intervention of CausalDataGenerator replaces the error of its variable", "statement": "Values given in interv_exog for cause or effect act as the error of that variable in the generated data, and a replaced model receives the residuals as error.", "quantifier": "All types of variables, all interventions and replaced models.", "why_tests_cant": "A missing influence shows only when two runs with the same random state are compared for every pair of interventions.", "anchors": ["lingam/experimental/cdg.py:CausalDataGenerator.fit", "lingam/experimental/cdg.py:CausalDataGenerator.generate"]}
{"id": "C227", "title": "An intervention of CausalDataGenerator that changes nothing changes nothing", "statement": "Setting the cause to the values it takes anyway in the same state of the random generator leaves the other generated columns as they are.", "quantifier": "All generators, data and states of the random generator.", "why_tests_cant": "Compares two histories of the random generator.", "anchors": ["lingam/experimental/cdg.py:CausalDataGenerator.fit", "lingam/experimental/cdg.py:CausalDataGenerator.generate"]}
{"id": "C228", "title": "CausalDataGenerator uses a given estimator or rejects it before training", "statement": "An estimator given for a variable is accepted exactly if it suits the type of the variable; otherwise fit raises TypeError or RuntimeError before anything is trained; an accepted one is trained and used.", "quantifier": "All estimators, types of variables and sets of adjustments.", "why_tests_cant": "All combinations of estimator kinds, types and adjustments.", "anchors": ["lingam/experimental/cdg.py:CausalDataGenerator.fit", "lingam/experimental/cdg.py:CausalDataGenerator.generate", "lingam/experimental/cdg.py:CausalDataGenerator._is_sklearn_estimator"]}
{"id": "C229", "title": "visualize_nonlinear_causal_effect draws the percentiles of the effects at every position", "statement": "For every class of the effect and every percentile, the line drawn has one point per cause position: that percentile of the effects the bootstrap runs give at the position. The default positions can be used with any data.", "quantifier": "All positions, percentiles, classes and numbers of runs.", "why_tests_cant": "Depends on repeated positions and on the data; tests only check that a figure is made.", "anchors": ["lingam/utils/_visualize_nonlinear_causal_effect.py:visualize_nonlinear_causal_effect", "lingam/utils/_visualize_nonlinear_causal_effect.py:_calculate", "lingam/utils/_visualize_nonlinear_causal_effect.py:_draw"]}
{"id": "C230", "title": "Every bootstrap run counts in visualize_nonlinear_causal_effect", "statement": "Each run contributes exactly one value to every class and position; a class a resample does not contain has probability zero in that run.", "quantifier": "All runs, classes and positions.", "why_tests_cant": "Shows only in resamples that miss a class.", "anchors": ["lingam/utils/_visualize_nonlinear_causal_effect.py:visualize_nonlinear_causal_effect", "lingam/utils/_visualize_nonlinear_causal_effect.py:_calculate", "lingam/utils/_visualize_nonlinear_causal_effect.py:_draw"]}
{"id": "C231", "title": "visualize_nonlinear_causal_effect accepts the arguments it documents", "statement": "cd_result may be a BootstrapResult or any array-like square matrix over the columns; percentile may be a tuple of three numbers from 0 to 100; everything else is rejected with TypeError.", "quantifier": "All argument values.", "why_tests_cant": "Tests try a few literals.", "anchors": ["lingam/utils/_visualize_nonlinear_causal_effect.py:visualize_nonlinear_causal_effect", "lingam/utils/_visualize_nonlinear_causal_effect.py:_calculate", "lingam/utils/_visualize_nonlinear_causal_effect.py:_draw", "lingam/utils/_visualize_nonlinear_causal_effect.py:_is_adjacency_matrix"]}
{"id": "C232", "title": "A failed call leaves a VARMALiNGAM object with its settings", "statement": "If fit or bootstrap raises, the criterion and the other settings are what they were, so a later fit behaves like a fit of a new object; bootstrap after fit works.", "quantifier": "All data, orders, coefficients, numbers of samples and places where a call fails.", "why_tests_cant": "Needs every point of failure followed by every later call.", "anchors": ["lingam/varma_lingam.py:VARMALiNGAM.fit", "lingam/varma_lingam.py:VARMALiNGAM.bootstrap", "lingam/varma_lingam.py:VARMALiNGAM._estimate_varma_coefs"]}
{"id": "C233", "title": "A LongitudinalLiNGAM object answers for its last successful fit", "statement": "After any sequence of calls, some of which fail, matrices, orders, residuals, p-values and total effects are those of the last data the object was fitted to; bootstrap returns the fits of its resamples and leaves the fitted model as it was.", "quantifier": "All sequences of calls, lists of data sets of any shapes, and places where a fit fails.", "why_tests_cant": "Needs every pair of a successful and a failing call with all shapes.", "anchors": ["lingam/longitudinal_lingam.py:LongitudinalLiNGAM.fit", "lingam/longitudinal_lingam.py:LongitudinalLiNGAM.bootstrap", "lingam/longitudinal_lingam.py:LongitudinalLiNGAM.get_error_independence_p_values", "lingam/longitudinal_lingam.py:LongitudinalLiNGAM.estimate_total_effect"]}
{"id": "C234", "title": "A fitted HighDimDirectLiNGAM answers queries whatever estimate_adj_mat is", "statement": "After fit, causal_order_ is an order of all variables, and estimate_total_effect, get_error_independence_p_values and bootstrap work for every pair of variables, for both values of estimate_adj_mat.", "quantifier": "All data, parameters, numbers of variables and sequences of fits.", "why_tests_cant": "Depends on an option that tests combine with fit only.", "anchors": ["lingam/high_dim_direct_lingam.py:HighDimDirectLiNGAM.fit", "lingam/base.py:_BaseLiNGAM.estimate_total_effect", "lingam/base.py:_BaseLiNGAM.get_error_independence_p_values", "lingam/bootstrap.py:BootstrapMixin.bootstrap"]}
{"id": "C235", "title": "RCD.bootstrap completes whenever its fits do, and stores the total effects", "statement": "For a positive n_sampling, if fit succeeds on every resample then bootstrap returns one adjacency matrix and one matrix of total effects per resample, in order; the effects are zero off the ancestor sets, NaN where the cause has a NaN in its row, and otherwise the total effects of the estimated matrix.", "quantifier": "All data, resamples, numbers of samplings and answers of the tests.", "why_tests_cant": "Depends on the estimate of every resample; cyclic estimates are rare in tests.", "anchors": ["lingam/rcd.py:RCD.bootstrap", "lingam/rcd.py:RCD.estimate_total_effect2", "lingam/utils/__init__.py:calculate_total_effect"]}
{"id": "C236", "title": "The queries of MultiGroupRCD answer for every data set they are given", "statement": "After fit on several data sets, estimate_total_effect and get_error_independence_p_values return one result per data set given, computed from that data set and its own matrix, or raise when the list does not match the fit.", "quantifier": "All fitted objects, lists of data sets of any number and width, and pairs of variables.", "why_tests_cant": "Tests query with the list used for fit; other lengths and widths are unbounded.", "anchors": ["lingam/multi_group_rcd.py:MultiGroupRCD.estimate_total_effect", "lingam/multi_group_rcd.py:MultiGroupRCD.get_error_independence_p_values", "lingam/multi_group_rcd.py:MultiGroupRCD._check_X_list"]}
{"id": "C237", "title": "BottomUpParceLiNGAM.bootstrap records the total effects its own query reports", "statement": "For a positive n_sampling, if fit succeeds on every resample then bootstrap returns one matrix and one matrix of total effects per resample; for every pair of different variables the recorded effect is the one estimate_total_effect2 of that fit reports: NaN from a variable of unknown order, else the total effect of the estimated matrix.", "quantifier": "All data, resamples, numbers of samplings, prior knowledge and answers of the tests.", "why_tests_cant": "Depends on the blocks of unknown order of every resample.", "anchors": ["lingam/bottom_up_parce_lingam.py:BottomUpParceLiNGAM.bootstrap", "lingam/bottom_up_parce_lingam.py:BottomUpParceLiNGAM.estimate_total_effect2", "lingam/bottom_up_parce_lingam.py:BottomUpParceLiNGAM.fit"]}
{"id": "C238", "title": "bootstrap_with_imputation works with its defaults for every accepted n_repeats", "statement": "With neither an imputer nor a discovery model given, bootstrap_with_imputation returns for every accepted n_sampling and n_repeats (both at least 1) one entry per bootstrap sample: an order of all variables that obeys the prior knowledge, n_repeats finite matrices whose coefficients follow that order, and imputed values exactly where the resampled value is missing, observed values being unchanged.", "quantifier": "All data with missing values, resamples, numbers of samplings and repeats, imputed values, scores and regressions.", "why_tests_cant": "Depends on the number of repeats, the pattern of missing values and every resample.", "anchors": ["lingam/tools/__init__.py:bootstrap_with_imputation", "lingam/tools/__init__.py:_DefaultMultipleImputation", "lingam/tools/__init__.py:_DefaultMultiGroupCDModel", "lingam/multi_group_direct_lingam.py:MultiGroupDirectLiNGAM._check_X_list"]}
{"id": "C239", "title": "MultiGroupRCD.bootstrap completes whenever the fits of its resamples do", "statement": "For at least two data sets of one width and a positive n_sampling, if fit succeeds on every list of resampled data sets then MultiGroupRCD.bootstrap returns one result per data set with one matrix and one matrix of total effects per round: zero from non-ancestors, else the total effect in the matrix of that data set when no matrix up to it has a NaN in the row of the cause, and zero otherwise. Rejected arguments raise ValueError and leave the object as it was.", "quantifier": "All lists of data sets, resamples, numbers of samplings and estimates, also with NaN.", "why_tests_cant": "Depends on the estimates of every round, in particular on circles and NaN.", "anchors": ["lingam/multi_group_rcd.py:MultiGroupRCD.bootstrap", "lingam/multi_group_rcd.py:MultiGroupRCD.estimate_total_effect2", "lingam/multi_group_rcd.py:MultiGroupRCD._check_X_list"]}
