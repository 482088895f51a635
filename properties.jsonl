{"id": "C01", "title": "Perpendicular fit terminates and succeeds on valid data", "statement": "Calling fit on a perpendicular tree with at least one sample, at least one feature and at least one feature name per feature always returns a fitted tree; it never raises and never recurses deeper than the number of training samples minus one, whatever the likelihood function decides.", "quantifier": "all training matrices, targets, priors, hyperparameters, feature name lists, sort tie-breaks and likelihood values", "why_tests_cant": "A test can only run finitely many data sets; termination has to hold for every one, including adversarial likelihood values.", "anchors": [{"file": "bayesian_decision_tree/base.py", "symbols": ["BaseTree.fit"]}, {"file": "bayesian_decision_tree/base_perpendicular.py", "symbols": ["BasePerpendicularTree._fit"]}]}
{"id": "C02", "title": "Training rows are routed at prediction time to the leaf that was fitted on them", "statement": "After fitting a perpendicular tree (split_precision >= 0, exact feature arithmetic) the number of samples n_data_ stored in each node is exactly the number of training rows that predict() sends through this node, and the posterior stored in the leaf reached by a training row is the one computed from the targets of exactly the training rows routed to this leaf.", "quantifier": "all training sets, every node of every fitted tree, every sort tie-break", "why_tests_cant": "Relates the index arithmetic of training with the threshold comparisons of prediction on every data set.", "anchors": [{"file": "bayesian_decision_tree/base_perpendicular.py", "symbols": ["_fit", "_compute_child1_and_child2_indices"]}, {"file": "bayesian_decision_tree/base.py", "symbols": ["_predict"]}]}
{"id": "C03", "title": "predict_proba is the smoothed class frequency of the training rows sharing the query's leaf", "statement": "With delta = 0, for any query row x and class c, predict_proba(x)[c] = (prior[c] + number of training rows of class c that predict routes to the same leaf as x) / (sum(prior) + number of training rows routed to this leaf).", "quantifier": "all training sets, priors, queries and classes", "why_tests_cant": "The formula must hold for every query point, not only sampled ones.", "anchors": [{"file": "bayesian_decision_tree/classification.py", "symbols": ["predict_proba", "_compute_posterior", "_compute_posterior_mean"]}, {"file": "bayesian_decision_tree/base.py", "symbols": ["_predict"]}]}
{"id": "C04", "title": "predict_proba returns a probability distribution", "statement": "With all prior parameters positive and delta >= 0, every row returned by predict_proba has one strictly positive entry per class and sums to 1.", "quantifier": "all fitted classification trees (perpendicular and hyperplane), pruned or not, and all queries", "why_tests_cant": "Ranges over every training set and query.", "anchors": [{"file": "bayesian_decision_tree/classification.py", "symbols": ["predict_proba", "_compute_posterior_mean"]}]}
{"id": "C05", "title": "predict returns the first most probable class", "statement": "predict(x) is the smallest class index whose predict_proba(x) entry is maximal.", "quantifier": "all fitted classification trees and queries", "why_tests_cant": "Ties are measure-zero in random tests.", "anchors": [{"file": "bayesian_decision_tree/classification.py", "symbols": ["_predict_leaf", "predict_proba"]}, {"file": "bayesian_decision_tree/base.py", "symbols": ["predict"]}]}
{"id": "C06", "title": "Regression prediction is the shrunk mean of the training targets sharing the query's leaf", "statement": "With delta = 0, predict(x) of a regression tree equals (kappa*mu + sum of y over training rows routed to the leaf of x) / (kappa + number of those rows).", "quantifier": "all regression training sets, priors and queries", "why_tests_cant": "Exact formula for every query.", "anchors": [{"file": "bayesian_decision_tree/regression.py", "symbols": ["_compute_posterior_internal", "_compute_posterior_mean"]}, {"file": "bayesian_decision_tree/base.py", "symbols": ["_predict"]}]}
{"id": "C07", "title": "Normal-gamma posterior update is a valid conjugate update", "statement": "For a prior with kappa, alpha, beta > 0 and a non-empty target set the regression posterior has kappa, alpha, beta > 0, does not depend on the order of the targets, and updating with a first batch and then with a second one gives the same posterior as updating once with both.", "quantifier": "all priors, all target lists, all permutations and batchings", "why_tests_cant": "An algebraic law over all real inputs.", "anchors": [{"file": "bayesian_decision_tree/regression.py", "symbols": ["_compute_posterior", "_compute_posterior_internal"]}]}
{"id": "C08", "title": "Regression predictions never leave the hull of the prior mean and the training targets", "statement": "For kappa > 0 and delta >= 0 every value predicted by a fitted regression tree lies between the minimum and the maximum of {mu} and the training targets. The same holds for hyperplane trees.", "quantifier": "all training sets, priors, deltas, queries", "why_tests_cant": "Bound over every query and every fitted tree.", "anchors": [{"file": "bayesian_decision_tree/regression.py", "symbols": ["_compute_posterior_internal", "_predict_leaf"]}, {"file": "bayesian_decision_tree/base_perpendicular.py", "symbols": ["_fit"]}, {"file": "bayesian_decision_tree/base.py", "symbols": ["predict"]}]}
{"id": "C09", "title": "A node is split at the jointly most likely (dimension, threshold) and only if strictly better than not splitting", "statement": "At every node of a fitted perpendicular tree the stored split has the maximal value of log(partition_prior^(1+level)/(number of admissible thresholds of that dimension * n_features)) + log-evidence(left) + log-evidence(right) over all features and all thresholds separating two training values of the node further apart than split_precision, this value is strictly larger than the no-split value log(1-partition_prior^(1+level)) + log-evidence(node), and ties are resolved to the lowest feature index and then the lowest threshold.", "quantifier": "all nodes of all fitted trees, all candidate splits", "why_tests_cant": "Global optimality over all candidate splits for every data set.", "anchors": [{"file": "bayesian_decision_tree/base_perpendicular.py", "symbols": ["_fit"]}, {"file": "bayesian_decision_tree/classification.py", "symbols": ["_compute_log_p_data_split", "_compute_log_p_data_no_split"]}, {"file": "bayesian_decision_tree/regression.py", "symbols": ["_compute_log_p_data_split", "_compute_log_p_data_no_split"]}]}
{"id": "C10", "title": "A fitted node stays a leaf only if no admissible split beats the no-split evidence", "statement": "Every leaf of an unpruned perpendicular tree either holds a single sample, or samples whose targets are all equal (or is the root), or no candidate split of its samples has a value strictly larger than the no-split value.", "quantifier": "all leaves of all fitted trees", "why_tests_cant": "Universally quantified over candidate splits of arbitrary data.", "anchors": [{"file": "bayesian_decision_tree/base_perpendicular.py", "symbols": ["_fit"]}]}
{"id": "C11", "title": "Structural invariants of a fitted tree", "statement": "In every fitted tree both children of a split hold at least one sample, their sample counts add up to the parent's count, the root's count is the number of training samples, the child level is the parent level plus one, get_n_leaves is the number of leaves and at most the number of samples, and get_depth is the length of the longest root-leaf path and less than the number of samples.", "quantifier": "all fitted perpendicular and hyperplane trees", "why_tests_cant": "Inductive invariant over arbitrary trees.", "anchors": [{"file": "bayesian_decision_tree/base.py", "symbols": ["get_depth", "get_n_leaves", "_update_depth", "_update_n_leaves"]}, {"file": "bayesian_decision_tree/base_perpendicular.py", "symbols": ["_fit"]}, {"file": "bayesian_decision_tree/base_hyperplane.py", "symbols": ["_fit"]}]}
{"id": "C12", "title": "Feature importance is a distribution over features", "statement": "For a fitted perpendicular tree that has at least one split, pruned or not, every entry of feature_importance() is non-negative, the entries sum to 1, and the entry of a feature is positive exactly if some split of the tree uses that feature; it equals the sum of log-evidence gains of the splits on that feature divided by the total gain.", "quantifier": "all fitted trees with at least one split", "why_tests_cant": "Holds by positivity of each gain, an invariant over all trees.", "anchors": [{"file": "bayesian_decision_tree/base.py", "symbols": ["feature_importance"]}, {"file": "bayesian_decision_tree/base_perpendicular.py", "symbols": ["_update_feature_importance"]}]}
{"id": "C13", "title": "Feature importance is always a distribution (documented: normalized to sum to 1)", "statement": "feature_importance() of every fitted tree sums to 1.", "quantifier": "all fitted trees, including trees without a split and hyperplane trees", "why_tests_cant": "The failing states (no split; a hyperplane split with zero gain) are rare.", "anchors": [{"file": "bayesian_decision_tree/base.py", "symbols": ["feature_importance"]}, {"file": "bayesian_decision_tree/base_hyperplane.py", "symbols": ["feature_importance"]}, {"file": "bayesian_decision_tree/hyperplane_optimization.py", "symbols": ["HyperplaneOptimizationFunction.compute"]}]}
{"id": "C14", "title": "Pruning removes exactly the uninformative splits", "statement": "After fit with prune=True no split remains whose two children are leaves with equal predictions; pruning equals one bottom-up pass that collapses such splits; it terminates, is idempotent, never increases depth or number of leaves, and leaves every surviving node's data unchanged. The same holds for hyperplane trees.", "quantifier": "all fitted trees", "why_tests_cant": "Fixpoint property over arbitrary tree shapes.", "anchors": [{"file": "bayesian_decision_tree/base.py", "symbols": ["_prune", "_erase_split_info_base"]}]}
{"id": "C15", "title": "Pruning does not change class predictions under a symmetric prior", "statement": "For a classification tree with delta = 0 and a prior giving all classes equal weight, predict(x) is the same with and without pruning, for every x. The same holds for hyperplane trees.", "quantifier": "all training sets, all queries, all symmetric priors", "why_tests_cant": "Quantifies over all queries and all trees.", "anchors": [{"file": "bayesian_decision_tree/base.py", "symbols": ["_prune"]}, {"file": "bayesian_decision_tree/classification.py", "symbols": ["_predict_leaf"]}]}
{"id": "C16", "title": "Pruning never changes class predictions (documented: removes splits that don't add information)", "statement": "For every classification tree predict(x) is the same with prune=True and prune=False.", "quantifier": "all training sets, priors, queries", "why_tests_cant": "Counterexamples need an asymmetric prior and a particular data layout.", "anchors": [{"file": "bayesian_decision_tree/base.py", "symbols": ["_prune"]}, {"file": "bayesian_decision_tree/classification.py", "symbols": ["PerpendicularClassificationTree"]}]}
{"id": "C17", "title": "Pruning is safe for regression (documented)", "statement": "The documentation states that prune can safely be set to True for regression because children are only merged if their predictions are identical: predict(x) is the same with prune=True and prune=False.", "quantifier": "all regression training sets, priors, queries", "why_tests_cant": "Needs two leaves with exactly equal predictions different from the prior mean.", "anchors": [{"file": "bayesian_decision_tree/base.py", "symbols": ["_prune"]}, {"file": "bayesian_decision_tree/regression.py", "symbols": ["_predict_leaf"]}]}
{"id": "C18", "title": "Node posteriors are additive over children", "statement": "With delta = 0 the posterior of a classification split node equals posterior(child1) + posterior(child2) - prior, and every node posterior sums to sum(prior) + n_data_. The same holds for hyperplane trees.", "quantifier": "all nodes of all fitted classification trees", "why_tests_cant": "Inductive invariant over all trees.", "anchors": [{"file": "bayesian_decision_tree/classification.py", "symbols": ["_compute_posterior"]}, {"file": "bayesian_decision_tree/base_perpendicular.py", "symbols": ["_fit"]}, {"file": "bayesian_decision_tree/base_hyperplane.py", "symbols": ["_fit"]}]}
{"id": "C19", "title": "The fitted tree does not depend on how the sort routine breaks ties", "statement": "With split_precision >= 0 (exact arithmetic) two runs of a perpendicular fit that differ only in how np.argsort orders equal feature values produce the same tree.", "quantifier": "all training sets, all argsort implementations returning a sorting permutation", "why_tests_cant": "NumPy's default sort is unstable and platform dependent; tests see one order.", "anchors": [{"file": "bayesian_decision_tree/base_perpendicular.py", "symbols": ["_fit"]}]}
{"id": "C20", "title": "The fitted tree does not depend on the order of the training rows", "statement": "Permuting the training rows (X and y together) of a perpendicular tree yields the same tree (exact arithmetic, split_precision >= 0).", "quantifier": "all training sets and all permutations", "why_tests_cant": "n! permutations.", "anchors": [{"file": "bayesian_decision_tree/base_perpendicular.py", "symbols": ["_fit"]}, {"file": "bayesian_decision_tree/classification.py", "symbols": ["_compute_log_p_data_split"]}, {"file": "bayesian_decision_tree/regression.py", "symbols": ["_compute_log_p_data_split"]}]}
{"id": "C21", "title": "Feature scaling and shifting equivariance", "statement": "Transforming any feature by x -> a*x + b with a > 0 (split_precision = 0) yields the same tree with the thresholds of this feature transformed the same way; hence predictions for transformed queries are unchanged.", "quantifier": "all training sets, per-feature positive affine maps, queries", "why_tests_cant": "Continuum of transformations.", "anchors": [{"file": "bayesian_decision_tree/base_perpendicular.py", "symbols": ["_fit", "_compute_child1_and_child2_indices"]}]}
{"id": "C22", "title": "Batch prediction is row-wise", "statement": "predict, predict_proba and raw leaf data of a batch are obtained by predicting each row on its own: the i-th result is determined by row i only and equals the value of the leaf reached by following the splits from the root.", "quantifier": "all trees, all batches", "why_tests_cant": "Index composition over arbitrary batch and tree shapes.", "anchors": [{"file": "bayesian_decision_tree/base.py", "symbols": ["_predict", "predict", "_get_raw_leaf_data"]}, {"file": "bayesian_decision_tree/classification.py", "symbols": ["predict_proba"]}]}
{"id": "C23", "title": "prediction_paths lists the splits each row passes", "statement": "prediction_paths(X)[i] is the sequence (dimension, name, value, is_greater_or_equal) of the splits passed by row i on its way from the root to its leaf.", "quantifier": "all fitted perpendicular trees and batches", "why_tests_cant": "The implementation is only wrong for trees with splits on three or more levels.", "anchors": [{"file": "bayesian_decision_tree/base_perpendicular.py", "symbols": ["prediction_paths", "_update_prediction_paths"]}]}
{"id": "C24", "title": "prediction_paths is right for single rows and shallow trees", "statement": "For a one-row query on any tree, and for any batch on a tree whose splits are all on the first two levels, prediction_paths returns the splits passed by each row in order, with the correct side flags.", "quantifier": "all trees and one-row queries; all trees with at most two levels of splits and all batches", "why_tests_cant": "Unbounded trees and batches.", "anchors": [{"file": "bayesian_decision_tree/base_perpendicular.py", "symbols": ["prediction_paths", "_update_prediction_paths"]}]}
{"id": "C25", "title": "Every accepted query gets a prediction from a leaf", "statement": "If predict accepts a query matrix then every returned value is the value of some leaf of the tree.", "quantifier": "all trees and all float matrices, including NaN entries", "why_tests_cant": "NaN falls through both comparisons.", "anchors": [{"file": "bayesian_decision_tree/base.py", "symbols": ["_predict"]}, {"file": "bayesian_decision_tree/base_perpendicular.py", "symbols": ["_compute_child1_and_child2_indices"]}]}
{"id": "C26", "title": "Training/prediction routing consistency for integer features", "statement": "fit accepts integer matrices unchanged (int8..uint64); each training row is routed by predict to the leaf fitted on it.", "quantifier": "all integer matrices of every accepted width", "why_tests_cant": "Needs feature sums that exceed the integer range.", "anchors": [{"file": "bayesian_decision_tree/base.py", "symbols": ["_ensure_float64"]}, {"file": "bayesian_decision_tree/base_perpendicular.py", "symbols": ["_fit"]}]}
{"id": "C27", "title": "Training/prediction routing consistency for float64 features", "statement": "For finite float64 features each training row is routed by predict to the side of the split it was fitted on.", "quantifier": "all pairs of neighbouring float64 feature values", "why_tests_cant": "Rounding of the midpoint: 2^128 pairs.", "anchors": [{"file": "bayesian_decision_tree/base_perpendicular.py", "symbols": ["_fit", "_compute_child1_and_child2_indices"]}]}
{"id": "C28", "title": "Sparse and dense inputs give the same model and the same predictions", "statement": "Fitting on, or querying with, a CSR/CSC matrix gives the same tree and the same predictions as its dense array, including one-row and one-element selections.", "quantifier": "all matrices and all their compressed representations (explicit zeros, unsorted indices, duplicate entries)", "why_tests_cant": "Infinitely many representations of each matrix.", "anchors": [{"file": "bayesian_decision_tree/base_perpendicular.py", "symbols": ["_to_array", "_fit", "_compute_child1_and_child2_indices"]}, {"file": "bayesian_decision_tree/base.py", "symbols": ["_predict"]}]}
{"id": "C29", "title": "Queries on unfitted models or with a wrong number of features raise ValueError and change nothing", "statement": "For every query that is a data frame, matrix, row or scalar of a numeric dtype: predict, predict_proba and prediction_paths raise ValueError on a model without a successful fit, and after a fit they succeed iff the number of query columns equals the number of training features and raise ValueError otherwise; feature_importance raises ValueError on an unfitted model. Every other query on an unfitted model raises some exception (a zero-dimensional array raises IndexError).", "quantifier": "all histories of calls", "why_tests_cant": "Histories are unbounded.", "anchors": [{"file": "bayesian_decision_tree/base.py", "symbols": ["_ensure_is_fitted", "predict", "feature_importance", "_normalize_data_and_feature_names"]}]}
{"id": "C30", "title": "Refitting equals fitting a fresh model", "statement": "After any history of calls a successful fit puts the model into exactly the state a fresh model would have; a fit that fails input validation leaves the model unchanged.", "quantifier": "all call histories", "why_tests_cant": "Unbounded histories; stale attributes of previous fits.", "anchors": [{"file": "bayesian_decision_tree/base.py", "symbols": ["fit", "_erase_split_info_base"]}, {"file": "bayesian_decision_tree/base_perpendicular.py", "symbols": ["_fit"]}, {"file": "bayesian_decision_tree/base_hyperplane.py", "symbols": ["_fit"]}]}
{"id": "C31", "title": "A classification fit accepts exactly the label sets 0..n_classes-1", "statement": "With an explicit prior of k >= 2 entries, fit passes target validation iff the target is one-dimensional after squeezing and its set of values is exactly {0,...,k-1}; otherwise ValueError.", "quantifier": "all targets and priors", "why_tests_cant": "Broadcasting corner cases.", "anchors": [{"file": "bayesian_decision_tree/classification.py", "symbols": ["_check_target"]}, {"file": "bayesian_decision_tree/base.py", "symbols": ["fit"]}]}
{"id": "C32", "title": "Single-sample training sets", "statement": "fit accepts a training set with one row.", "quantifier": "all one-row training sets", "why_tests_cant": "A corner case of squeeze().", "anchors": [{"file": "bayesian_decision_tree/base.py", "symbols": ["fit"]}, {"file": "bayesian_decision_tree/classification.py", "symbols": ["_check_target"]}, {"file": "bayesian_decision_tree/regression.py", "symbols": ["_check_target"]}]}
{"id": "C33", "title": "Default prior", "statement": "A classification tree created with the documented default prior=None can be fitted (regression trees can).", "quantifier": "all training sets", "why_tests_cant": "Default argument path is never exercised by tests.", "anchors": [{"file": "bayesian_decision_tree/classification.py", "symbols": ["_check_target", "_get_prior"]}, {"file": "bayesian_decision_tree/regression.py", "symbols": ["_get_prior"]}]}
{"id": "C34", "title": "Hyperplane optimization keeps the best candidate seen", "statement": "After any sequence of evaluations by any optimizer the reported best split value is the maximum of the no-split value and all values returned so far (negated), the stored hyperplane was produced by an evaluated candidate attaining it, among equally likely ones one with the largest cumulative distance, and the evaluation counter equals the number of evaluations.", "quantifier": "all finite evaluation sequences by all (adaptive) optimizers", "why_tests_cant": "Optimizers are stochastic; sequences unbounded.", "anchors": [{"file": "bayesian_decision_tree/hyperplane_optimization.py", "symbols": ["HyperplaneOptimizationFunction.compute"]}]}
{"id": "C35", "title": "Hyperplane trees route training rows consistently", "statement": "For every hyperplane split both children are non-empty, the rows used for fitting child1/child2 are exactly those predict routes to child1/child2, and every node's n_data_ and posterior is that of the training rows routed to it.", "quantifier": "all training sets and optimizers", "why_tests_cant": "Any optimizer result has to be safe.", "anchors": [{"file": "bayesian_decision_tree/base_hyperplane.py", "symbols": ["_fit", "_compute_child1_and_child2_indices"]}]}
{"id": "C36", "title": "Hyperplane fit is independent of training row order", "statement": "For a fixed sequence of candidate normals, permuting the training rows does not change the candidate's value.", "quantifier": "all training sets and permutations", "why_tests_cant": "The implementation looks at differences of unsorted projections, visible only for particular orders.", "anchors": [{"file": "bayesian_decision_tree/hyperplane_optimization.py", "symbols": ["HyperplaneOptimizationFunction.compute"]}]}
{"id": "C37", "title": "The recorded evidence of a hyperplane split is that of the actual partition", "statement": "best_log_p_data_split_ of a hyperplane node equals the split evidence of the partition of the training rows into child1 and child2.", "quantifier": "all training sets and optimizers", "why_tests_cant": "Only fails for repeated projections.", "anchors": [{"file": "bayesian_decision_tree/hyperplane_optimization.py", "symbols": ["HyperplaneOptimizationFunction.compute"]}, {"file": "bayesian_decision_tree/base_hyperplane.py", "symbols": ["_fit"]}]}
{"id": "C38", "title": "delta strengthens the prior with depth (documented)", "statement": "The documented parameter delta influences hyperplane trees.", "quantifier": "all training sets, deltas", "why_tests_cant": "A no-op parameter is invisible to example tests.", "anchors": [{"file": "bayesian_decision_tree/base_hyperplane.py", "symbols": ["_fit"]}]}
{"id": "C39", "title": "Hyperplane search space mapping", "statement": "For each hypercube point the mapped normal has unit length; with half_hypersphere=True its first coordinate is non-negative; the division by the norm never divides by zero; and every unit vector (with non-negative first coordinate in the half case) is the image of some hypercube point, in any dimension.", "quantifier": "all dimensions and all points of the hypercube / sphere", "why_tests_cant": "Continuum of points, all dimensions.", "anchors": [{"file": "bayesian_decision_tree/utils.py", "symbols": ["hypercube_to_hypersphere_surface"]}]}
{"id": "C40", "title": "Built-in optimizers only evaluate points inside the search space", "statement": "QuasiRandomHyperplaneOptimizer and SimulatedAnnealingOptimizer only pass points of the unit hypercube [0,1]^(n-1) to the objective (so its range assertion cannot fail).", "quantifier": "all random streams, all sequence positions, all spread factors", "why_tests_cant": "Unbounded streams.", "anchors": [{"file": "bayesian_decision_tree/utils.py", "symbols": ["r2_series_generator"]}, {"file": "bayesian_decision_tree/hyperplane_optimization.py", "symbols": ["QuasiRandomHyperplaneOptimizer", "SimulatedAnnealingOptimizer"]}]}
{"id": "C41", "title": "RandomTwoPointOptimizer picks points of two different classes and terminates only if two classes exist", "statement": "Each normal it evaluates is (up to sign) the difference of two training rows of different classes and has a non-negative first coordinate. Targets that are not integers raise a TypeError, a single target value ends without evaluations. If exactly one non-negative value occurs among at least two integer targets, the selection loop never ends; if all are negative a ValueError is raised. If two occurring classes, one of them 0 or more, are drawn in alternation again and again, the loop ends.", "quantifier": "all targets and all random streams", "why_tests_cant": "Non-termination for every stream cannot be tested.", "anchors": [{"file": "bayesian_decision_tree/hyperplane_optimization.py", "symbols": ["RandomTwoPointOptimizer.solve"]}]}
{"id": "C42", "title": "SimulatedAnnealingOptimizer terminates", "statement": "For every random stream the simulated annealing loop stops, because the objective only takes finitely many values on a given training set.", "quantifier": "all random streams and training sets", "why_tests_cant": "Termination over all streams.", "anchors": [{"file": "bayesian_decision_tree/hyperplane_optimization.py", "symbols": ["SimulatedAnnealingOptimizer.solve"]}]}
{"id": "C43", "title": "The split/no-split prior of a node is a sub-probability distribution", "statement": "For 0 < partition_prior < 1 the prior weights of all candidate splits of a node plus the no-split weight are positive and sum to at most 1, and to exactly 1 iff every feature has at least one admissible threshold.", "quantifier": "all nodes, training sets, levels", "why_tests_cant": "Sums over arbitrary candidate sets.", "anchors": [{"file": "bayesian_decision_tree/classification.py", "symbols": ["_compute_log_p_data_split", "_compute_log_p_data_no_split"]}, {"file": "bayesian_decision_tree/regression.py", "symbols": ["_compute_log_p_data_split"]}]}
{"id": "C44", "title": "The evidence is a product of posterior predictive probabilities", "statement": "The log-evidence of a label sequence equals the sum over the sequence of the log of the smoothed class frequency predicted from the labels before it (Dirichlet-multinomial chain rule), for binary and multiclass alike; so evidences are in (0,1] and are independent of label order. For regression the evidence satisfies evidence(first ++ second | prior) = evidence(first | prior) * evidence(second | posterior of first).", "quantifier": "all label sequences, priors, numbers of classes", "why_tests_cant": "Identity over all sequences.", "anchors": [{"file": "bayesian_decision_tree/utils.py", "symbols": ["multivariate_betaln"]}, {"file": "bayesian_decision_tree/classification.py", "symbols": ["_compute_log_p_data"]}, {"file": "bayesian_decision_tree/regression.py", "symbols": ["_compute_log_p_data"]}]}
{"id": "C45", "title": "Vectorised split evidences equal the direct evidence of the two parts", "statement": "For every split position the cumulative-sum based vectorised split value equals log prior + evidence(first k targets) + evidence(remaining targets), in particular also in the unindexed fast path used when all positions are admissible.", "quantifier": "all target arrays and admissible positions", "why_tests_cant": "Index arithmetic over arbitrary lengths.", "anchors": [{"file": "bayesian_decision_tree/classification.py", "symbols": ["_compute_log_p_data_split"]}, {"file": "bayesian_decision_tree/regression.py", "symbols": ["_compute_log_p_data_split"]}]}
{"id": "C46", "title": "Interrupted fits", "statement": "If a first fit is interrupted or raises at any point the model still reports itself unfitted and refuses to predict; if a refit is interrupted the previous model stays usable.", "quantifier": "all crash points during fit", "why_tests_cant": "Every crash point.", "anchors": [{"file": "bayesian_decision_tree/base_perpendicular.py", "symbols": ["_fit"]}, {"file": "bayesian_decision_tree/base.py", "symbols": ["is_fitted", "_ensure_is_fitted"]}]}
{"id": "C47", "title": "Raw leaf data: prior plus leaf counts", "statement": "In the raw data [prior, posterior] of every leaf of a classification tree, posterior - prior is the class count vector of the training rows of this leaf.", "quantifier": "all trees, all delta", "why_tests_cant": "Only fails for delta > 0 with pure leaves.", "anchors": [{"file": "bayesian_decision_tree/base.py", "symbols": ["_get_raw_leaf_data"]}, {"file": "bayesian_decision_tree/classification.py", "symbols": ["_get_raw_leaf_data_internal"]}, {"file": "bayesian_decision_tree/base_perpendicular.py", "symbols": ["_fit"]}]}
{"id": "C48", "title": "The printed tree shows every node once", "statement": "str(model) is 'Unfitted model' before fitting; afterwards it consists of the node texts in depth-first order, each starting on a new line with the tree drawing of its position, every leaf text showing its prediction and its sample count; provided no formatted piece (feature name, number, probability array) contains a newline it therefore has exactly one line per node.", "quantifier": "all fitted trees", "why_tests_cant": "All tree shapes.", "anchors": [{"file": "bayesian_decision_tree/base_perpendicular.py", "symbols": ["__str__", "_str"]}, {"file": "bayesian_decision_tree/base_hyperplane.py", "symbols": ["__str__", "_str"]}]}
{"id": "C49", "title": "Sort indices fit their storage type", "statement": "The sample indices stored in the uint16/uint32/uint64 sort matrix are never truncated.", "quantifier": "all numbers of samples below 2^64", "why_tests_cant": "Boundary at 65536 and 2^32 samples.", "anchors": [{"file": "bayesian_decision_tree/base_perpendicular.py", "symbols": ["_fit"]}]}
{"id": "C50", "title": "Class relabelling equivariance", "statement": "With prune=False, permuting the class labels together with the prior entries yields a tree with the same splits and correspondingly permuted class probabilities. The same holds for hyperplane trees with every built-in optimizer that only sees the objective.", "quantifier": "all training sets, permutations, priors", "why_tests_cant": "All permutations and data sets.", "anchors": [{"file": "bayesian_decision_tree/classification.py", "symbols": ["_compute_posterior", "_compute_log_p_data_split"]}, {"file": "bayesian_decision_tree/utils.py", "symbols": ["multivariate_betaln"]}]}
{"id": "C51", "title": "Target shift and scale equivariance of regression", "statement": "Replacing y by s*y + c, mu by s*mu + c and beta by s^2*beta (s > 0) yields a tree with the same splits whose predictions are transformed by v -> s*v + c. The same holds for hyperplane trees with every built-in optimizer that only sees the objective.", "quantifier": "all training sets, s > 0, c", "why_tests_cant": "Continuum of transformations.", "anchors": [{"file": "bayesian_decision_tree/regression.py", "symbols": ["_compute_posterior_internal", "_compute_log_p_data"]}]}
{"id": "C52", "title": "Integer regression targets", "statement": "fit accepts integer targets; the posterior equals the one computed from the same targets as floats.", "quantifier": "all integer target arrays of every accepted width", "why_tests_cant": "Needs squares exceeding the integer range.", "anchors": [{"file": "bayesian_decision_tree/base.py", "symbols": ["_ensure_float64"]}, {"file": "bayesian_decision_tree/regression.py", "symbols": ["_compute_posterior", "_compute_log_p_data_no_split"]}]}
{"id": "C53", "title": "Class relabelling equivariance with pruning", "statement": "With prune=True, permuting the class labels together with the prior entries yields a tree with the same splits.", "quantifier": "all training sets, priors and permutations of the class labels", "why_tests_cant": "Only specific ties between classes expose the dependence on class numbering; no finite set of examples shows its absence.", "anchors": [{"file": "bayesian_decision_tree/classification.py", "symbols": ["_compute_posterior", "_compute_log_p_data_split"]}, {"file": "bayesian_decision_tree/utils.py", "symbols": ["multivariate_betaln"]}, {"file": "bayesian_decision_tree/base.py", "symbols": ["_prune"]}]}
{"id": "C54", "title": "Hyperplane splits are the best evaluated ones and have unit normals and non-negative gains", "statement": "At every node of a fitted hyperplane tree the stored hyperplane is a best one among the candidates the optimizer evaluated at the node (ties broken by the summed distance) and is at least as likely as not splitting; leaves that were not created by pruning have one sample, one target value, no candidate better than not splitting, or a best hyperplane with an empty side. Normals are unit vectors; if some split has a positive gain the feature importances are non-negative, sum to 1 and are proportional to the gains weighted by the absolute entries of the normals.", "quantifier": "all training sets, optimizers and hyperparameters", "why_tests_cant": "Optimizers are stochastic; all candidate sequences have to be considered.", "anchors": [{"file": "bayesian_decision_tree/base_hyperplane.py", "symbols": ["_fit", "feature_importance"]}, {"file": "bayesian_decision_tree/hyperplane_optimization.py", "symbols": ["HyperplaneOptimizationFunction.compute"]}]}
{"id": "C55", "title": "Hyperplane fitting terminates with a tree", "statement": "For every training set and whatever candidates the optimizer evaluates, the recursion of the hyperplane fit ends after at most n levels and yields a tree (no infinite recursion on an empty side).", "quantifier": "all training sets, all optimizers, all hyperparameters", "why_tests_cant": "Unbounded recursion depth only shows on particular hyperplanes.", "anchors": [{"file": "bayesian_decision_tree/base_hyperplane.py", "symbols": ["_fit"]}]}
{"id": "C56", "title": "Fitted objects answer exactly like the fitted tree", "statement": "After any history of calls, a successful fit leaves attributes that represent exactly the tree computed from the validated data, and predict, predict_proba, the raw leaf data, prediction_paths, feature_importance, get_depth and get_n_leaves of the object give that tree's results on the query matrix read in row-major order.", "quantifier": "all histories, training sets, queries and (for hyperplane trees) candidate sequences", "why_tests_cant": "Stale attributes and half-updated children only show up in particular histories.", "anchors": [{"file": "bayesian_decision_tree/base.py", "symbols": ["fit", "predict", "_predict", "_prune", "feature_importance"]}, {"file": "bayesian_decision_tree/base_perpendicular.py", "symbols": ["_fit", "prediction_paths"]}, {"file": "bayesian_decision_tree/base_hyperplane.py", "symbols": ["_fit"]}]}
{"id": "C57", "title": "Hyperplane trees can be fitted on a single feature", "statement": "Fitting a hyperplane tree on data with one feature succeeds with each built-in optimizer that searches the unit hypercube.", "quantifier": "all one-feature training sets, priors, random streams and options of the optimizers", "why_tests_cant": "The failure must be shown for every data set and every stream.", "anchors": [{"file": "bayesian_decision_tree/hyperplane_optimization.py", "symbols": ["SimulatedAnnealingOptimizer.solve", "GradientDescentOptimizer.solve", "QuasiRandomHyperplaneOptimizer.solve"]}, {"file": "bayesian_decision_tree/utils.py", "symbols": ["hypercube_to_hypersphere_surface", "r2_series_generator"]}]}
{"id": "C58", "title": "GradientDescentOptimizer stays in the hypercube and terminates", "statement": "GradientDescentOptimizer only evaluates points of the unit hypercube, and for every random stream all its loops (step enlargement, line search, rounds) stop.", "quantifier": "all random streams, training sets, numbers of initial points and of kept candidates", "why_tests_cant": "Termination over all streams and all training sets.", "anchors": [{"file": "bayesian_decision_tree/hyperplane_optimization.py", "symbols": ["GradientDescentOptimizer.solve"]}]}
{"id": "C59", "title": "RandomTwoPointOptimizer works on integer matrices", "statement": "With an integer training matrix, which fit accepts and does not convert, the optimizer evaluates its normals without an exception.", "quantifier": "all integer training matrices with at least two classes, all random streams", "why_tests_cant": "The failure must be shown for every matrix and stream.", "anchors": [{"file": "bayesian_decision_tree/hyperplane_optimization.py", "symbols": ["RandomTwoPointOptimizer.solve", "HyperplaneOptimizationFunction.compute"]}, {"file": "bayesian_decision_tree/base.py", "symbols": ["_ensure_float64"]}]}
{"id": "C60", "title": "Hyperplane fits with the built-in optimizers terminate with a tree", "statement": "Running a built-in optimizer (annealing, gradient descent, quasi-random, random hyperplanes, two-point) at every node, the fit ends without an exception with a tree, and this tree is the one obtained from the candidates that the optimizer evaluated, so that all properties of hyperplane trees hold for it. Hypotheses: two features for the hypercube optimizers, class labels and a stream that does not avoid a pair of classes for the two-point optimizer.", "quantifier": "all training sets, priors, hyperparameters, optimizer options and random streams", "why_tests_cant": "Termination and absence of exceptions over all data sets and streams.", "anchors": [{"file": "bayesian_decision_tree/base_hyperplane.py", "symbols": ["BaseHyperplaneTree._fit"]}, {"file": "bayesian_decision_tree/hyperplane_optimization.py", "symbols": ["solve"]}]}
{"id": "C61", "title": "A smaller partition_prior gives a coarser tree", "statement": "For two fits that differ only in partition_prior, the tree of the smaller value arises from the tree of the larger one by turning splits into leaves: no other split appears, and priors, posteriors and counts of the remaining nodes are equal. So depth and number of leaves do not grow. Holds with and without pruning, and for hyperplane trees evaluated on the same candidates.", "quantifier": "all training sets, priors, delta, precisions and pairs of partition priors in (0,1)", "why_tests_cant": "The documented effect of the parameter must hold at every node for every data set and every pair of values.", "anchors": [{"file": "bayesian_decision_tree/base_perpendicular.py", "symbols": ["_fit"]}, {"file": "bayesian_decision_tree/base_hyperplane.py", "symbols": ["BaseHyperplaneTree._fit"]}, {"file": "bayesian_decision_tree/classification.py", "symbols": ["_compute_log_p_data_no_split", "_compute_log_p_data_split"]}, {"file": "bayesian_decision_tree/regression.py", "symbols": ["_compute_log_p_data_no_split", "_compute_log_p_data_split"]}]}
{"id": "C62", "title": "Training accuracy is at least the frequency of every class", "statement": "With equal prior weights (and delta = 0) the number of correctly answered training rows is the sum over the leaves of the size of the largest class, hence at least the number of rows of any single class; it does not fall when partition_prior grows. Without equal prior weights the bound is false (witness).", "quantifier": "all training sets, symmetric priors, partition priors, with and without pruning; also hyperplane trees for any optimizer", "why_tests_cant": "Sums over all leaves of arbitrary trees.", "anchors": [{"file": "bayesian_decision_tree/base.py", "symbols": ["predict", "_predict"]}, {"file": "bayesian_decision_tree/classification.py", "symbols": ["_predict_leaf", "_compute_posterior"]}]}
{"id": "C63", "title": "Training error of regression trees", "statement": "With delta = 0 the squared training error is the sum over the leaves of the squared deviations from the leaf mean plus the error made by shrinking this mean towards the prior mean with factor kappa/(kappa+n); it is never larger than the error of always answering the prior mean.", "quantifier": "all training sets and normal-gamma priors; also hyperplane trees for any optimizer", "why_tests_cant": "Exact identity over the reals for arbitrary trees.", "anchors": [{"file": "bayesian_decision_tree/base.py", "symbols": ["predict", "_predict"]}, {"file": "bayesian_decision_tree/regression.py", "symbols": ["_predict_leaf", "_compute_posterior"]}]}
{"id": "C64", "title": "The recorded gains add up to the evidence of the tree", "statement": "With delta = 0 the sum of all recorded gains (the quantity distributed by feature_importance) is the log prior odds of the splits plus the log evidences of the leaves minus the log evidence of all data: the log ratio between the tree and a single leaf. The same holds for hyperplane trees whose candidate normals separate the rows.", "quantifier": "all training sets, priors, precisions and partition priors, with and without pruning", "why_tests_cant": "Telescoping identity over arbitrary trees.", "anchors": [{"file": "bayesian_decision_tree/base_perpendicular.py", "symbols": ["_fit"]}, {"file": "bayesian_decision_tree/base_perpendicular.py", "symbols": ["_update_feature_importance"]}, {"file": "bayesian_decision_tree/classification.py", "symbols": ["_compute_log_p_data_no_split", "_compute_log_p_data_split"]}, {"file": "bayesian_decision_tree/regression.py", "symbols": ["_compute_log_p_data_no_split", "_compute_log_p_data_split"]}]}
{"id": "C65", "title": "Increasing feature changes keep the training partition", "statement": "With split_precision 0, replacing every feature by a strictly increasing function of it (logarithm, rank, ...) gives a tree with the same shape, split dimensions, evidences and posteriors that puts the training rows into the same leaves and answers the same for them. This does not extend to other rows: the thresholds are midpoints.", "quantifier": "all training sets, all strictly increasing functions per feature, both tree types, with and without pruning", "why_tests_cant": "The transform ranges over all increasing functions; ties and midpoints matter only for rare data.", "anchors": [{"file": "bayesian_decision_tree/base_perpendicular.py", "symbols": ["_fit"]}, {"file": "bayesian_decision_tree/base.py", "symbols": ["predict", "_predict"]}]}
{"id": "C66", "title": "Column order does not matter", "statement": "Permuting the columns of the training set (with their names) gives the same tree with renumbered split dimensions, and the same answers for queries permuted alike.", "quantifier": "all training sets and column permutations", "why_tests_cant": "Needs every tie between features of every node to be examined.", "anchors": [{"file": "bayesian_decision_tree/base_perpendicular.py", "symbols": ["_fit"]}, {"file": "bayesian_decision_tree/base.py", "symbols": ["predict", "_predict"]}]}
{"id": "C67", "title": "A regression model gives finite answers", "statement": "Whatever targets fit() accepts, the fitted regression model answers every query with a finite number; in particular one missing (nan) or infinite target does not spoil the answers for all other rows.", "quantifier": "all training sets with targets in the reals extended by inf, -inf and nan, all settings, both tree types, all queries", "why_tests_cant": "The claim ranges over all positions of the bad target and over all queries; test data have no missing targets.", "anchors": [{"file": "bayesian_decision_tree/regression.py", "symbols": ["_check_target", "_compute_log_p_data_no_split", "_compute_log_p_data_split", "_compute_posterior", "_predict_leaf"]}, {"file": "bayesian_decision_tree/base_perpendicular.py", "symbols": ["_fit"]}, {"file": "bayesian_decision_tree/base_hyperplane.py", "symbols": ["_fit"]}, {"file": "bayesian_decision_tree/classification.py", "symbols": ["_check_target"]}]}
{"id": "C68", "title": "The fixed point loop of the quasi-random sequence ends", "statement": "For every number of dimensions, the loop that determines the base of the quasi-random sequence stops, and the number it returns is the positive solution of x^(n_dim+1) = 1 + x up to rounding.", "quantifier": "all numbers of dimensions; correctly rounded, monotone and inexact power functions", "why_tests_cant": "The loop has no iteration limit and stops only when two successive floating point values are equal; a test sees the dimensions it tries on the platform it runs on.", "anchors": [{"file": "bayesian_decision_tree/utils.py", "symbols": ["r2_series_generator"]}, {"file": "bayesian_decision_tree/hyperplane_optimization.py", "symbols": ["QuasiRandomHyperplaneOptimizer"]}]}
{"id": "C69", "title": "Training rows with missing or infinite features are answered by the leaf they were trained in", "statement": "fit() accepts feature matrices with nan, inf and -inf. If it does, predict() and predict_proba() send each training row to the leaf whose posterior it contributed to.", "quantifier": "all float64 training matrices with nan and infinite entries, all settings, both kinds of targets, all queries", "why_tests_cant": "Test matrices are finite; the claim ranges over all positions of special values and all trees.", "anchors": [{"file": "bayesian_decision_tree/base_perpendicular.py", "symbols": ["_fit", "_compute_child1_and_child2_indices"]}, {"file": "bayesian_decision_tree/base.py", "symbols": ["predict", "_predict"]}, {"file": "bayesian_decision_tree/classification.py", "symbols": ["predict_proba"]}]}
{"id": "C70", "title": "Data are never changed silently by the conversion to numbers", "statement": "Whatever the dtype of X and y, fit(), predict() and prediction_paths() either work on numbers equal to the given ones or raise before anything is assigned; whether a data set is accepted depends on its values only, not on the dtype they are stored in.", "quantifier": "all arguments of all dtypes, all conversions, both tree types, all object states", "why_tests_cant": "The claim ranges over all dtypes and all values that a conversion may change; tests use float64, int and bool arrays whose conversion is exact.", "anchors": [{"file": "bayesian_decision_tree/base.py", "symbols": ["fit", "predict", "_normalize_data_and_feature_names", "_ensure_float64"]}, {"file": "bayesian_decision_tree/base_perpendicular.py", "symbols": ["prediction_paths"]}]}
{"id": "C71", "title": "Splits are named by their columns; arguments of the wrong shape are rejected", "statement": "After a successful fit every split node and every step of a prediction path carries the index of an existing column and that column's name: the caller's names if given, else the data frame's column names, else x0, x1, ... The number of names must match the number of columns. X must be a matrix, a row or a scalar and must have one row per target, otherwise fit() raises before anything is assigned and queries raise. A query data frame is matched to the training columns by name. Regression trees reject every target that is not one-dimensional after dropping axes of length 1, before assigning anything.", "quantifier": "all arguments and shapes, all estimators, all object states, all query rows", "why_tests_cant": "The claim ranges over all shapes, name lists and trees; a test fixes one frame and one tree and rarely permutes columns or gives too few names.", "anchors": [{"file": "bayesian_decision_tree/base.py", "symbols": ["fit", "predict", "_normalize_data_and_feature_names"]}, {"file": "bayesian_decision_tree/base_perpendicular.py", "symbols": ["_fit", "prediction_paths", "_update_prediction_paths"]}]}
{"id": "C72", "title": "Simulated annealing moves the best points so far and stops after 50 idle rounds", "statement": "A run of the simulated annealing optimizer evaluates n_scan points made of the first uniform draws and then at least 50 rounds of n_keep points. The i-th point of round t is an earlier point plus fresh noise of at most spread^t per coordinate, clipped to the unit cube; the value of that earlier point is the (i*k/n_keep)-th smallest of all values found before the round, where k is n_keep or the number of different values if there are fewer, so the best point so far is never lost and nothing outside the n_keep best is moved. The run ends exactly when 50 rounds in a row brought no smaller value.", "quantifier": "all streams of draws, all objectives, all numbers of dimensions, candidates and rounds, all spread factors", "why_tests_cant": "The property speaks of every round of every run for every objective; a test sees one seed and one objective and cannot tell the n_keep best candidates from others that happen to do as well.", "anchors": [{"file": "bayesian_decision_tree/hyperplane_optimization.py", "symbols": ["SimulatedAnnealingOptimizer.solve"]}]}
{"id": "C73", "title": "The quasi-random and the random optimizers evaluate exactly the requested points", "statement": "The quasi-random optimizer evaluates exactly n points; coordinate j of point i is the fractional part of 1/2 + (i+1)/phi^(j+1). For the exact root phi of x^(d+1) = x + 1 no two of them have the same first coordinate, so the sequence never repeats. The random optimizer evaluates exactly n_mc normals made of consecutive draws, each used once. The two-point optimizer evaluates exactly n_mc normals when it returns, or none if all targets are equal.", "quantifier": "all objectives, all dimensions, all numbers of points, all streams of draws", "why_tests_cant": "That no two points of an infinite sequence coincide rests on the irrationality of phi, which no finite sample shows.", "anchors": [{"file": "bayesian_decision_tree/hyperplane_optimization.py", "symbols": ["QuasiRandomHyperplaneOptimizer.solve", "RandomHyperplaneOptimizer.solve", "RandomTwoPointOptimizer.solve"]}, {"file": "bayesian_decision_tree/utils.py", "symbols": ["r2_series_generator"]}]}
{"id": "C74", "title": "The model of a constant target is a single leaf", "statement": "If all training targets are equal, no split can raise the evidence, so the fitted tree should be a single leaf and predict one value for every query. The code refuses to split a node with equal targets except at the root. The claim holds for all four tree types whenever the prior odds of a split, pp/(1-pp), are at most (hyperplane trees: below) the number of features; a perpendicular root that is split all the same belongs to a feature with fewer than pp/((1-pp)*n_features) cuts. Without the bound it is false: with partition prior 0.9 a regression tree fitted to three targets 1 predicts 1/2 for some queries and 2/3 for others, and a classifier fitted to five labels 0 predicts class 1 for some queries.", "quantifier": "all data sets with equal targets, all priors, partition priors, precisions, pruning flags and optimizers", "why_tests_cant": "The bound rests on the convexity of ln Gamma(u) - u ln u for all real u, and the failure needs a prior mean away from the constant and unequal halves; a test with the usual centred data sees no difference between the leaves.", "anchors": [{"file": "bayesian_decision_tree/base_perpendicular.py", "symbols": ["_fit"]}, {"file": "bayesian_decision_tree/base_hyperplane.py", "symbols": ["_fit"]}, {"file": "bayesian_decision_tree/regression.py", "symbols": ["_compute_log_p_data_split", "_compute_log_p_data_no_split"]}, {"file": "bayesian_decision_tree/classification.py", "symbols": ["_compute_log_p_data_split", "_compute_log_p_data_no_split"]}]}
{"id": "C75", "title": "Redundant columns only make the tree coarser", "statement": "Append constant columns and copies of existing columns to the training data. No new cut appears and the order of the cuts is the same, so the tree fitted to the longer data is a coarsening of the tree fitted before: it has the same splits, some subtrees replaced by leaves (the number of columns lowers the prior of each split). That the model does not change at all is false: one constant column removes the only split of a four-row classifier and changes its predictions.", "quantifier": "all data sets, all numbers of appended columns, all priors, partition priors, precisions and pruning flags; classification and regression", "why_tests_cant": "A test can append one column to a few data sets; whether the tree is a coarsening for all data, including ties between the copies, needs the whole recursion.", "anchors": [{"file": "bayesian_decision_tree/base_perpendicular.py", "symbols": ["_fit"]}, {"file": "bayesian_decision_tree/regression.py", "symbols": ["_compute_log_p_data_split"]}, {"file": "bayesian_decision_tree/classification.py", "symbols": ["_compute_log_p_data_split"]}]}
{"id": "C76", "title": "A feature without importance has no influence on predictions", "statement": "If feature_importance reports 0 (or nan) for a feature, changing that column of the queries changes no prediction and no class probability. It holds for perpendicular trees (every split has a positive gain) and for hyperplane trees whose splits all have positive gain. It is false for hyperplane trees in general: a split of gain 0 is kept by the tree, adds nothing to the importance, and decides the class of a query.", "quantifier": "all training sets, all fitted trees, all pairs of queries that differ in one column", "why_tests_cant": "Tests sample queries; the zero-gain split needs an exact tie of the log evidences.", "anchors": [{"file": "bayesian_decision_tree/base.py", "symbols": ["feature_importance", "predict"]}, {"file": "bayesian_decision_tree/base_perpendicular.py", "symbols": ["_update_feature_importance", "_fit"]}, {"file": "bayesian_decision_tree/base_hyperplane.py", "symbols": ["_update_feature_importance", "_fit"]}]}
{"id": "C77", "title": "The printed tree can be read back", "statement": "A reader that knows only the layout (indentation by box characters, 'name=threshold', '<' and '>=', 'HP(origin=..., normal=...)', 'y=..., n=..., p(y)=...') recovers from str(tree) the exact shape of the tree, the texts of all splits and the prediction, row count and class probabilities of all leaves, for the four tree classes. So two models with the same distinct column names that print the same text predict the same for every query, as long as the formatting distinguishes their numbers. With repeated column names this is false: two fitted classifiers print the same text for every formatting of numbers and predict different classes.", "quantifier": "all trees of the four classes, all formattings of numbers on one line without '=' and ',', all column names without newline", "why_tests_cant": "A test compares a few printed trees with expected strings; that no two different trees share a text needs unique decoding of the indentation at every depth.", "anchors": [{"file": "bayesian_decision_tree/base_perpendicular.py", "symbols": ["__str__", "_str"]}, {"file": "bayesian_decision_tree/base_hyperplane.py", "symbols": ["__str__", "_str"]}]}
{"id": "C78", "title": "Hyperplane trees follow rotations, reflections, scalings and shifts of the feature space", "statement": "If every training row x becomes s*A(x)+v (A a rotation or reflection, s > 0) and the candidate normals are turned by A and split_precision is multiplied by s, fitting gives the same tree with normals turned by A and origins moved: same shape, counts, posteriors and evidences; and the moved tree predicts for moved queries what the tree predicts for the queries. With the built-in optimizers, which choose the candidates themselves, this holds for all scalings and shifts (A the identity), for every optimizer, random stream and budget. If split_precision is kept, it is false: a training set scaled by 1/4 gives a tree without split.", "quantifier": "all training sets, isometries, scales, shifts, candidates, optimizers, random streams and hyper-parameters, exact arithmetic", "why_tests_cant": "A metamorphic test tries a few rotations in floating point; equality of whole trees for every similarity needs invariance of each step of the search.", "anchors": [{"file": "bayesian_decision_tree/hyperplane_optimization.py", "symbols": ["compute", "solve"]}, {"file": "bayesian_decision_tree/base_hyperplane.py", "symbols": ["_fit", "_compute_child1_and_child2_indices"]}]}
{"id": "C79", "title": "Half of the sphere of directions suffices if projections differ", "statement": "The optimizers that search the unit hypercube see only normals with a non-negative first coordinate. If all rows of a node have projections more than split_precision apart, a normal and its opposite have the same objective value, so every direction has the value of some point of the hypercube, for classification and regression. In general this is false: there is a training set with repeated rows on which every list of hypercube points gives a tree without split, while one direction of the other half sphere gives a split that classifies every row.", "quantifier": "all nodes, directions, sorts and hyper-parameters, exact arithmetic", "why_tests_cant": "A test would have to evaluate all directions of a continuous sphere.", "anchors": [{"file": "bayesian_decision_tree/utils.py", "symbols": ["hypercube_to_hypersphere_surface"]}, {"file": "bayesian_decision_tree/hyperplane_optimization.py", "symbols": ["compute"]}]}
{"id": "C80", "title": "Optimizers depend on the order of the objective values only", "statement": "Replacing the objective by any strictly increasing function of it leaves the annealing, quasi-random, random and two-point optimizers unchanged: the same points are evaluated in the same order, the same random numbers are drawn and the same error, if any, is raised. Gradient descent is unchanged when a constant is added to the objective. It is not unchanged under scaling: there is an objective such that, divided by 4, it makes gradient descent evaluate other points.", "quantifier": "all objectives, transformations, optimizer settings, random streams and budgets, exact arithmetic", "why_tests_cant": "A test compares a few runs with a few objectives; the dependence on every comparison made during the search has to be followed.", "anchors": [{"file": "bayesian_decision_tree/hyperplane_optimization.py", "symbols": ["SimulatedAnnealingOptimizer", "GradientDescentOptimizer", "RandomTwoPointOptimizer", "RandomHyperplaneOptimizer", "QuasiRandomHyperplaneOptimizer"]}]}
{"id": "C81", "title": "Logarithms of float64 regression", "statement": "In float64 arithmetic the posterior beta of a regression node can be computed as a negative number (targets 1e10, 1e10, 1e10+3, 1e10+3 with prior (1e10, 1, 1, 1)). Then the logarithm is nan, no split beats the leaf, and the fitted tree is a single leaf although exact arithmetic splits the same data. For integer targets whose squares add up to less than 2^53 and a prior beta above 2^-52 times that sum (the default prior: sum below 2^51) this cannot happen: every node has a finite positive beta and no score takes the logarithm of a negative number or nan, for every order of additions in np.sum.", "quantifier": "all training sets, features, priors in range, sorts, summation orders, powers, gamma and logarithm functions; float64 with round to nearest even", "why_tests_cant": "Whether some subset of rows at some cut rounds to a negative variance cannot be enumerated; the counterexample needs large offsets that unit tests do not use.", "anchors": [{"file": "bayesian_decision_tree/regression.py", "symbols": ["_compute_posterior_internal", "_compute_log_p_data", "_compute_log_p_data_split", "_compute_log_p_data_no_split", "_get_prior"]}]}
{"id": "C82", "title": "Probabilities and predictions of float64 classification", "statement": "In float64 arithmetic, whatever the scores (so for every tree shape), every node of a classification tree has k finite probabilities in [0,1], each within (k+3)*2^-52 of the exact posterior mean of the rows that the prediction routes to the node; the predicted class has the largest computed probability and, up to a factor 1+2^-51, the largest exact posterior. With a symmetric prior of at most 2^50 and at most 2^50 rows the predicted class is exactly the first most frequent class of the rows of the node. The predicted class need not be np.argmax of predict_proba: two different posteriors can have equal computed probabilities. The entries of the computed default prior are exact.", "quantifier": "all training sets with labels 0..k-1, k up to 2^20, nonnegative priors up to 2^900, score functions, sorts, summation orders; float64 with round to nearest even", "why_tests_cant": "Rounding errors depend on every count, prior and summation order; a test sees a few of them.", "anchors": [{"file": "bayesian_decision_tree/classification.py", "symbols": ["predict_proba", "_compute_posterior", "_compute_posterior_mean", "_predict_leaf", "_get_prior"]}, {"file": "bayesian_decision_tree/base.py", "symbols": ["_predict", "predict"]}]}
{"id": "C83", "title": "Accuracy of trees fitted in float64", "statement": "A classification tree fitted entirely in float64 (features, posteriors, scores and comparisons) is optimal up to the accumulated rounding error tau: at every split down to the given level the stored scores are within tau of the exact log values, the exact value of the chosen split exceeds that of stopping less 2 tau, and no admissible split is better by more than 2 tau; without pruning every leaf has one row, equal targets or no split better than stopping by more than 2 tau. If every decision of the exact tree has a margin above 2 tau, the float64 tree is its copy: same features, names, levels and sample counts, thresholds computed from the same pairs of values, and every training row goes to the same child. Here tau = el + 4*eb + 2^-48*B, where el, eb are the errors of the logarithms of the partition prior and of multivariate_betaln and B bounds their size; el, eb and B are derived from error bounds of log, ** and betaln or gammaln alone.", "quantifier": "all training sets with finite separable features and labels 0..k-1, positive priors (integer priors for the derived bounds), depths, summation orders, log, power, gammaln and betaln functions with the given accuracy; prior_delta = 0, split_precision = 0; float64 with round to nearest even", "why_tests_cant": "Rounding can change any comparison of any node; a test compares a few trees and cannot bound the error of the scores of all candidate splits.", "anchors": [{"file": "bayesian_decision_tree/classification.py", "symbols": ["_compute_log_p_data_no_split", "_compute_log_p_data_split", "_compute_posterior", "_compute_log_p_data"]}, {"file": "bayesian_decision_tree/utils.py", "symbols": ["multivariate_betaln"]}, {"file": "bayesian_decision_tree/base_perpendicular.py", "symbols": ["_fit"]}]}
{"id": "C84", "title": "Float64 features against exact features", "statement": "With split precision 0 a fit on float64 features makes the decisions of a fit on the exact values of the same features: same features, names, scores and node data, whatever the targets and the evidence; each threshold is the computed instead of the exact midpoint of the same two values. If distinct values have a computed midpoint between them, every training row reaches the same leaf, and classification trees predict the same classes and probabilities for the training rows. This fails for other rows: a query equal to the computed threshold can be below the exact one.", "quantifier": "all float64 matrices with finite entries, evidences, targets, sorts, pruning; float64 with round to nearest even", "why_tests_cant": "Subnormal differences, overflowing differences and ties of rounding are hit by few inputs; the counterexample needs two values five units in the last place apart.", "anchors": [{"file": "bayesian_decision_tree/base_perpendicular.py", "symbols": ["_fit", "_compute_child1_and_child2_indices"]}, {"file": "bayesian_decision_tree/base.py", "symbols": ["_predict", "predict"]}]}
{"id": "C85", "title": "Accuracy of regression posteriors and predictions in float64", "statement": "In a regression tree fitted entirely in float64, whatever the logarithm, gamma function and power return and in whatever order numpy adds, the posterior of every node is close to the exact normal-gamma posterior of the training rows routed to it: mu within 25*n^2*2^-53*M, kappa and alpha within a relative 2^-53, beta within 52*n^2*2^-53*(beta0 + (1+2*kappa0)*M^2), all finite, where M bounds the targets and the prior mean. So every query without NaN is answered with a finite number within 25*n^2*2^-53*M of the exact posterior mean of the training rows of one leaf, its own leaf if it is a training row. The computed default prior is the exact one.", "quantifier": "all training sets with up to 2^20 rows, finite separable features, finite targets of size at most M <= 2^300, priors with parameters between 2^-300 and 2^300 (alpha at most 2^30), summation orders, log, gammaln and power functions, prune flags, queries; prior_delta = 0; float64 with round to nearest even", "why_tests_cant": "The error of a sum of n terms, a division and two subtractions in every node of every tree; a test sees a few data sets and cannot bound the worst case.", "anchors": [{"file": "bayesian_decision_tree/regression.py", "symbols": ["_compute_posterior", "_compute_posterior_internal", "_get_prior", "_compute_posterior_mean", "_predict_leaf"]}, {"file": "bayesian_decision_tree/base.py", "symbols": ["predict", "_predict"]}]}
{"id": "C86", "title": "Accuracy of regression trees fitted in float64", "statement": "A regression tree fitted entirely in float64 is optimal up to the accumulated error tau: at every split down to the given level the stored scores are within tau of the exact log values, the exact value of the chosen split exceeds that of stopping less 2 tau, and no admissible split is better by more than 2 tau; without pruning every leaf has one row, equal targets or no split better than stopping by more than 2 tau. If every decision of the exact tree has a margin above 2 tau, the float64 tree is its copy, and its predictions of the training rows are within 25*n^2*2^-53*M of those of the exact tree. Here A = alpha0 + n/2 + 1, rb = 52*n^2*2^-53*(1 + (1+2*kappa0)*M^2/beta0) <= 1/2 and tau = el + 4*eg + 8*A*eps + 4*A*rb + 2^-44*(G + 1000*A) with el, eps, eg the errors of the logarithms of the partition prior, of log and of gammaln, and G a bound of gammaln.", "quantifier": "all training sets with up to 2^20 rows, finite separable features, targets of size at most M with rb <= 1/2, priors, depths, summation orders, log, gammaln and power functions with the given accuracy; prior_delta = 0, split_precision = 0; float64 with round to nearest even", "why_tests_cant": "Rounding can change any comparison of any node; the score subtracts sums of squares, so its error depends on the data in a way no set of examples covers.", "anchors": [{"file": "bayesian_decision_tree/regression.py", "symbols": ["_compute_log_p_data_no_split", "_compute_log_p_data_split", "_compute_log_p_data", "_compute_posterior_internal"]}, {"file": "bayesian_decision_tree/base_perpendicular.py", "symbols": ["_fit"]}, {"file": "bayesian_decision_tree/base.py", "symbols": ["predict"]}]}
{"id": "C87", "title": "Accuracy of the feature importance in float64", "statement": "For every perpendicular tree fitted with at least one split and finite recorded scores, feature_importance computed in float64 returns one finite number in [0,1] per feature, exactly 0 for features the tree does not use, within a relative 10*(splits+features+1)*2^-53 (plus 2^-1075) of the feature's exact share of the recorded gains; the numbers sum to 1 up to the same error. Where the decisions of the exact tree are clear (C83, C86), they are within 10*(splits+features+1)*2^-53 + 2^-1075 + 8*tau*splits/total gain of the importances of the exact tree. Without a split every entry is NaN (0/0).", "quantifier": "all fitted trees of both kinds, prune flags, priors, features, summation orders of np.sum, log, gammaln, betaln and power functions; rows + features <= 2^20, recorded scores of size at most 2^900; float64 with round to nearest even", "why_tests_cant": "Additions in tree order, a sum in numpy's order and a division round at every step; tests compare a few importances with a tolerance and cannot bound the error for all trees.", "anchors": [{"file": "bayesian_decision_tree/base.py", "symbols": ["feature_importance"]}, {"file": "bayesian_decision_tree/base_perpendicular.py", "symbols": ["_update_feature_importance"]}]}
{"id": "C88", "title": "Pruning of trees fitted in float64", "statement": "After pruning in float64, two sibling leaves of a regression tree never hold the same finite number and two sibling leaves of a classification tree never answer the same class; a tree whose sibling leaves already hold different finite numbers (different classes) is returned unchanged. With a symmetric prior pruning does not change the predicted class of any query without NaN, although the posterior counts are rounded.", "quantifier": "all float64 training sets, priors, features, prune histories, summation orders, log, gammaln, betaln and power functions; for the symmetric prior: entries up to 2^50, up to 2^50 rows and 2^20 classes, split_precision >= 0", "why_tests_cant": "Pruning compares floats for equality; tests check that some trees get smaller, not that every merge is right and none is missed.", "anchors": [{"file": "bayesian_decision_tree/base.py", "symbols": ["_prune"]}, {"file": "bayesian_decision_tree/classification.py", "symbols": ["_predict_leaf"]}, {"file": "bayesian_decision_tree/regression.py", "symbols": ["_predict_leaf"]}]}
{"id": "C89", "title": "Hyperplane trees fitted in float64", "statement": "A hyperplane fit in float64 returns a tree for any floats. If the entries of the rows are at most 2^900 in absolute value and there are at most 2^20 columns, then for any candidate normals (NaN, infinities and zeros included) no training row is lost at a split, the data counts, levels, depth and leaf count of the tree are right, every split plane has a finite normal with entries of at most 2 and a finite origin, and every bounded query gets the answer of the posterior of the training rows of exactly one leaf, a training row that of its own leaf. A row that is on one side of a plane in exact arithmetic by more than an explicit rounding bound is sent to that side. If all rows have entries of at most 2^-539 and the candidates are differences of two different rows, as RandomTwoPointOptimizer proposes, the fitted tree is a single leaf: the norm of every candidate underflows to 0.", "quantifier": "all float64 rows and targets, priors, candidate normals, split_precision, dot products summed in any order and grouping with or without fused multiply-add, argsort, log, gammaln, betaln and power functions", "why_tests_cant": "Rows are lost only if an overflow or a NaN makes both comparisons false; tests use moderate numbers and one BLAS.", "anchors": [{"file": "bayesian_decision_tree/base_hyperplane.py", "symbols": ["_fit", "_compute_child1_and_child2_indices"]}, {"file": "bayesian_decision_tree/hyperplane_optimization.py", "symbols": ["compute", "solve"]}]}
{"id": "C90", "title": "Candidate normals and chosen planes in float64", "statement": "The normal that a hyperplane fit uses for a candidate has entries within 8*m*2^-53 (m columns) of the exact unit vector, where NaN entries count as 0 and the zero vector as the first axis. At every split of a fitted tree the stored leaf score is the one computed from the rows of the node, the plane is the midpoint plane of some candidate at an admissible position with the stored score, this score is not below the leaf score, no candidate offers a higher score, and no candidate with an equal score has a larger sum of distances to its plane; a candidate without NaN scores has no score above the stored one. Every leaf of an unpruned tree has at most one row, or one target value, or no candidate that offers more than the leaf score (or as much at a positive sum of distances), or all its rows on one side of the best plane.", "quantifier": "all float64 training sets, targets, priors, candidates (NaN and infinities included), split_precision, argsort, sums, dot products, log, gammaln, betaln and power functions; normals: entries NaN or up to 2^400 with one of at least 2^-400, up to 2^20 columns, dot products in any order and with or without fused multiply-add", "why_tests_cant": "The choice among thousands of candidates with equal or NaN scores is never compared with an exhaustive search; the normalisation is tested on ordinary vectors.", "anchors": [{"file": "bayesian_decision_tree/hyperplane_optimization.py", "symbols": ["compute"]}, {"file": "bayesian_decision_tree/base_hyperplane.py", "symbols": ["_fit"]}]}
{"id": "C91", "title": "Progress output of fit", "statement": "fit with verbose=True returns the same tree, or raises the same exception, as without; without verbose nothing is printed. With it one line is printed for the root and for every other node that holds rows with different targets, each before the lines of its children and the left (back) child first, and the line names the level, the side and the number of training rows routed to the node. Other nodes are not announced. The output does not depend on prune: every trained node left after pruning was announced, in the same order. Two lines are equal only if level, side and number of rows are.", "quantifier": "all training sets, priors, hyperparameters, argsort functions and candidate normals; both values of verbose, any arithmetic for the equality of results and the list of trained nodes, exact arithmetic for the description by rows", "why_tests_cant": "Tests do not capture the output, and never compare a verbose fit with a silent one on every input.", "anchors": [{"file": "bayesian_decision_tree/base.py", "symbols": ["fit"]}, {"file": "bayesian_decision_tree/base_perpendicular.py", "symbols": ["_fit"]}, {"file": "bayesian_decision_tree/base_hyperplane.py", "symbols": ["_fit"]}]}
{"id": "C92", "title": "Candidate normals that overflow in float64", "statement": "If a candidate normal has an entry of absolute value 2^512 or more, or an infinite one, its norm overflows and no entry of the computed normal is a finite number other than 0. If all candidates are such vectors and the training rows are finite, the fitted tree is a single leaf that holds all rows. This is the case for differences of two rows as candidates when different rows are at least 2^512 apart in some column, however well a plane would separate the targets. So the tree is not invariant under multiplication of all rows with a power of two.", "quantifier": "all candidate vectors, training sets of finite float64 rows, priors, hyperparameters, argsort functions and ways of adding up a dot product (order, grouping, fused multiply-add)", "why_tests_cant": "Tests use data of moderate size; the overflow of the norm is silent and the result is a valid tree.", "anchors": [{"file": "bayesian_decision_tree/hyperplane_optimization.py", "symbols": ["compute", "solve"]}, {"file": "bayesian_decision_tree/base_hyperplane.py", "symbols": ["_fit"]}]}
