{
 "claims": [
  {
   "property": "C01",
   "status": "proved",
   "theorems": [
    "C01_fit_total",
    "C01_fit_depth",
    "C01_scan_reads"
   ],
   "note": "For every arithmetic and every likelihood; recursion depth at most max(1, n-1) nested _fit calls; array reads in range. Interpreter stack limits (RecursionError above ~1000 levels) are outside the model."
  },
  {
   "property": "C02",
   "status": "proved",
   "theorems": [
    "C02_clf_routing",
    "C02_reg_routing",
    "C02_clf_nodes",
    "C02_reg_nodes"
   ],
   "note": "Exact real arithmetic, split_precision >= 0; any delta (node_data), and the plain form for delta = 0."
  },
  {
   "property": "C03",
   "status": "proved",
   "theorems": [
    "C03_proba_frequency",
    "C03_hyper_frequency"
   ],
   "note": ""
  },
  {
   "property": "C04",
   "status": "proved",
   "theorems": [
    "C04_proba_distribution",
    "C04_hyper_distribution"
   ],
   "note": ""
  },
  {
   "property": "C05",
   "status": "proved",
   "theorems": [
    "C05_predict_first_max",
    "C05_hyper_first_max"
   ],
   "note": ""
  },
  {
   "property": "C06",
   "status": "proved",
   "theorems": [
    "C06_reg_mean",
    "C06_hyper_mean"
   ],
   "note": ""
  },
  {
   "property": "C07",
   "status": "proved",
   "theorems": [
    "C07_conjugate"
   ],
   "note": ""
  },
  {
   "property": "C08",
   "status": "proved",
   "theorems": [
    "C08_reg_hull",
    "C08_hyper_hull"
   ],
   "note": "Also for hyperplane trees."
  },
  {
   "property": "C09",
   "status": "proved",
   "theorems": [
    "C09_clf_best_split",
    "C09_reg_best_split"
   ],
   "note": ""
  },
  {
   "property": "C10",
   "status": "proved",
   "theorems": [
    "C10_clf_leaves",
    "C10_reg_leaves"
   ],
   "note": ""
  },
  {
   "property": "C11",
   "status": "proved",
   "theorems": [
    "C11_structure",
    "C11_hyper_structure",
    "C11_hyper_structure_reg"
   ],
   "note": ""
  },
  {
   "property": "C12",
   "status": "proved",
   "theorems": [
    "C12_clf_importance",
    "C12_reg_importance"
   ],
   "note": "Exact real arithmetic, perpendicular trees, pruned or not, any delta >= 0."
  },
  {
   "property": "C13",
   "status": "proved",
   "theorems": [
    "C13_importance_nan_refuted",
    "C13_hyper_importance_nan_refuted"
   ],
   "note": "REFUTED (the property is false of the code; the theorem proves its negation with a concrete witness): a fitted tree without any split (constant feature) gets 0/0, i.e. nan, as its only importance. A fitted hyperplane tree with a split of zero gain likewise gets nan."
  },
  {
   "property": "C14",
   "status": "proved",
   "theorems": [
    "C14_prune",
    "C14_fit_pruned",
    "C14_hyper_fit_pruned"
   ],
   "note": "Also for hyperplane fits."
  },
  {
   "property": "C15",
   "status": "proved",
   "theorems": [
    "C15_prune_symmetric",
    "C15_hyper_prune_symmetric"
   ],
   "note": "Also for hyperplane trees, for every delta (which they ignore)."
  },
  {
   "property": "C16",
   "status": "proved",
   "theorems": [
    "C16_prune_changes_refuted",
    "C16_hyper_prune_changes_refuted"
   ],
   "note": "REFUTED (the property is false of the code; the theorem proves its negation with a concrete witness): asymmetric prior, a fitted tree whose pruned version predicts another class. Also refuted for hyperplane trees."
  },
  {
   "property": "C17",
   "status": "proved",
   "theorems": [
    "C17_reg_prune_changes_refuted"
   ],
   "note": "REFUTED (the property is false of the code; the theorem proves its negation with a concrete witness): constant target 3, prior (0,1,1,1): unpruned predicts 2, pruned 12/5."
  },
  {
   "property": "C18",
   "status": "proved",
   "theorems": [
    "C18_additive",
    "C18_hyper_additive"
   ],
   "note": "Also for hyperplane trees, for every delta."
  },
  {
   "property": "C19",
   "status": "proved",
   "theorems": [
    "C19_C20_clf_reorder",
    "C19_C20_reg_reorder"
   ],
   "note": "take sigma = identity"
  },
  {
   "property": "C20",
   "status": "proved",
   "theorems": [
    "C19_C20_clf_reorder",
    "C19_C20_reg_reorder"
   ],
   "note": ""
  },
  {
   "property": "C21",
   "status": "proved",
   "theorems": [
    "C21_clf_scale",
    "C21_reg_scale"
   ],
   "note": ""
  },
  {
   "property": "C22",
   "status": "proved",
   "theorems": [
    "C22_rowwise",
    "C22_rowwise_reg",
    "C22_hyper_rowwise",
    "C22_hyper_rowwise_reg"
   ],
   "note": ""
  },
  {
   "property": "C23",
   "status": "proved",
   "theorems": [
    "C23_paths_refuted"
   ],
   "note": "REFUTED (the property is false of the code; the theorem proves its negation with a concrete witness): on a five-class line data set with three levels of splits the path reported for the last training row has the wrong side flag at its third split: child index arrays are local positions of the parent's subset but are used as row numbers."
  },
  {
   "property": "C24",
   "status": "proved",
   "theorems": [
    "C24_paths",
    "C24_first_two"
   ],
   "note": "Exact path for one-row queries on every tree and for every batch on trees of height at most 2; first two steps right on every tree and batch."
  },
  {
   "property": "C25",
   "status": "proved",
   "theorems": [
    "C25_nan_query_refuted",
    "C25_nan_falls_through",
    "C25_non_nan"
   ],
   "note": "REFUTED (the property is false of the code; the theorem proves its negation with a concrete witness): a NaN query falls through both comparisons; predict returns 0 and predict_proba None. C25_nan_falls_through shows this for every tree and NaN at the root split; C25_non_nan proves the property for finite training and NaN-free query matrices."
  },
  {
   "property": "C26",
   "status": "proved",
   "theorems": [
    "C26_uint8_refuted",
    "C26_overflow_misroutes",
    "C26_routing"
   ],
   "note": "REFUTED (the property is false of the code; the theorem proves its negation with a concrete witness): uint8 rows 100 and 200 get split value 22. C26_overflow_misroutes shows every wrapped sum misroutes a row; C26_routing proves the property when no sum wraps. 64-bit values at or above 2^52 (rounded by float64) are not modelled."
  },
  {
   "property": "C27",
   "status": "proved",
   "theorems": [
    "C27_neighbours_refuted",
    "C27_overflow_refuted",
    "C27_mid_between",
    "C27_routing",
    "C27_precision"
   ],
   "note": "REFUTED (the property is false of the code; the theorem proves its negation with a concrete witness): neighbouring values, and values whose sum overflows, are misrouted. C27_routing proves the property for separated values without overflow and C27_precision gives a split_precision that ensures it."
  },
  {
   "property": "C28",
   "status": "proved",
   "theorems": [
    "C28_toarray",
    "C28_to_array",
    "C28_fit",
    "C28_predict",
    "C28_paths",
    "C28_clf",
    "C28_reg",
    "C28_hyper_fit",
    "C28_hyper_predict"
   ],
   "note": "Every valid CSR/CSC representation (explicit zeros, unsorted indices, duplicates). SciPy's toarray, csc_matrix, slicing and fancy indexing are modelled by what they do to the stored entries. Perpendicular trees: arbitrary arithmetic; scalar indexing must add duplicates like toarray does (adds_up; true in exact arithmetic, and for float64 with fewer than eight duplicates of a position). Hyperplane trees: exact reals (order of additions in X @ normal differs between sparse and dense float64)."
  },
  {
   "property": "C29",
   "status": "proved",
   "theorems": [
    "C29_unfitted",
    "C29_unfitted_hyper",
    "C29_columns",
    "C29_columns_hyper",
    "C29_zero_dim"
   ],
   "note": "Queries are functions without state changes in the model (the code assigns no attribute in them), so \"never modify the model\" holds by construction."
  },
  {
   "property": "C30",
   "status": "proved",
   "theorems": [
    "C30_refit",
    "C30_refit_hyper",
    "C30_rejected",
    "C30_rejected_hyper"
   ],
   "note": "Histories include failed and interrupted fits."
  },
  {
   "property": "C31",
   "status": "proved",
   "theorems": [
    "C31_labels",
    "C31_labels_hyper",
    "C31_empty_prior"
   ],
   "note": "For hyperplane trees: a right label set passes validation (termination of the optimizer is separate). With an empty prior the check accepts every constant target."
  },
  {
   "property": "C32",
   "status": "proved",
   "theorems": [
    "C32_one_row_refuted",
    "C32_one_row_hyper_refuted"
   ],
   "note": "REFUTED (the property is false of the code; the theorem proves its negation): every fit on a one-row target raises ValueError, for all four classes, because squeeze() makes the target zero-dimensional."
  },
  {
   "property": "C33",
   "status": "proved",
   "theorems": [
    "C33_no_prior_refuted",
    "C33_no_prior_hyper_refuted",
    "C33_regression"
   ],
   "note": "REFUTED (the property is false of the code; the theorem proves its negation): a classification tree with prior=None can never be fitted (len(None) is a TypeError); regression trees can."
  },
  {
   "property": "C34",
   "status": "proved",
   "theorems": [
    "C34_best_kept",
    "C34_best_kept_reg"
   ],
   "note": "For every adaptive candidate sequence; if no hyperplane is stored no evaluated candidate beats not splitting (a tie at distance zero is not stored)."
  },
  {
   "property": "C35",
   "status": "proved",
   "theorems": [
    "C35_nodes",
    "C35_nodes_reg"
   ],
   "note": ""
  },
  {
   "property": "C36",
   "status": "proved",
   "theorems": [
    "C36_row_order_refuted",
    "C36_row_order_distinct",
    "C36_row_order_distinct_reg"
   ],
   "note": "REFUTED (the property is false of the code; the theorem proves its negation with a concrete witness): exchanging two training rows changes a prediction, because the code looks for different projections in storage order. Proved under the extra hypothesis that all projections differ."
  },
  {
   "property": "C37",
   "status": "proved",
   "theorems": [
    "C37_evidence_refuted",
    "C37_evidence_distinct",
    "C37_evidence_distinct_reg"
   ],
   "note": "REFUTED (the property is false of the code; the theorem proves its negation with a concrete witness): with equal projections the recorded evidence is that of a cut of the sorted rows which the hyperplane does not realise. Proved under the extra hypothesis that all projections differ."
  },
  {
   "property": "C38",
   "status": "proved",
   "theorems": [
    "C38_delta_refuted",
    "C38_delta_reg_refuted"
   ],
   "note": "REFUTED (the property is false of the code): the theorems prove that for all inputs the fitted hyperplane tree is the same for every delta."
  },
  {
   "property": "C39",
   "status": "proved",
   "theorems": [
    "C39_unit_length",
    "C39_onto",
    "C39_orientations",
    "C39_outside_rejected"
   ],
   "note": "Exact real arithmetic. That the mapping is uniform on the sphere is not claimed."
  },
  {
   "property": "C40",
   "status": "proved",
   "theorems": [
    "C40_annealing_inside",
    "C40_quasi_inside"
   ],
   "note": "For any objective, also one that raises, and after any number of rounds. The constant phi of the sequence is arbitrary."
  },
  {
   "property": "C41",
   "status": "proved",
   "theorems": [
    "C41_two_classes",
    "C41_never_ends",
    "C41_negative",
    "C41_not_integer",
    "C41_one_class",
    "C41_ends"
   ],
   "note": "Not ending: every amount of fuel runs out. Fair streams are a hypothesis of C41_ends; no probability statement is made."
  },
  {
   "property": "C42",
   "status": "proved",
   "theorems": [
    "C42_annealing_ends"
   ],
   "note": "The bound does not depend on the stream, the spread factor or the numbers of candidates. Exact real arithmetic: the overflow of the spread factor is not modelled."
  },
  {
   "property": "C43",
   "status": "proved",
   "theorems": [
    "C43_clf_weights",
    "C43_reg_weights"
   ],
   "note": "Weights are read off the scores the code computes (score minus the log-evidences); exact real arithmetic."
  },
  {
   "property": "C44",
   "status": "proved",
   "theorems": [
    "C44_clf_evidence",
    "C44_reg_evidence",
    "C44_gammaln"
   ],
   "note": "scipy.special.gammaln is modelled by the mathematical function; its Bohr-Mollerup characterisation is proved."
  },
  {
   "property": "C45",
   "status": "proved",
   "theorems": [
    "C45_clf_split",
    "C45_reg_split"
   ],
   "note": ""
  },
  {
   "property": "C46",
   "status": "proved",
   "theorems": [
    "C46_first_fit",
    "C46_first_grow",
    "C46_first_fit_hyper",
    "C46_first_grow_hyper",
    "C46_prune_interrupt_refuted",
    "C46_short_names",
    "C46_refit_raises_refuted",
    "C46_hyper_refit",
    "C46_hyper_refit_refuted"
   ],
   "note": "REFUTED (the property is false of the code; the theorem proves its negation with a concrete witness): an interrupt during pruning leaves a model that says it is fitted but cannot predict; a refit that fails for a missing feature name silently changes the old model; a refit of a hyperplane tree destroys the old model. The part that is true (first fit, before pruning) is proved for all crash points."
  },
  {
   "property": "C47",
   "status": "proved",
   "theorems": [
    "C47_raw_leaf_refuted",
    "C47_raw_leaf_exact",
    "C47_raw_leaf_delta0"
   ],
   "note": "REFUTED (the property is false of the code; the theorem proves its negation with a concrete witness): for delta > 0 a leaf below the root with a single target value shows (1 - delta) times its counts. C47_raw_leaf_exact gives the exact difference for every leaf, tree and delta; for delta = 0 the property holds. Hyperplane trees ignore delta (C35, C38)."
  },
  {
   "property": "C48",
   "status": "proved",
   "theorems": [
    "C48_unfitted",
    "C48_dfs",
    "C48_one_line_per_node"
   ],
   "note": "Perpendicular and hyperplane trees; Python/NumPy number formatting is an arbitrary function. One line per node needs newline-free pieces: NumPy wraps long probability arrays (C48_wrapped shows the effect)."
  },
  {
   "property": "C49",
   "status": "proved",
   "theorems": [
    "C49_store_index"
   ],
   "note": ""
  },
  {
   "property": "C50",
   "status": "proved",
   "theorems": [
    "C50_relabel",
    "C50_hyper_relabel",
    "C50_hyper_relabel_optim"
   ],
   "note": "Also for hyperplane trees, with candidates that do not depend on the target and with every built-in optimizer but the two-point one (which reads the target)."
  },
  {
   "property": "C51",
   "status": "proved",
   "theorems": [
    "C51_target_scale",
    "C51_hyper_target_scale",
    "C51_hyper_target_scale_optim"
   ],
   "note": "Also for hyperplane trees, with candidates that do not depend on the target and with every built-in optimizer but the two-point one."
  },
  {
   "property": "C52",
   "status": "proved",
   "theorems": [
    "C52_int8_refuted",
    "C52_no_wrap"
   ],
   "note": "REFUTED (the property is false of the code; the theorem proves its negation with a concrete witness): int8 targets 12, 12 give a negative beta. C52_no_wrap proves equality of the whole fitted trees when squares fit."
  },
  {
   "property": "C53",
   "status": "proved",
   "theorems": [
    "C53_relabel_prune_refuted",
    "C53_hyper_relabel_prune_refuted"
   ],
   "note": "REFUTED (the property is false of the code; the theorem proves its negation with a concrete witness): np.argmax resolves ties to the lowest class, so pruning depends on class numbering. Also refuted for hyperplane trees."
  },
  {
   "property": "C54",
   "status": "proved",
   "theorems": [
    "C54_optimal",
    "C54_optimal_reg",
    "C54_unit_normals",
    "C54_unit_normals_reg",
    "C54_importance",
    "C54_importance_reg"
   ],
   "note": ""
  },
  {
   "property": "C55",
   "status": "proved",
   "theorems": [
    "C55_total",
    "C55_total_reg"
   ],
   "note": "Optimizers are assumed to return; see C40-C42 for the optimizers themselves."
  },
  {
   "property": "C56",
   "status": "proved",
   "theorems": [
    "C56_clf",
    "C56_clf_complete",
    "C56_reg",
    "C56_reg_complete",
    "C56_hclf",
    "C56_hreg"
   ],
   "note": "The tree-level functions are those of the other properties."
  },
  {
   "property": "C57",
   "status": "proved",
   "theorems": [
    "C57_one_feature_refuted"
   ],
   "note": "REFUTED (the property is false of the code; the theorem proves its negation): every fit on one feature raises a ValueError."
  },
  {
   "property": "C58",
   "status": "proved",
   "theorems": [
    "C58_descent_inside",
    "C58_descent_ends"
   ],
   "note": "Exact real arithmetic (the steps are exact powers of ten)."
  },
  {
   "property": "C59",
   "status": "proved",
   "theorems": [
    "C59_integer_matrix_refuted"
   ],
   "note": "REFUTED (the property is false of the code; the theorem proves its negation): the in-place division of an integer array (modelled as an objective that raises a TypeError) makes every run fail or not end."
  },
  {
   "property": "C60",
   "status": "proved",
   "theorems": [
    "C60_fit_ends",
    "C60_fit_ends_reg",
    "C60_fit_is_fit",
    "C60_fit_is_fit_reg"
   ],
   "note": "ScipyOptimizer and OptunaOptimizer run code of other packages and are covered by the arbitrary candidates of C34-C38, C54 and C55 only."
  },
  {
   "property": "C61",
   "status": "proved",
   "theorems": [
    "C61_clf_coarser",
    "C61_reg_coarser",
    "C61_hyper_coarser",
    "C61_hyper_coarser_reg",
    "C61_size"
   ],
   "note": "Exact reals. For hyperplane trees the candidates evaluated at a node are the same in both fits (an optimizer whose draws depend on the earlier nodes may choose others)."
  },
  {
   "property": "C62",
   "status": "proved",
   "theorems": [
    "C62_accuracy",
    "C62_hyper_accuracy",
    "C62_accuracy_monotone",
    "C62_asymmetric_refuted"
   ],
   "note": "Exact reals. The last theorem shows that the symmetry hypothesis is needed."
  },
  {
   "property": "C63",
   "status": "proved",
   "theorems": [
    "C63_error",
    "C63_hyper_error"
   ],
   "note": "Exact reals, delta = 0 (hyperplane trees ignore delta, C38)."
  },
  {
   "property": "C64",
   "status": "proved",
   "theorems": [
    "C64_clf_total",
    "C64_reg_total",
    "C64_hyper_clf_total",
    "C64_hyper_reg_total"
   ],
   "note": "Exact reals, delta = 0. For hyperplane trees the recorded evidence is not that of the partition (C37), so the identity is stated for perpendicular trees only. Also for hyperplane trees whose candidate normals separate the rows (otherwise the recorded evidence is not that of the partition, C37)."
  },
  {
   "property": "C65",
   "status": "proved",
   "theorems": [
    "C65_clf_increasing",
    "C65_reg_increasing",
    "C65_queries_refuted"
   ],
   "note": "Exact reals. The last theorem shows that the restriction to training rows is needed."
  },
  {
   "property": "C66",
   "status": "proved",
   "theorems": [
    "C66_clf_columns",
    "C66_reg_columns",
    "C66_ties_refuted"
   ],
   "note": "REFUTED (the property is false of the code; two equally good columns are resolved in favour of the first) by C66_ties_refuted. Proved when at no node a cut of another feature reaches the chosen evidence (sufficient, not necessary). Exact reals."
  },
  {
   "property": "C67",
   "status": "proved",
   "theorems": [
    "C67_one_bad_target",
    "C67_one_bad_target_hyper",
    "C67_finite_answers_refuted",
    "C67_accepted",
    "C67_clf_refused",
    "C67_numbers",
    "C67_numbers_hyper"
   ],
   "note": "REFUTED (the property is false of the code; one nan or inf target is accepted and makes the fit a single leaf that answers no query with a number). The first two theorems show this for every training set with such a target; the classification check refuses nan; the last two theorems show that the extended model is the model of Reg.v and Hyper.v when all targets are numbers. Finite arithmetic is exact, special values follow IEEE 754; overflow to inf is not modelled."
  },
  {
   "property": "C68",
   "status": "proved",
   "theorems": [
    "C68_loop_ends",
    "C68_solution",
    "C68_monotone_ends",
    "C68_any_power_refuted",
    "C68_exact_never_ends",
    "C68_no_dimension"
   ],
   "note": "Proved for float64 with a correctly rounded pow: the loop ends in every dimension within 2^-50 of the solution. Any pow that does not decrease on floats between 2 and 3 suffices for termination. Two limits are proved as well: with a pow that errs by less than one unit in the last place the loop can run forever, and with exact numbers it never ends. Whether the pow of the platform does not decrease is not modelled."
  },
  {
   "property": "C69",
   "status": "proved",
   "theorems": [
    "C69_nan_row_refuted",
    "C69_neg_inf_refuted",
    "C69_both_inf_refuted",
    "C69_neg_inf_right",
    "C69_trained_right",
    "C69_answers"
   ],
   "note": "REFUTED (the property is false of the code; the first three theorems are training sets on which it fails). The last two describe what the code does for every matrix without -inf: nan is trained to the right of every split on its column and answered by the value the output array was filled with. Likelihoods are exact; the sort puts nan last, as NumPy's does. C69_trained_right asks that two finite values which may be separated have a sum that does not overflow and are not neighbours (C27)."
  },
  {
   "property": "C70",
   "status": "proved",
   "theorems": [
    "C70_fit_reads",
    "C70_fit_reads_hyper",
    "C70_lossy",
    "C70_lossy_hyper",
    "C70_dtype_refuted"
   ],
   "note": "The first half is proved; the second half is REFUTED (false of the code: a matrix with nan is accepted as float64 and rejected with a dtype that is converted, because nan is not equal to itself). Conversions and the comparison with the given element are arbitrary functions. Sparse matrices of other dtypes are not modelled."
  },
  {
   "property": "C71",
   "status": "proved",
   "theorems": [
    "C71_names",
    "C71_paths",
    "C71_shape",
    "C71_shape_hyper",
    "C71_rows",
    "C71_rows_hyper",
    "C71_query_shape",
    "C71_query_shape_hyper",
    "C71_frame",
    "C71_frame_hyper",
    "C71_row",
    "C71_row_hyper",
    "C71_column_order_refuted",
    "C71_names_count_refuted",
    "C71_target",
    "C71_target_hyper"
   ],
   "note": "Names and shapes are proved. Two clauses are REFUTED (false of the code): columns of a query frame are taken by position, so the same table with its columns in another order is classified differently; and the number of names is not checked, so for two columns one or three names are accepted and one name is an IndexError when the second column is split. Hyperplane trees do not store names."
  },
  {
   "property": "C72",
   "status": "proved",
   "theorems": [
    "C72_annealing",
    "C72_near",
    "C72_best",
    "C72_objective"
   ],
   "note": "Exact arithmetic; the generator is an arbitrary stream in [0, 1). C72_annealing assumes an objective that returns a number for every point of the unit cube and a run that returns; C72_objective shows both for the objective of a tree, for every data set and likelihood."
  },
  {
   "property": "C73",
   "status": "proved",
   "theorems": [
    "C73_quasi",
    "C73_quasi_distinct",
    "C73_random",
    "C73_two_point"
   ],
   "note": "Exact arithmetic. C73_quasi_distinct needs the exact root; the float64 value the program computes is rational (see C68)."
  },
  {
   "property": "C74",
   "status": "proved",
   "theorems": [
    "C74_reg_root",
    "C74_clf_root",
    "C74_reg",
    "C74_clf",
    "C74_hreg",
    "C74_hclf",
    "C74_reg_refuted",
    "C74_clf_refuted"
   ],
   "note": "REFUTED (false of the code) without the bound on the prior odds: C74_reg_refuted, C74_clf_refuted. Proved with the bound for the four tree types. Exact arithmetic."
  },
  {
   "property": "C75",
   "status": "proved",
   "theorems": [
    "C75_clf_redundant",
    "C75_reg_redundant",
    "C75_unchanged_refuted"
   ],
   "note": "REFUTED (false of the code) as 'a constant column leaves the model unchanged': C75_unchanged_refuted. Proved: the tree of the longer data is a coarsening. Exact arithmetic."
  },
  {
   "property": "C76",
   "status": "proved",
   "theorems": [
    "C76_clf",
    "C76_reg",
    "C76_hclf",
    "C76_hreg",
    "C76_zero_gain_refuted"
   ],
   "note": "REFUTED (false of the code) for hyperplane trees with a split of gain 0: C76_zero_gain_refuted. Proved for perpendicular trees and for hyperplane trees with positive gains. Exact arithmetic."
  },
  {
   "property": "C77",
   "status": "proved",
   "theorems": [
    "C77_clf_read",
    "C77_reg_read",
    "C77_hclf_read",
    "C77_hreg_read",
    "C77_clf_same_text",
    "C77_reg_same_text",
    "C77_hclf_same_text",
    "C77_hreg_same_text",
    "C77_repeated_names_refuted"
   ],
   "note": "REFUTED (false of the code) for repeated column names: C77_repeated_names_refuted. Number formatting (Python, NumPy) is an oracle; NumPy prints arrays with 8 digits, so for hyperplane trees the condition 'tells' is a real restriction. Exact arithmetic."
  },
  {
   "property": "C78",
   "status": "proved",
   "theorems": [
    "C78_hclf",
    "C78_hreg",
    "C78_hclf_predict",
    "C78_hreg_predict",
    "C78_hclf_opt",
    "C78_hreg_opt",
    "C78_hclf_opt_predict",
    "C78_hreg_opt_predict",
    "C78_fixed_precision_refuted"
   ],
   "note": "REFUTED (false of the code) for a fixed split_precision: C78_fixed_precision_refuted. The sort is any sort that sees its keys through comparisons only (by_comparison), shown for the stable sort of the model. Exact arithmetic."
  },
  {
   "property": "C79",
   "status": "proved",
   "theorems": [
    "C79_opposite",
    "C79_opposite_reg",
    "C79_half_sphere",
    "C79_half_sphere_reg",
    "C79_half_sphere_refuted"
   ],
   "note": "REFUTED (false of the code) for rows with equal projections: C79_half_sphere_refuted (the code selects candidate positions in storage order, so a cut may fall between equal projections on one side only). Exact arithmetic."
  },
  {
   "property": "C80",
   "status": "proved",
   "theorems": [
    "C80_order",
    "C80_shift",
    "C80_descent_scale_refuted"
   ],
   "note": "REFUTED (false of the code) for gradient descent and scalings: C80_descent_scale_refuted. Exact arithmetic; with floating point a transformation may merge values."
  },
  {
   "property": "C81",
   "status": "proved",
   "theorems": [
    "C81_beta_refuted",
    "C81_fit_refuted",
    "C81_positive",
    "C81_logs",
    "C81_default"
   ],
   "note": "REFUTED (false of the code) without the bound: C81_beta_refuted, C81_fit_refuted. The positive statements need prior_delta = 0 (the default). Float64 operations are IEEE round to nearest even; log, gammaln and ** are parameters."
  },
  {
   "property": "C82",
   "status": "proved",
   "theorems": [
    "C82_probabilities",
    "C82_routed",
    "C82_majority",
    "C82_argmax_refuted",
    "C82_default"
   ],
   "note": "REFUTED (false of the code): that predict is the argmax of predict_proba in float64 (C82_argmax_refuted). The others need prior_delta = 0 (the default)."
  },
  {
   "property": "C83",
   "status": "proved",
   "theorems": [
    "C83_near_best",
    "C83_same_tree",
    "C83_logs",
    "C83_betaln_two",
    "C83_betaln_many"
   ],
   "note": "Holds for prior_delta = 0 and split_precision = 0 (the defaults). The accuracy of log, **, betaln and gammaln are hypotheses; C83_library shows correctly rounded functions meet them. That an exact argsort agreeing with the float64 one on the columns exists is a hypothesis (it does for a stable sort; tied +0 and -0 are the only obstacle)."
  },
  {
   "property": "C84",
   "status": "proved",
   "theorems": [
    "C84_decisions",
    "C84_training_rows",
    "C84_training_classes",
    "C84_query_refuted"
   ],
   "note": "REFUTED (false of the code) for rows that are not in the training set: C84_query_refuted. The hypothesis `separable` is C27's; without it C27 has counterexamples."
  },
  {
   "property": "C85",
   "status": "proved",
   "theorems": [
    "C85_posteriors",
    "C85_predictions",
    "C85_default"
   ],
   "note": "Holds for prior_delta = 0 (the default); `separable` is C27's condition. The bounds are absolute: relative to beta they are useless for large means, where C81 shows a computed beta can be negative."
  },
  {
   "property": "C86",
   "status": "proved",
   "theorems": [
    "C86_near_best",
    "C86_same_tree",
    "C86_training"
   ],
   "note": "Holds for prior_delta = 0 and split_precision = 0 (the defaults). The accuracy of log, ** and gammaln at alpha0 + m/2 are hypotheses; C86_example shows correctly rounded functions meet them. C83_logs derives el from the accuracy of log and **. That an exact argsort agreeing with the float64 one exists is a hypothesis, as in C83."
  },
  {
   "property": "C87",
   "status": "proved",
   "theorems": [
    "C87_clf",
    "C87_reg",
    "C87_leaf_nan",
    "C87_exact_clf",
    "C87_exact_reg"
   ],
   "note": "That the recorded scores are finite is a hypothesis of C87_clf and C87_reg; in C87_exact_* it follows from the accuracy hypotheses and the size of the exact scores. The NaN of a tree without a split is the float64 form of C13."
  },
  {
   "property": "C88",
   "status": "proved",
   "theorems": [
    "C88_reg_apart",
    "C88_reg_kept",
    "C88_clf_apart",
    "C88_clf_kept",
    "C88_symmetric"
   ],
   "note": "The float64 form of C15 and C16. NaN or infinite leaf means are never merged (NaN) or compared as floats; C85 shows that they do not occur for bounded data."
  },
  {
   "property": "C89",
   "status": "proved",
   "theorems": [
    "C89_total",
    "C89_clf_structure",
    "C89_reg_structure",
    "C89_clf_queries",
    "C89_reg_queries",
    "C89_side",
    "C89_tiny"
   ],
   "note": "Dense data. An entry of X @ normal depends only on the row and the normal; np.dot, X @ normal and np.linalg.norm (the root of the dot product of the vector with itself) are assumed to add the rounded or fused products in some order. The underflow in C89_tiny is a weakness of the code (RandomTwoPointOptimizer on data of scale below 2^-539)."
  },
  {
   "property": "C90",
   "status": "proved",
   "theorems": [
    "C90_normal",
    "C90_clf_chosen",
    "C90_reg_chosen",
    "C90_clf_leaves",
    "C90_reg_leaves",
    "C90_clf_best",
    "C90_reg_best"
   ],
   "note": "The float64 form of C34 and C54. The admissible positions are those of the code, which compares neighbouring rows in their original order (see C36)."
  },
  {
   "property": "C91",
   "status": "proved",
   "theorems": [
    "C91_perp_same",
    "C91_hyper_same",
    "C91_perp_silent",
    "C91_hyper_silent",
    "C91_clf_lines",
    "C91_reg_lines",
    "C91_hclf_lines",
    "C91_hreg_lines",
    "C91_perp_trained",
    "C91_hyper_trained",
    "C91_perp_kept",
    "C91_hyper_kept",
    "C91_line"
   ],
   "note": "The fits are modelled a second time with their output. The description by rows is for exact arithmetic; in other arithmetics the trained nodes are those with an attribute n_dim_."
  },
  {
   "property": "C92",
   "status": "proved",
   "theorems": [
    "C92_normal",
    "C92_clf",
    "C92_reg",
    "C92_clf_rows",
    "C92_reg_rows",
    "C92_scale_refuted"
   ],
   "note": "Dot products may be computed in any order and with fused operations; np.linalg.norm is the rounded square root of such a dot product of the vector with itself. C92_scale_refuted is the witness that the tree depends on the unit of the data."
  }
 ]
}
