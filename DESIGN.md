# Formal model of UBS-IB/bayesian_tree in Rocq (Coq 8.16.1)

Status of each claim: `MANIFEST.json`. English properties: `properties.jsonl`.
Sources: `rocq/theories/`. Build: `cd rocq && coq_makefile -f _CoqProject -o Makefile && make -j4`.

## Approach

Shallow functional model, function by function.  Exceptions are values
(`res A = Ok a | Err exn`).  Recursion of `_fit`/`_prune` is on explicit fuel with a
distinguished `Err OutOfFuel`, which is proved unreachable.

The tree algorithms are *generic* in
* the feature arithmetic (`feat`: `<`, `>=`, midpoint, "gap > split_precision", argsort), and
* the target side (`lik`: no-split score, vectorised split scores, argmax, comparison, posterior,
  prior, "more than one distinct target").

Structural theorems are proved for *every* such record (so they cover float rounding, NaN scores,
unstable sorts ...).  Numerical theorems are proved for the instances:
* exact real arithmetic for classification and regression (log-evidence with a genuine
  `gammaln`, defined as Gauss' limit and proved to satisfy the recurrence),
* an executable rational instance for classification (Dirichlet-multinomial evidences are rational),
  proved to take the same decisions as the real one; used for witnesses by `vm_compute`,
* wrapping fixed-width integers and IEEE binary64 for the feature arithmetic.

## Plan per property

| id | modelled | proof |
|----|----------|-------|
| C01 | generic `pfit` | induction on fuel, both children smaller |
| C02 | `pfit` + `predict` | invariant "rows of node = rows routed to node", from the sorted index matrix |
| C03-C06 | Clf/Reg instances | corollaries of C02 and of the predict refinement C22 |
| C07, C08 | Reg posterior over R | field / convexity |
| C09, C10 | `pfit` scan loop | loop invariant "best so far = first maximum" + vectorised = direct (C45) |
| C11 | generic trees | induction |
| C12, C13 | feature importance over R | positivity of gains; refutation for no-split / zero-gain trees |
| C14-C17 | `prune` | fuel sufficiency, equality with bottom-up spec; refutations by fitted witnesses |
| C18 | Clf posterior | counts additive |
| C19-C21 | `pfit` | the node's tree only depends on the multiset of (row, target) |
| C22 | `predict` with index arrays | refinement to per-row routing |
| C23, C24 | `prediction_paths` with shared path lists | refutation by witness; refinement under the guards |
| C25 | NaN feature instance | refutation |
| C26 | wrapping integer instance | refutation, exact no-wrap condition |
| C27 | binary64 (Flocq) | refutation, exact condition, bounds on the midpoint |
| C28 | CSC model | accessor equality |
| C29, C30 | API object state machine | induction over histories |
| C31-C33 | input validation | direct; refutations |
| C34-C38 | hyperplane objective and fit over arbitrary candidate sequences | fold invariants; refutations |
| C39 | sphere map over R, all dimensions | induction; surjectivity by inverse construction |
| C40-C42 | optimizers over oracle streams | invariants, termination measure |
| C43 | prior weights | sums over scan |
| C44, C45 | evidence formulas | recurrence of gammaln, cumsum lemmas |
| C46 | attribute-write trace of `fit` | all prefixes of the trace |
| C47 | raw leaf data | refutation for delta>0; exact description for every delta |
| C48 | string rendering with abstract number formatting | induction |
| C49 | index cast | arithmetic |
| C50, C51 | equivariance | simulation between two runs |
| C52 | wrapping integer squares | refutation, exact condition |
| C53 | `prune` and relabelling | refutation by witness (ties in argmax) |
| C54, C55 | hyperplane fit over arbitrary candidates | fold invariant; induction on fuel |
| C56 | object model | simulation between attribute records and trees |
| C57, C59 | optimizers on one feature / integer matrices | refutation for all inputs |
| C58 | gradient descent over oracle streams | invariants, termination measure |
| C60 | hyperplane fit running an optimizer at every node | refinement to the fit over given candidates |
| C61 | both fits | lockstep of two fits (mutual induction on the optimal tree; invariant between two optimizer runs) |
| C62-C64 | fitted trees and their training rows | sums over rows = sums over leaves; telescoping of evidences |
| C65, C66 | perpendicular fit on changed features | transport of the optimal tree; lockstep when no feature ties |
| C67 | regression on targets with inf, -inf, nan | every split score is nan, so the root is a leaf; homomorphism from the exact model |
| C68 | the loop for `phi` (utils.py:24-35) in float64, with exact numbers and with any power function | a decreasing sequence of floats is finite; intermediate value theorem; an explicit two-cycle |
| C69 | perpendicular fits on float64 matrices with nan, inf and -inf | concrete fits; the other side of a split read as "not left", then the routing theorem |
| C70 | conversion of X and y to numbers (base.py:225-238), through fit and queries of all estimators | case analysis of the validation; a nan matrix as float64 and as object |
| C71 | feature names and argument shapes (base.py:57-66, 199-223; base_perpendicular.py:45-70, 145), through fit, queries and paths | induction on the recursion of `_fit` and on the pruned tree; a frame with swapped columns, name lists of wrong length |
| C72 | trace of a run of simulated annealing (hyperplane_optimization.py:295-341), on the model of C40/C42 | invariant of the dictionary: its keys are the `n_keep` smallest values found so far; ranks in sorted lists without repetitions |
| C73 | points of the quasi-random, random and two-point optimizers (hyperplane_optimization.py:158-251, utils.py:37-44) | loops that evaluate one point per round; the root of x^(d+1) = x + 1 is irrational |
| C74 | fits of constant targets on the models of C09 and C54 (base_perpendicular.py:76-189, base_hyperplane.py:22-121) | superadditivity of the log evidence of equal targets: `ln Gamma(u) - u ln u` is convex (Bohr-Mollerup limit), log-sum inequality; predictive probabilities grow with the count; three-row and five-row counterexamples |
| C75 | fits with appended columns on the models of C09 (base_perpendicular.py:76-189) | `RedundantSpec.padded`; the candidate list of the longer data has the same first optimum, with smaller evidence against not splitting; `coarser` of C61; executable rational shadow for the counterexample |
| C76 | importance and prediction on the models of C12, C34, C36 (base.py:76-145, base_perpendicular.py:205-213, base_hyperplane.py:134-156) | `InfluenceSpec.no_importance`; gains of kept splits are positive (perpendicular trees); a tie of exact evidences for the counterexample |
| C77 | `__str__` of the four classes, `StrTrees` (base_perpendicular.py:225-251, base_hyperplane.py:162-190); number formatting is an oracle | `ReadSpec.read_tree`, a parser of the documented layout; the indentation is a prefix-free code; the parser inverts the printer; two four-row fits with repeated names for the counterexample |
| C78 | hyperplane fits and predictions, given candidates and the built-in optimizers (hyperplane_optimization.py:33-88, 114-442; base_hyperplane.py:22-132) | `SimilarSpec`: isometry, moved rows, trees; simulation between the two runs of the objective and of `_fit`; a rotation of the nine-row example; a two-row counterexample for a fixed precision |
| C79 | the objective on normals and on hypercube points (hyperplane_optimization.py:33-88, utils.py:47-139) | the sorted rows of the opposite normal are reversed, so cut k becomes n-k; surjectivity of the half-sphere map (C39); a three-row counterexample |
| C80 | the built-in optimizers (hyperplane_optimization.py:145-251, 295-442) | `OptimShift`: relation `does` between two runs of the optimizer monad, one lemma per loop; an explicit seven-evaluation descent for the counterexample |
| C81 | regression in float64 operation by operation (`FloatReg`: regression.py:29-120) | integer sums below 2^53 are exact in any order; rounding bounds for the remaining operations; a generic lemma that two likelihoods agreeing on the occurring lists give the same tree (`FitPrior`) |
| C82 | classification in float64 (`FloatClf`: classification.py:56-112, utils.py:7-12) | relative error of a sum of nonnegative numbers in any order, error of the quotient, monotone rounding |
| C83 | float64 classification (`FloatClf`) over float64 features (`FloatFeat`) | generic relation between a fit with approximate scores and the exact specification (`Stable`); error of every score (`FloatClfErr`); errors of the library functions to errors of the logarithms and of `multivariate_betaln` (`FloatOracle`) |
| C84 | float64 features (`FloatFeat`) | a difference of float64 numbers is computed as zero only if it is zero; simulation of the two fits (`Sim`), midpoints separate the rows (`FloatSame`) |
| C85 | float64 regression (`FloatReg`) over float64 features (`FloatFeat`) | error calculus for sums, squares, quotients (`FloatRegErr`), error of every posterior parameter (`FloatRegScore`), posteriors of the nodes in terms of the routed rows (`FitPrior`), `FloatRegFit` |
| C86 | as C85 | error of every score (`FloatRegScore`), the relation of `Stable` for any likelihood (`StableGen`), `FloatRegFit`; example in `FloatRegEx` |
| C87 | float64 importance (`FloatImp`) of trees fitted in float64 | error of sums in any order (`FloatSum`), of a quotient (`FloatImpProofs`), gains of copied trees (`FloatImpFit`); examples in `FloatImpEx` |
| C88 | float64 fits with and without pruning | `fit_pruned` and `irreducible` of the generic model with float equality (`FloatPrune`); majority classes of C82; examples in `FloatPruneEx` |
| C89 | float64 hyperplane fits (`FloatHyper`): candidate normals, planes, sides, predictions | forward error bound of a dot product in any order with or without fused multiply-add (`FloatHyperDot.dot_err`); a non-finite factor makes the product non-finite, so a plane with rows on both sides is finite (`FloatHyperFit`); cases in `FloatHyperEx` |
| C90 | normalisation and choice of planes in float64 (`FloatHyper`) | error of the dot product, the root and the quotient (`FloatHyperUnit`); order of the floats by a real key, invariant of the optimizer state (`FloatHyperChoice`); cases in `FloatHyperChoiceEx` |
| C91 | both `_fit` methods with their `print` calls (`Verbose`) | output as a list of lines beside the result; induction over the recursion (`VerboseProofs`), rows from the optimality proof and reading of lines (`VerboseRows`); outputs in `VerboseEx` |
| C92 | `hyperplane_optimization.py` 40–44 in float64 (`FloatHyper`) | the sum of squares is at least each square, so it is not finite; a normal of zeros puts all finite rows on one side (`FloatHyperHuge`); a pair of rows and its multiple by 2^600 (`FloatHyperScale`) |

## How to read the claims

A property that the code violates has status `proved` in `MANIFEST.json` with a note that starts with `REFUTED`: the theorem (suffix
`_refuted`) proves the negation of the property, either for a concrete input or for all inputs.  Where possible a second theorem proves
the property under an additional condition (C25-C27, C36, C37, C47, C52, C66); for C36, C37 and C66 the condition is sufficient, not necessary.

Property theorems are in `Properties*.v`; these files contain only statements, `exact` proofs, `Print Assumptions` and examples that meet
the hypotheses.  The vocabulary of the statements is in `*Spec.v`.

## Trusted base

* The kernel of Coq 8.16.1 (including `vm_compute`, used for the concrete witnesses).
* The statements and the model: that the definitions say what the Python code does.  Each definition cites the lines it models.
* Axioms.  No axiom, parameter or admitted proof is added.  `Print Assumptions` lists, for each theorem named in the manifest, a subset of
  four axioms of the standard library:

  | axiom | short |
  |-------|-------|
  | `ClassicalDedekindReals.sig_forall_dec` | F |
  | `ClassicalDedekindReals.sig_not_dec` | N |
  | `FunctionalExtensionality.functional_extensionality_dep` | E |
  | `Classical_Prop.classic` | C |

  | axioms | theorems |
  |--------|----------|
  | none | C01_fit_depth, C01_fit_total, C11_structure, C14_fit_pruned, C14_prune, C28_paths, C28_predict, C28_to_array, C28_toarray, C29_columns, C29_zero_dim, C30_refit, C30_rejected, C33_regression, C46_short_names, C48_dfs, C48_one_line_per_node, C48_unfitted, C49_store_index, C61_size, C67_accepted, C70_fit_reads, C70_lossy, C71_frame, C71_frame_hyper, C71_names, C71_paths, C71_query_shape, C71_query_shape_hyper, C71_row, C71_row_hyper, C71_shape, C71_target, C73_random, C77_hreg_read, C77_reg_read, C91_line, C91_perp_kept, C91_perp_same, C91_perp_silent, C91_perp_trained |
  | C, E, F, N | C01_scan_reads, C02_clf_nodes, C02_clf_routing, C02_reg_nodes, C02_reg_routing, C03_hyper_frequency, C03_proba_frequency, C04_hyper_distribution, C04_proba_distribution, C05_hyper_first_max, C05_predict_first_max, C06_hyper_mean, C06_reg_mean, C08_hyper_hull, C08_reg_hull, C09_clf_best_split, C09_reg_best_split, C10_clf_leaves, C10_reg_leaves, C11_hyper_structure, C11_hyper_structure_reg, C12_clf_importance, C12_reg_importance, C13_hyper_importance_nan_refuted, C13_importance_nan_refuted, C15_hyper_prune_symmetric, C15_prune_symmetric, C16_hyper_prune_changes_refuted, C16_prune_changes_refuted, C17_reg_prune_changes_refuted, C18_additive, C18_hyper_additive, C19_C20_clf_reorder, C19_C20_reg_reorder, C21_clf_scale, C21_reg_scale, C23_paths_refuted, C25_nan_query_refuted, C25_non_nan, C26_uint8_refuted, C27_mid_between, C27_neighbours_refuted, C27_overflow_refuted, C27_precision, C27_routing, C28_clf, C28_reg, C34_best_kept, C34_best_kept_reg, C35_nodes, C35_nodes_reg, C36_row_order_distinct, C36_row_order_distinct_reg, C36_row_order_refuted, C37_evidence_distinct, C37_evidence_distinct_reg, C37_evidence_refuted, C38_delta_refuted, C38_delta_reg_refuted, C39_onto, C39_orientations, C39_outside_rejected, C39_unit_length, C42_annealing_ends, C43_clf_weights, C43_reg_weights, C44_clf_evidence, C44_gammaln, C44_reg_evidence, C45_clf_split, C45_reg_split, C46_hyper_refit_refuted, C46_prune_interrupt_refuted, C46_refit_raises_refuted, C47_raw_leaf_delta0, C47_raw_leaf_exact, C47_raw_leaf_refuted, C50_hyper_relabel, C50_hyper_relabel_optim, C50_relabel, C51_hyper_target_scale, C51_hyper_target_scale_optim, C51_target_scale, C52_int8_refuted, C52_no_wrap, C53_hyper_relabel_prune_refuted, C53_relabel_prune_refuted, C54_importance, C54_importance_reg, C54_optimal, C54_optimal_reg, C54_unit_normals, C54_unit_normals_reg, C55_total, C55_total_reg, C56_clf, C56_clf_complete, C56_hclf, C56_hreg, C56_reg, C56_reg_complete, C57_one_feature_refuted, C58_descent_ends, C60_fit_ends, C60_fit_ends_reg, C60_fit_is_fit, C60_fit_is_fit_reg, C61_clf_coarser, C61_hyper_coarser, C61_hyper_coarser_reg, C61_reg_coarser, C62_accuracy, C62_accuracy_monotone, C62_asymmetric_refuted, C62_hyper_accuracy, C63_error, C63_hyper_error, C64_clf_total, C64_hyper_clf_total, C64_hyper_reg_total, C64_reg_total, C65_clf_increasing, C65_queries_refuted, C65_reg_increasing, C66_clf_columns, C66_reg_columns, C66_ties_refuted, C67_finite_answers_refuted, C67_numbers, C67_numbers_hyper, C67_one_bad_target, C67_one_bad_target_hyper, C68_any_power_refuted, C68_exact_never_ends, C68_loop_ends, C68_monotone_ends, C69_answers, C69_both_inf_refuted, C69_nan_row_refuted, C69_neg_inf_refuted, C69_neg_inf_right, C69_trained_right, C70_dtype_refuted, C71_column_order_refuted, C71_names_count_refuted, C72_objective, C74_clf, C74_clf_refuted, C74_clf_root, C74_hclf, C74_hreg, C74_reg, C74_reg_refuted, C74_reg_root, C75_clf_redundant, C75_reg_redundant, C75_unchanged_refuted, C76_clf, C76_hclf, C76_hreg, C76_reg, C76_zero_gain_refuted, C77_clf_same_text, C77_reg_same_text, C77_repeated_names_refuted, C78_fixed_precision_refuted, C78_hclf, C78_hclf_opt, C78_hclf_opt_predict, C78_hclf_predict, C78_hreg, C78_hreg_opt, C78_hreg_opt_predict, C78_hreg_predict, C79_half_sphere, C79_half_sphere_refuted, C79_half_sphere_reg, C79_opposite, C79_opposite_reg, C81_beta_refuted, C81_default, C81_fit_refuted, C81_logs, C81_positive, C82_argmax_refuted, C82_default, C82_majority, C82_probabilities, C82_routed, C83_betaln_many, C83_betaln_two, C83_logs, C83_near_best, C83_same_tree, C84_decisions, C84_query_refuted, C84_training_classes, C84_training_rows, C85_default, C85_posteriors, C85_predictions, C86_near_best, C86_same_tree, C86_training, C87_clf, C87_exact_clf, C87_exact_reg, C87_leaf_nan, C87_reg, C88_clf_apart, C88_clf_kept, C88_reg_apart, C88_reg_kept, C88_symmetric, C89_clf_queries, C89_clf_structure, C89_reg_queries, C89_reg_structure, C89_side, C89_tiny, C89_total, C90_clf_best, C90_clf_chosen, C90_clf_leaves, C90_normal, C90_reg_best, C90_reg_chosen, C90_reg_leaves, C91_clf_lines, C91_hclf_lines, C91_hreg_lines, C91_reg_lines, C92_clf, C92_clf_rows, C92_normal, C92_reg, C92_reg_rows, C92_scale_refuted |
  | E, F | C07_conjugate, C22_hyper_rowwise, C22_hyper_rowwise_reg, C22_rowwise, C22_rowwise_reg, C24_first_two, C24_paths, C25_nan_falls_through, C26_overflow_misroutes, C26_routing, C28_hyper_predict, C29_unfitted, C29_unfitted_hyper, C31_empty_prior, C31_labels, C31_labels_hyper, C32_one_row_hyper_refuted, C32_one_row_refuted, C33_no_prior_hyper_refuted, C33_no_prior_refuted, C40_annealing_inside, C40_quasi_inside, C41_ends, C41_negative, C41_never_ends, C41_not_integer, C41_one_class, C41_two_classes, C46_first_fit, C46_first_fit_hyper, C46_first_grow, C46_first_grow_hyper, C58_descent_inside, C59_integer_matrix_refuted, C67_clf_refused, C68_no_dimension, C71_rows, C71_rows_hyper, C72_annealing, C72_near, C73_quasi, C73_quasi_distinct, C73_two_point, C77_clf_read, C77_hclf_read, C77_hclf_same_text, C77_hreg_same_text, C80_descent_scale_refuted, C80_order, C80_shift |
  | F | C14_hyper_fit_pruned, C29_columns_hyper, C30_refit_hyper, C30_rejected_hyper, C46_hyper_refit, C70_fit_reads_hyper, C70_lossy_hyper, C71_shape_hyper, C71_target_hyper, C91_hyper_kept, C91_hyper_same, C91_hyper_silent, C91_hyper_trained |
  | E | C28_fit |
  | E, F, N | C28_hyper_fit, C68_solution |
  | C, E, F | C72_best |
* Flocq (installed library) is used for IEEE binary64/binary32.  It adds no axioms of its own; what it uses is in the list above.
  Python's `float` operations are taken to be IEEE round-to-nearest-even.

### What is modelled

| code | model |
|------|-------|
| `base.py` `fit`, `predict`, `feature_importance`, `_predict`, `_prune`, raw leaf data, data normalisation, dtype check, fitted check, depth, leaves, `_erase` | `Tree.v`, `Api.v`, `Importance.v`, `Object.v`, `Validate.v`, `Model.v` |
| `base_perpendicular.py` | `Perp.v`, `Tree.v` (paths), `Importance.v`, `Str.v`, `Object.v`, `Sparse.v` |
| `base_hyperplane.py` | `Hyper.v`, `OptimFit.v`, `Str.v`, `Object.v`; in float64 `FloatHyper.v` |
| `classification.py`, `regression.py` | `Clf.v`, `Reg.v`, `Gamma.v`, `IntFeat.v`; in float64 `FloatReg.v`, `FloatClf.v` |
| `hyperplane_optimization.py` objective | `Hyper.v`; in float64 `FloatHyper.v` |
| `hyperplane_optimization.py` annealing, gradient descent, quasi-random, random, two-point optimizers | `Optim.v` |
| `utils.py` hypersphere map, quasi-random sequence | `Sphere.v`, `Optim.v` |

### What is not modelled, and simplifications

Arithmetic
* Theorems about evidences, posteriors and importances are about exact real arithmetic, with `gammaln` the mathematical function.
  Exceptions: C81 to C90 are about the float64 code.  There `np.log`, `gammaln`, `betaln` and `**` are arbitrary functions (with the
  hypotheses in the theorems), `np.sum` adds in an arbitrary order (left to right below eight numbers, where the counterexamples need it),
  and `cumsum` adds from left to right.  The accuracy of the classification scores is C83, that of the
  regression posteriors and scores C85 and C86, in terms of the accuracy of those functions.  Structural theorems (stated for every `feat`
  and `lik`) do not depend on the arithmetic.
* Features: float64 and float32 (the product with 0.5 is taken in the same format) and integers of 8 to 64 bits.  64-bit integers of size
  2^52 or more, which float64 rounds, are outside.  NumPy's promotion rules are those of a scalar 0.5 (NumPy 1.x: some unsigned types).
* NaN: queries are covered (C25), non-finite regression targets too (C67, exact on finite numbers: a sum of numbers does not overflow), nan and
  infinite training features of perpendicular trees too (C69).  Hyperplane trees on such features: only by the theorems for arbitrary arithmetic
  and C89_total.  In C89, `np.dot`, `X @ normal` and `np.linalg.norm` add rounded or fused products in any order; dense data only.

Library calls
* `np.argsort` is any function that returns a sorting permutation (not necessarily stable); `np.argmax` is the first maximum.
* Hyperplane projections `X @ normal`: an entry depends only on its row (BLAS may round differently by position).
* Number formatting in `__str__` is an arbitrary function.
* SciPy sparse matrices: conversions, slicing and indexing are modelled by their effect on the stored entries, without range checks.
  Scalar indexing of duplicates must add them like `toarray` does (`adds_up`); this holds in exact arithmetic but can fail for eight or
  more duplicates in floating point.  Sparse hyperplane trees: exact arithmetic only.  `AxisError` is a `ValueError`.
* Conversions of sparse matrices of other dtypes and pandas targets are not modelled.

Objects
* Children are owned by their parent (no aliasing).  The attribute `optimization_function` is left out.  Printing (`verbose`) is left out except in
  `Verbose.v`, where the two fits are modelled with their output and proved equal to the others; what optimizers of other packages print is not modelled.
* Queries assign no attributes in the code and are functions in the model, so "queries change nothing" holds by construction.
* A split dimension of -1 is read as column 0 (`Object.v`).
* scikit-learn's `clone`, `get_params` and `set_params` are not modelled.  Interpreter limits (recursion depth, memory) are outside.

Optimizers
* Random generators are arbitrary streams; each `solve` starts the stream anew, as the code does.  Nothing is said about probabilities.
* Exact real arithmetic, e.g. the gradient steps are exact powers of ten and the spread factor does not overflow.
* The theorems about the quasi-random optimizer hold for an arbitrary `phi`.  Its fixed point loop is `Phi.v` (C68); there `pow` is correctly
  rounded or at least does not decrease.  The platform's `pow` is trusted to be one of the two.
* `ScipyOptimizer` and `OptunaOptimizer` run code of other packages.  The theorems about hyperplane trees cover them through the arbitrary
  candidate sequences, provided that they return.
* That the hypersphere map is uniform is not proved; its two-dimensional argument, which the package does not use, is left out.

Not modelled at all: `__init__` docstrings and defaults, `__repr__` of optimizers, examples, tests, `setup.py`, versioneer.

## Mutation tests

`seeded/LOG.jsonl` records one wrong program per line.  Each edit is applied to a scratch copy of the model.  A proof that no longer goes
through is listed in `failed_proofs` and skipped, so that the rest is still checked; `theorems_failed` are the property theorems whose
proofs use one of them.  The characterisation of the fit is used almost everywhere, so this list is larger than the set of theorems that
become false.  Edits that turn out to be equivalent programs carry a `note`.
