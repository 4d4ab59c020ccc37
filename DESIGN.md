# Formal model of qzhao19/tiny-openml in Rocq (Coq 8.16.1)

## Approach

* `rocq/theories/*_Model.v` – executable or real-valued Gallina models of the C++ functions.
  Every definition cites the file and lines it models and says where it simplifies.
* `rocq/theories/*_Spec.v` – (only where needed) small specifications independent of the model.
* `rocq/theories/*_Proofs.v` – proofs.
* `rocq/theories/Properties_*.v` – only the property theorems, each closed with `exact`, followed by
  `Print Assumptions`, with an `Example` showing that a concrete case meets the hypotheses.

Results are values of `outcome A`: `Ok a`, `Throw e` (a C++ exception), `UB` (undefined behaviour: out-of-range
access, division by zero, null dereference, missing return, Eigen shape assertion) and `Fuel` (the model ran out of
recursion fuel; every theorem excludes it, so it is a proof obligation, not an assumption).

Numbers.  Combinatorial code (hash tree, Apriori, sorting, KD-tree, tree routing) is modelled over `Z`/`nat`, because
only order and equality (and, for distances, sums of absolute values/squares) matter; finite doubles are dyadic rationals, so any
finite data set can be scaled to integers.  Statistical code is modelled over the reals `R` of the standard library:
rounding, overflow, NaN and infinities of IEEE arithmetic are **not** modelled unless a definition says so.  C61-C64 are about the
same functions with a rounding after every operation (`Round_Spec.v`): any monotone odd rounding, with doubles and floats as Flocq
defines them as instances, and sums added up in any order; overflow is left out.  C68 is about IEEE doubles with infinities and NaN
(Flocq's `binary_float 53 1024`), sums again in any order; C69 shows that on doubles that cannot overflow the two agree for the KD-tree.

When the documented behaviour is false of the faithful model we prove `..._refuted` with a concrete witness and also
the strongest correct statement with explicit preconditions.

## Plan per property

| id | model | proof idea |
|----|-------|-----------|
| C01 | hash tree as an inductive tree with association-list buckets/children in key order | refinement to the finite map itemset -> count by induction on depth (k - index) |
| C02 | same model, `UB` on `% 0` and out-of-range index | invariants; witnesses for the negative part |
| C03 | result lists carried in the tree state | list equation; witness |
| C04 | triplet list | membership characterisation |
| C05, C06 | level loop on top of C01, C16, C19 | invariant: level k holds exactly the frequent k-subsets in lexicographic order |
| C07 | nested loops over the frequency map | membership characterisation |
| C08 | same loop with fuel = number of items + 1 | the itemset length bounds the number of levels |
| C09-C12 | work-list construction over arrays of nodes, stack-based query | loop invariants over the stack; box lower bound |
| C13-C20 | list functions | induction |
| C21, C22 | permutation oracle for the shuffles | `Permutation` reasoning |
| C23-C26 | recursive construction with an impurity parameter | induction on the tree |
| C27-C29 | reals, lists of vectors | mean minimises squared deviations |
| C30-C33 | reals, derivatives of the standard library | differentiation under finite sums |
| C34-C38 | update/decay functions, epoch state machine with loss/shuffle oracles | invariants over steps |
| C39 | state machine of the SCD loop | convex analysis of one variable |
| C40, C41 | line-search loops and L-BFGS state machine with objective oracle | invariants, ring-buffer refinement |
| C42-C45 | finite sums over R | real analysis |
| C46, C47 | count tables + reals | sums |
| C48 | matrices as functions/lists over R, inverse given by its defining equation | completing the square |
| C49 | shape-checked matrix products | computation, witnesses |
| C50, C51 | decompositions as oracles with their defining equations | algebra |
| C52 | model of the voting code | computation, witnesses |
| C53 | index permutation oracle | the output is the input composed with the permutation |
| C54 | elimination and Cholesky loops, LU with full pivoting, log determinant by cofactors | loop invariants; determinant independent of the code's definition (`Det_Spec`) |
| C55 | `compute_impurity_gain` over the reals | concavity of entropy and Gini, Jensen |
| C56 | Householder reflections, one column at a time | orthogonality and zeroing invariants |
| C57 | the text file as a list of lines of characters, number syntax of `istream >> double` | refinement to the table the lines denote |
| C58 | the random engine as an oracle of draws; `std::shuffle` as swaps | bijection between draw sequences and permutations; pigeonhole for 32-bit seeds |
| C59 | the SGD model with one batch | descent lemma for functions between tangents and parabolas; potential argument |
| C60 | the tree models of C24-C26 | rows grouped by the leaf they end in; majority and mean are optimal in a group; a shallower tree is a pruning of the deeper one |
| C61 | the KD-tree model of C09-C12, which is generic in the arithmetic, over the reals with a rounding after every operation | the two facts pruning rests on (norms are monotone in the absolute entries; clamping comes nearest) hold for every monotone odd rounding; double and float by Flocq |
| C62 | sigmoid, softmax and the softmax loss with every operation rounded and the exponential an argument | monotonicity of rounding; a rounded sum of non-negative terms is at least each term; underflow of `exp` by Flocq |
| C63 | train_test_split with the rounded product; thresholds `(a + b) / 2` rounded, in the tree model of C23-C26 | integers and doubled numbers are exact; witnesses rounded by Flocq's definition |
| C64 | distances, mean, variance, running sums, truncation with every operation rounded | monotonicity and oddness of rounding; witnesses rounded by Flocq's definition |
| C65 | the models above, unchanged | every function of the rows is a sum, a count, a sorted list of distinct values or a choice by such; induction on the tree and on the runs |
| C66 | the objects as records of members; constructors take the memory they are run in | case analysis on solver and penalty names; two memories with different results |
| C67 | the models above, unchanged | conversion commutes with each function (homomorphism by induction); for increasing maps a relation between the two runs: neighbouring midpoints are ordered alike and cut the rows alike |
| C68 | k-means, tree walk, KD-tree queries, SGD and squared error again, on IEEE doubles | NaN and infinity propagate through sums in any order; invariants of the loops; witnesses by computation in Flocq's doubles |
| C69 | the KD-tree on IEEE doubles of moderate size, radius queries included | step-by-step relation between the run on doubles and the run on rounded reals of C61; a sum of c terms of size 2^e stays below c*2^e |
| C70 | computed distances (rounding model and IEEE doubles), queries | products of factors 1 +- 2^-53, by induction on the order of summation; sums of doubles have no underflow error; transfer to queries through C69 |
| C71 | mean and linear predictions with rounding | error of a sum of signed terms by induction on the order of summation; underflow of products added; witness 2^53 + 1 - 2^53 |
| C72 | apriori with double thresholds | rules of the rounded run as a filter of the exact rules; floor of a rounded product; fractions with small denominators stay ordered after rounding; witnesses 29/100 and 1/5 |
| C73 | perceptron and logistic objects trained by SGD with step decay | closed form of the sum of the rates; travel of a coordinate by induction on batches and epochs; Novikoff's argument with decreasing rates and batches (scalar product with the separator against the norm); an error-free epoch is a fixed point with loss 0, so patience ends the run; witnesses for the two refuted readings |
| C74 | `scd_optimize` called by the lasso and logistic objects | the best coordinate is at least as good as the average coordinate on the segment towards v (convexity of the loss and of the 1-norm); the gap obeys delta' <= delta - delta^2/(2 d C), hence delta <= 2 d C/k by induction; level sets bounded because the loss is not negative; divergence for a small l1_ratio by induction |
| C75 | the models of the losses, optimisers, least squares, naive Bayes, k-means, statistics, Apriori and trees; `Copies_Spec.repeated` says what repeating means | sums over k copies are k times the sum and cancel against the number of rows; then as for C65 (any order of the rows). Least squares by uniqueness of the minimum (C48); Apriori through C05-C08; trees refuted by a computed tree and by C26's tied maximum |
| C76 | Existing models of the losses, optimizers, linear models, k-means, naive Bayes, statistics and trees; `Cols_Spec` defines a column order and reordered vectors | every step relates the two runs (`Cols*_Proofs`: sums are permutation-invariant, vector operations commute with reordering), lifted through the loops by relational induction; least squares by uniqueness of the minimum; trees by comparing the sets of candidate splits; ties refuted by computed witnesses |
| C77 | DProb_Model: logsumexp, softmax, sigmoid, the normalisation of naive Bayes and of the mixture, and the logistic loss and its gradient on Flocq's binary64 numbers, with exp and log as arguments restricted by DProb_Spec | bounds on sums of numbers in [0, 1] in any order; rounding near the largest double; NaN carried through the epochs by an invariant; DProb_Cases shows that correctly rounded exp and log meet the assumptions |
| C78 | Optim_Model (sgd), Loss_Model, Linear_Model | every batch step brings the weights closer to u by twice the rate times (recorded loss - loss of u on the batch), from convexity and the curvature bound; summed over batches and epochs, with an invariant that excludes clipping |
| C79 | Optim_Model.v (sgd_step, sag_step, tg_step, the updates), Linear_Model.v | A simulation lemma over batches, epochs and the stopping rule (related states and rates, equal losses, equal failures); one invariant per pair of solvers: the SAG table holds the last gradient and the average is it divided by the batch size; the truncation budget stays 0. Convergence carried over from C59. |
| C80 | Apriori_Model.v (fit_transform from any earlier state) | Relations between runs from C05-C08; an invariant by induction over the history: the table of transform_data holds for each itemset its support in the last database reporting it; equality of ordered maps with the same entries for the repeated database; witnesses by evaluation. |
| C81 | ridge_fit, linear_fit, lasso_object_fit over R | exchange argument on the two minima; minimum along its own ray; linearity of the normal equations' solution; a coordinate step at 0 is 0 |
| C82 | Brute_Model: brute_force by its evident meaning over R, hash-map order an argument | counts stay below the largest size_t, so the vote keeps its start; induction over the sorted distances |
| C83 | Spectral_Model: laplace_matrix by its evident meaning over R | the quadratic form is half the weighted sum of squared differences; weights are positive |

## What is modelled

All line references are in the comments of the definitions. Sources are under `/repo/src`.

| source | model file | content |
|--------|-----------|---------|
| core/tree/hash_tree.hpp | HashTree_Model | insertion, counting, querying |
| core/preprocessing/transaction_encoder.hpp, methods/rule_model/apriori.hpp | Apriori_Model | encoding, level loop, rules |
| core/common.hpp | Common_Model, Argsort_Model, Load_Model | every function template except the two named below |
| core/tree/kd_tree.hpp | KDTree_Model | construction, k-nearest and radius queries; generic in the number type, instantiated at `Z` for computation and at `R` for the theorems |
| methods/neighbors/k_nearest_neighbors.hpp, core/metric.hpp | Knn_Model, NbrObjects_Model, Stats_Model | prediction with the tree solver, constructors, distances, scores; the header is read as if `brute_force`, which does not compile, were removed. Brute_Model (C82): `brute_force` by its evident meaning |
| core/data/split.hpp, core/math/shuffle.hpp, core/math/random.hpp | Split_Model, Shuffle_Model, Random_Model | splitting, shuffling, random fills |
| core/data/load.hpp | Load_Model | parsing and the matrix it fills |
| methods/tree/*.hpp, core/math/extmath.hpp (impurities) | Tree_Model, Impurity_Model, Gain_Model | split search, growth, prediction, gains |
| methods/cluster/kmeans.hpp | KMeans_Model | both initialisations, Lloyd loop, prediction; flag `asserts` = Eigen assertions compiled in |
| core/loss/*.hpp | Loss_Model | values and gradients of the five losses |
| core/math/{extmath,ops,proba}.hpp | MathFun_Model, Stats_Model | elementwise functions and statistics |
| core/optimizer/sgd/** | Optim_Model | SGD, SAG, TG, SCD, update and decay policies |
| core/optimizer/lbfgs/** | LineSearch_Model, Lbfgs_Model | both line searches, the two-loop recursion, the main loop |
| methods/naive_bayes/*.hpp | NB_Model | both classifiers |
| methods/linear_model/*.hpp | Linear_Model | the six models on top of the solvers and optimizers |
| methods/decomposition/*.hpp, core/math/linalg.hpp (SVD, pinv) | Decomp_Model | PCA, truncated SVD; the SVD itself is an oracle whose contract (`is_svd`) is a hypothesis |
| methods/mixture/gaussian_mixture.hpp | Gmm_Model | E step, M step, precisions, the EM loop with restarts |
| core/math/linalg.hpp (rest) | Linalg_Model, Det_* | LU, QR, Cholesky, logdet |
| constructors, `fit` and getters of methods/{linear_model,cluster,naive_bayes}, lbfgs/params.hpp | Objects_Model | members, initialised or not, and their use |
| kmeans.hpp, tree prediction, kd_tree.hpp queries, sgd.hpp, mean_squared_error.hpp | Double_Model | the same code on IEEE doubles; no fused multiply-add, `pow(2.0)` is one multiplication |

### Conventions of the models

* A matrix is the list of its rows. A shape mismatch in an Eigen expression is `UB` (it violates an assertion that release
  builds drop). Where a function behaves differently with assertions compiled in, the model has a flag.
* Random draws, shuffles, uninitialised memory and the singular value decomposition are arguments, so theorems hold for all of
  their values, or for all that satisfy the stated contract.
* A result that IEEE arithmetic makes infinite or NaN and that the code does not test is modelled as `None` or left out; the
  definition says which.

### Not modelled

* Overflow and NaN except in C68 and C69; rounding except in C61-C64 and C68-C72. The other theorems over `R` are about exact arithmetic. Two consequences: `==` on doubles
  is exact equality of reals, and overflow-avoiding rearrangements (log-sum-exp) are shown equal to the plain formula but not
  shown to avoid overflow.
* Unsigned wrap-around of sizes, except where a definition says so; memory exhaustion; time.
* Printing (`verbose`, `print_*`) and the getters and constructors that only copy a member, other than those of C66.
* `linalg::eig` (its body cannot be instantiated: it returns a complex matrix as a real one), `spectral_clustering.hpp` (does not compile:
  `X.cols(j)`, undeclared `VecType`, `predict` without `return`) except `laplace_matrix`, which is never called and is modelled by its evident meaning (Spectral_Model, C83), `common::string_to_integer`,
  `vec2mat` of a single vector (a copy of its argument).
* Eigen's own algorithms beyond their mathematical contract: `PartialPivLU`, `FullPivLU`, `HouseholderQR`, `LLT` are modelled as the textbook
  algorithms over the reals; `JacobiSVD` and `BDCSVD` by contract.
* Concurrency: the library has none.

## Defects found while modelling

Each is a theorem with suffix `_refuted` or a characterisation of the actual behaviour.

* Hash tree and Apriori: repeated queries accumulate answers (C03); fan-out 0 and mixed lengths are undefined (C02); unordered
  transactions give wrong counts (C05, C06); mining throws although itemsets were found (C08).
* KD-tree: child boxes are wrong unless column 0 has the widest spread (C09), so nearest-neighbour queries can miss rows; leaves of one or two rows make them read outside an array (C10);
  radius queries lose points on the boundary and with other axes (C11, C12).
* `common`: argsort of one or two rows and of vectors (C14), the indices of `unique` (C15), `difference` of unsorted input (C18), both
  slices (C20).
* Trees: fitting two rows with the default parameters, missing children, empty leaves, tied maxima and `absolute_error` are undefined (C24-C26);
  weighted impurities divide the total weight by the number of rows (C43); purity never stops a Gini tree and the regressor refuses
  useful splits because its two sides are not averaged (C55).
* k-means: the column copy violates an assertion for more than one feature (C28); a zero draw selects a point already chosen (C29).
* Losses: hinge gradient reads uninitialised memory, Huber's gradient and value are not those of the Huber loss (C33); the softmax penalty and its gradient disagree (C32).
* Optimizers: momentum forgets its velocity, Nesterov is a larger step (C35); exponential decay grows (C34); fewer samples than a batch
  return the start (C36); the exception is thrown while the loss is falling (C36).
* L-BFGS: a stationary start sets no result; `past` >= 2 compares with memory never written; `past` = 0 and `mem_size` = 0 are
  undefined (C41).
* SAG's average is divided by the batch size, not by the number of batches (C37); the cumulative penalty of the truncated gradient is reset
  (C38).
* Metrics: the mean absolute error is the mean squared error, sizes are not checked (C45); k-nearest-neighbour prediction
  never returns for k other than 1 and gives several queries one label (C52).
* Naive Bayes: accessors never defined for two or more features; refit accumulates (C46, C47).
* Linear models: intercept shapes disagree in lasso, perceptron and softmax; logistic predictions are swapped; the lbfgs constructor leaves
  `lambda_` uninitialised; the perceptron never checks its parameters; lasso and ridge share an include guard (C49).
* Decomposition: PCA centres new data with its own mean; the score is undefined before two getters are called; stale covariance after a
  refit; `pinv` cuts off at an absolute threshold; truncated SVD is undefined unless features = components + oversampling (C50).
* Gaussian mixture: weights sum to 1 + K*eps/n; tied covariance is undefined for K >= 2; unknown options are undefined; refit keeps old
  precisions; `max_iter <= 1` or `tol <= 0` always throws; the reported bound belongs to the previous parameters; a failed fit
  overwrites the members (C51).
* Linear algebra: Cholesky reads only the lower half; LU drops the column permutation, so P L U is not the input (C54).
* Loading: ragged, blank, header and CSV lines; loading twice (C57).
* Random: from 13 elements on not every order can be reached with a 32-bit seed; k-means++ without rows draws from all of `size_t` (C58).
* Objects: L-BFGS logistic regression regularises with an uninitialised strength; penalty "None" regularises; arguments that are ignored; predicting
  before fitting; unknown metric and solver names; the default nearest-neighbour classifier (C66).
* Row order: Apriori's answer depends on the order of the transactions (C65).
* Rounding: the softmax loss is 0/0 when the scores of two samples differ by more than about 745 (C62); thresholds between neighbouring doubles leave
  one side empty (C63); the variance of equal numbers can be negative; k-means++ can draw a centre again (C64).
* Special values: one NaN in the data spoils the first k-means centroid and makes k-means++ read an uninitialised candidate; a query with a NaN or an
  infinite coordinate is answered with row 0; distances whose squares overflow give label 0 or row 0; a diverging run can return weights of
  infinite loss as converged (C68).

## Checking the theorems

`tools/mutate.py` edits one definition of a model in a scratch copy the way a bug would change the program, rebuilds, and records which
theorems fail. `seeded/LOG.jsonl` has one line per edit. Theorems that survived an edit that falsifies their claim were tightened.

## Trusted base

* Coq's kernel, version 8.16.1 (`coqchk` re-checks the compiled files). The kernel includes its
  virtual machine (`vm_compute`), which some concrete witnesses use; `native_compute` is not used.
* The reading of the C++ text and of Eigen's and the standard library's documented behaviour: nothing here is extracted from or run
  against the code.
* The axioms of the standard library that `Print Assumptions` lists, and no others; `tools/axioms.py` regenerates this list:

<!-- assumptions -->
* **No axioms** (closed under the global context) - 108 theorems:
  C01 hash_tree_counts, hash_tree_any_history; C02 hash_tree_terminates, hash_tree_safe, fanout_zero_refuted, mixed_lengths_refuted, mixed_lengths_lost_refuted; C03 query_accumulates, query_repeatable_refuted; C04 transaction_encoding; C05 true_supports, unordered_refuted; C06 complete, unordered_refuted; C07 rules; C08 always_ends, no_frequent_item, completes_iff, raises_iff; C13 argmax, argmin, max_element; C14 argsort, argsort_two_refuted, argsort_one_refuted, argsort_vector_refuted, sort, sort_vectors, sort_vectors_rows; C15 unique, unique_indices_refuted; C16 combinations; C17 remove_duplicate_rows, empty_raises; C18 contains, difference, difference_unsorted_refuted, merge, where, clip; C19 sortrows, sortrows_empty, sortrows_equal_rows_undefined; C20 hstack, vstack, stack_sizes, repeat_rows, repeat_cols, flatten, vec2mat, vec2mat_ok, vec2mat_ragged, slice2d, slice2d_wide_refuted, slice1d_refuted, fmin, is_equal; C21 partition, shuffle, bad_ratio, bad_labels; C22 divide; C23 best_split, defined, small_refuted; C24 structure, terminates; C25 total; C29 other_init_refuted; C34 step_decay_zero; C36 zero_batch; C41 policy; C49 logistic_solver; C53 shuffle_pairs, rows, columns, axis_refuted; C57 table, ends, ragged_refuted, long_lines_refuted, commas_refuted, header_refuted, reload_refuted; C58 permutation, shuffle, every_order_once, every_shuffle, all_orders_refuted, random_rows, matrix, first_center, first_center_any, no_rows_refuted; C65 apriori_refuted; C66 getters_refuted; C68 tree; C75 apriori_no_more, apriori, apriori_refuted; C80 support, rules, outcome_refuted, range, stronger_left, history, same_again, mixed_refuted.
* `ClassicalDedekindReals.sig_forall_dec` - 4 theorems:
  C34 step_decay; C35 vanilla_shape; C49 prediction, short_rows_refuted.
* `ClassicalDedekindReals.sig_forall_dec`, `FunctionalExtensionality.functional_extensionality_dep` - 189 theorems:
  C09 partition, boxes, defined, boxes_refuted; C29 plusplus, potential, distinct, zero_draw_refuted, random; C30 value, gradient, minimum; C33 hinge_value, hinge_subgradient, hinge_refuted; C34 step_decay_decreasing, step_decay_refuted; C35 vanilla, momentum_forgets, momentum_refuted, nesterov_refuted; C36 exception, returns, total, batch, few_samples_refuted, tail_ignored; C37 table, run, step, average_refuted; C38 truncate, budget, step, run, cumulative_refuted; C39 step, no_features, monotone, lasso, fixed_point_optimal; C40 success, decrease, failure, terminates, defined, backtracking_steps, bracketing_steps, armijo_succeeds, armijo_smooth; C41 symmetric, secant, positive_definite, descent, wolfe_descends, convex_descends, monotone; C43 gini; C44 sum, mean, var, var_nonneg, var_zero, other_axis, center, cov, cov_diagonal, cumsum, median, mode, sign; C45 mean_squared, mean_absolute_refuted, explained_variance, explained_variance_bound; C46 priors, gaussian_fit, smoothing, multinomial_asserted_refuted, one_feature_refuted, lengths; C47 naive_bayes_refit, naive_bayes_refit_refuted; C48 linear, singular_refuted, few_samples_refuted, ridge, linear_residuals, ridge_intercept, lengths; C49 fitted_prediction, lasso_intercept_refuted, lasso, perceptron_intercept_refuted, perceptron, perceptron_predict, perceptron_labels_refuted, softmax_step; C50 flip, flip_shape_refuted, flip_zero_refuted, components, optimal, ratio, too_many_refuted, solver_refuted, transform, transform_one_refuted, transform_shift_refuted, covariance, covariance_full, pinv, pinv_cut_refuted, precision, stale_refuted, randomized_rejects, randomized_refuted, truncated, power_iterations; C54 lu, lu_permute, lu_product_refuted; C55 squared_error; C57 numbers; C59 mse, mse_constant, mse_ends, large_rate_refuted; C62 sigmoid, softmax, softmax_rejects, softmax_loss; C63 split, threshold; C64 mean_monotone, candidate, truncate; C65 naive_bayes, least_squares, lasso, statistics, sgd_refuted; C66 perceptron, perceptron_check_refuted, perceptron_arguments, regressions; C67 least_squares, targets, statistics, pca, ridge_refuted; C73 travel, rates, perceptron_travel, zero_labels_refuted, decay_refuted; C74 rate, lasso, lasso_limit, small_curvature_refuted; C75 lasso, ridge_refuted, statistics; C76 sgd, sag, truncated_gradient, least_squares, perceptron, statistics, tree_split, lasso_refuted; C78 mse, exact, exact_ends, recorded_refuted; C79 momentum, nesterov, truncated, sag, sag_converges, same_settings_refuted; C81 ridge_path, ridge_linear, ridge_bounds, ridge_mixed, linear_mixed, ridge_stable, lasso_zero, lasso_path.
* `ClassicalDedekindReals.sig_forall_dec`, `ClassicalDedekindReals.sig_not_dec`, `FunctionalExtensionality.functional_extensionality_dep` - 105 theorems:
  C10 exact, completes, other_axis_refuted, small_leaf_refuted; C11 sound, complete_inside, boundary_refuted, other_axis_refuted; C12 query_aligned, radius_nonempty, radius_refuted; C26 mean, total, defined, tied_maximum_refuted, absolute_error_refuted; C27 nearest, distance, width_refuted; C28 iteration, monotone, run, defined, gain, converges, no_tolerance, assertion_refuted; C33 huber_refuted, huber_value_refuted, huber_gradient; C34 exponential_sign; C41 run, no_worse, limit_terminates, unlimited_terminates, stationary_start_refuted, uninitialised_refuted, zero_past_refuted, zero_memory_refuted; C42 sigmoid, softmax_rows, softmax_columns, softmax_all, softmax_shift, softmax_rejects; C44 norms, other_axis_refuted; C45 vector_distances, sizes_refuted, minkowski, minkowski_raises; C49 softmax_one_sample_refuted; C52 many_neighbours_refuted, one_neighbour, defined, one_query, batch_refuted; C54 cholesky, cholesky_lower_half, cholesky_symmetry_refuted; C55 regressor_refuses_refuted, useful_split_refused_refuted; C56 qr; C60 regressor, constant, deeper_regressor; C61 exact, completes, radius, orders; C64 distance; C65 regressor, kmeans, neighbours; C66 kdtree, kdtree_default, kdtree_metric_refuted, knn, knn_solver_refuted, knn_default_refuted, kmeans, kmeans_refit, kmeans_init_refuted, unfitted_refuted, kmeans_default; C67 regressor, kmeans_predict, kmeans_lloyd, kmeans_fit, one_feature_refuted, neighbours, monotone_regressor; C75 kmeans, regressor_refuted; C76 lbfgs, kmeans, distances; C82 vote_refuted, never_a_label, few_samples, metric, width_refuted; C83 samples_refuted, laplacian, semidefinite.
* `ClassicalDedekindReals.sig_forall_dec`, `Classical_Prop.classic`, `FunctionalExtensionality.functional_extensionality_dep` - 1 theorems:
  C75 least_squares.
* `ClassicalDedekindReals.sig_forall_dec`, `ClassicalDedekindReals.sig_not_dec`, `Classical_Prop.classic`, `FunctionalExtensionality.functional_extensionality_dep` - 165 theorems:
  C23 thresholds; C24 classifier, classifier_defined, two_rows_refuted; C25 classifier, missing_child_refuted, empty_leaf_refuted; C31 value, gradient, minimum; C32 value, gradient, minimum, penalty_refuted; C34 exponential_refuted; C36 logistic_sgd; C42 sigmoid_shape, softmax_distribution, other_axis_refuted, logsumexp, logsumexp_bounds, gaussian; C43 weighted, unnormalised, weights_refuted, entropy, degenerate; C46 gaussian_prediction, gaussian_prior_refuted, gaussian_asserted_refuted, multinomial; C47 naive_bayes_index, naive_bayes_labels_refuted, naive_bayes_labels, tree_refit, tree_index, tree_refit_defined; C49 softmax_fit_refuted, softmax_predict, softmax_intercept_refuted, logistic_rejects, logistic_sgd, logistic_predict, logistic_swapped_refuted; C50 score, score_refuted; C51 outcome, fit, weights, moments, predict, one, ascent, monotone, tied_refuted, arguments_refuted, unfitted_refuted, unregularised_refuted, refit, refit_refuted; C54 logdet, logdet_square_refuted, pca_score; C55 gini, entropy, criterion, gini_never_stops_refuted, entropy_splits_impure; C59 log, log_ends, logistic_regression; C60 classifier, majority, deeper_classifier; C61 formats; C62 formats, softmax_loss_refuted; C63 split_refuted, neighbours_refuted; C64 mean_refuted, candidate_refuted; C65 classifier, losses, softmax_loss, lbfgs; C66 logistic_gradient, logistic_scd, logistic_arguments, penalty_none, penalty_none_refuted, logistic_newton, logistic_newton_refuted, logistic_mixed_refuted, logistic_no_policy, logistic_default, softmax; C67 classifier, naive_bayes, monotone_classifier, unseen_refuted; C68 predict, predict_nan, predict_overflow_refuted, train_nan, plusplus_nan, query_nan, query_infinite, query_overflow_refuted, sgd, sgd_weights, sgd_infinite_refuted; C69 nearest, completes, radius, distance; C70 distance, double_distance, zero, underflow_refuted, nearest, radius; C71 mean, linear, perceptron, perceptron_refuted; C72 supports, rules, confidence, fraction, ends, negative_refuted, supports_refuted, confidence_refuted; C73 logistic_travel, separates, learns, constant_rate; C74 logistic; C75 losses, softmax_loss, lbfgs, gradient_descent, gaussian_nb, multinomial_nb, classifier_refuted; C76 losses, softmax_loss, logistic, gaussian_nb, multinomial_nb, classifier_refuted; C77 logsumexp, probabilities, probabilities_sum_refuted, impossible_refuted, softmax, sigmoid, log_loss, log_loss_refuted, logistic_fit, logistic_start_refuted; C78 log, logistic_regression; C79 logistic_sag; C81 logistic.
<!-- /assumptions -->
