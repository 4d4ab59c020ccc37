{
 "claims": [
  {
   "property": "C01",
   "status": "proved",
   "theorems": [
    "C01_hash_tree_counts",
    "C01_hash_tree_any_history"
   ],
   "note": "Exact counts for every leaf capacity, fan-out >= 1 and call history of one-length itemsets."
  },
  {
   "property": "C02",
   "status": "proved",
   "theorems": [
    "C02_hash_tree_terminates",
    "C02_hash_tree_safe",
    "C02_fanout_zero_refuted",
    "C02_mixed_lengths_refuted",
    "C02_mixed_lengths_lost_refuted"
   ],
   "note": "Termination for every history; safety for fan-out >= 1 and one itemset length; the two excluded cases are shown to be undefined behaviour or to lose data."
  },
  {
   "property": "C03",
   "status": "partial",
   "theorems": [
    "C03_query_accumulates",
    "C03_query_repeatable_refuted"
   ],
   "note": "REFUTED as documented: the second identical query returns the answer twice. The exact accumulating behaviour is proved."
  },
  {
   "property": "C04",
   "status": "proved",
   "theorems": [
    "C04_transaction_encoding"
   ],
   "note": ""
  },
  {
   "property": "C05",
   "status": "proved",
   "theorems": [
    "C05_true_supports",
    "C05_unordered_refuted"
   ],
   "note": "The clause on unordered databases is settled by the witness theorem."
  },
  {
   "property": "C06",
   "status": "proved",
   "theorems": [
    "C06_complete",
    "C06_unordered_refuted"
   ],
   "note": "A witness shows the ordering precondition is needed."
  },
  {
   "property": "C07",
   "status": "proved",
   "theorems": [
    "C07_rules"
   ],
   "note": "Stated end to end for fit_transform on a fresh object; confidence is an exact rational."
  },
  {
   "property": "C08",
   "status": "proved",
   "theorems": [
    "C08_always_ends",
    "C08_no_frequent_item",
    "C08_completes_iff",
    "C08_raises_iff"
   ],
   "note": "Termination and the exception set hold on every database; the exact conditions hold on ordered ones."
  },
  {
   "property": "C09",
   "status": "proved",
   "theorems": [
    "C09_partition",
    "C09_boxes",
    "C09_defined",
    "C09_boxes_refuted"
   ],
   "note": "Partition, cuts and definedness hold for every matrix; 'boxes contain their rows' holds when column 0 has the widest spread and is refuted otherwise (C09_boxes_refuted)."
  },
  {
   "property": "C10",
   "status": "proved",
   "theorems": [
    "C10_exact",
    "C10_completes",
    "C10_other_axis_refuted",
    "C10_small_leaf_refuted"
   ],
   "note": "Exactness under the stated proviso (column 0 widest, so that the boxes contain their rows) for every k, metric and tie-breaking; refuted otherwise. Leaves of 1 or 2 rows make the query undefined (C10_small_leaf_refuted); with leaf_size >= 5 and n >= 6 it always completes."
  },
  {
   "property": "C11",
   "status": "partial",
   "theorems": [
    "C11_sound",
    "C11_complete_inside",
    "C11_boundary_refuted",
    "C11_other_axis_refuted"
   ],
   "note": "REFUTED as stated: rows at exactly the radius are lost, and when column 0 is not the widest also rows inside. Proved: soundness for all trees, completeness strictly inside the radius when column 0 is the widest."
  },
  {
   "property": "C12",
   "status": "proved",
   "theorems": [
    "C12_query_aligned",
    "C12_radius_nonempty",
    "C12_radius_refuted"
   ],
   "note": "Alignment of query proved; alignment of query_radius refuted (C12_radius_refuted) and characterised exactly (C12_radius_nonempty)."
  },
  {
   "property": "C13",
   "status": "proved",
   "theorems": [
    "C13_argmax",
    "C13_argmin",
    "C13_max_element"
   ],
   "note": "Rows, columns, whole matrix and invalid axis; plus the pair overload."
  },
  {
   "property": "C14",
   "status": "proved",
   "theorems": [
    "C14_argsort",
    "C14_argsort_two_refuted",
    "C14_argsort_one_refuted",
    "C14_argsort_vector_refuted",
    "C14_sort",
    "C14_sort_vectors",
    "C14_sort_vectors_rows"
   ],
   "note": "Matrix argsort for lines of length >= 3, matrix and vector sort; lines of length 1 and 2 and the std::vector argsort are shown wrong/undefined."
  },
  {
   "property": "C15",
   "status": "proved",
   "theorems": [
    "C15_unique",
    "C15_unique_indices_refuted"
   ],
   "note": "Values and positions characterised; the documented meaning of the indices is refuted."
  },
  {
   "property": "C16",
   "status": "proved",
   "theorems": [
    "C16_combinations"
   ],
   "note": "Exactly the ascending position choices, in lexicographic order, with the binomial count."
  },
  {
   "property": "C17",
   "status": "proved",
   "theorems": [
    "C17_remove_duplicate_rows",
    "C17_empty_raises"
   ],
   "note": "First occurrences in order, termination included; empty input raises."
  },
  {
   "property": "C18",
   "status": "proved",
   "theorems": [
    "C18_contains",
    "C18_difference",
    "C18_difference_unsorted_refuted",
    "C18_merge",
    "C18_where",
    "C18_clip"
   ],
   "note": "All five utilities; the default unsorted mode of difference is refuted on unsorted input."
  },
  {
   "property": "C19",
   "status": "proved",
   "theorems": [
    "C19_sortrows",
    "C19_sortrows_empty",
    "C19_sortrows_equal_rows_undefined"
   ],
   "note": "Distinct rows sorted, equal rows undefined, empty raises."
  },
  {
   "property": "C20",
   "status": "proved",
   "theorems": [
    "C20_hstack",
    "C20_vstack",
    "C20_stack_sizes",
    "C20_repeat_rows",
    "C20_repeat_cols",
    "C20_flatten",
    "C20_vec2mat",
    "C20_vec2mat_ok",
    "C20_vec2mat_ragged",
    "C20_slice2d",
    "C20_slice2d_wide_refuted",
    "C20_slice1d_refuted",
    "C20_fmin",
    "C20_is_equal"
   ],
   "note": "Including the wrong column check of the 2-d slice and the always-out-of-range 1-d slice."
  },
  {
   "property": "C21",
   "status": "proved",
   "theorems": [
    "C21_partition",
    "C21_shuffle",
    "C21_bad_ratio",
    "C21_bad_labels"
   ],
   "note": "All row counts, ratios in [0,1] and permutations drawn by the shuffle."
  },
  {
   "property": "C22",
   "status": "proved",
   "theorems": [
    "C22_divide"
   ],
   "note": ""
  },
  {
   "property": "C23",
   "status": "proved",
   "theorems": [
    "C23_thresholds",
    "C23_best_split",
    "C23_defined",
    "C23_small_refuted"
   ],
   "note": "Over any ordered feature type and any gain function; the real-valued criteria are instances. Refuted clause: one- and two-row searches."
  },
  {
   "property": "C24",
   "status": "proved",
   "theorems": [
    "C24_structure",
    "C24_terminates",
    "C24_classifier",
    "C24_classifier_defined",
    "C24_two_rows_refuted"
   ],
   "note": "Structure for every fitted tree; definedness for the classifier with min_samples_split >= 3; refuted clause shown."
  },
  {
   "property": "C25",
   "status": "proved",
   "theorems": [
    "C25_total",
    "C25_classifier",
    "C25_missing_child_refuted",
    "C25_empty_leaf_refuted"
   ],
   "note": "Total when min_samples_leaf is 0; refuted clauses: missing child, and NaN shares of an empty leaf."
  },
  {
   "property": "C26",
   "status": "proved",
   "theorems": [
    "C26_mean",
    "C26_total",
    "C26_defined",
    "C26_tied_maximum_refuted",
    "C26_absolute_error_refuted"
   ],
   "note": "Arithmetic over the reals. Refuted clauses: tied maxima, absolute_error."
  },
  {
   "property": "C27",
   "status": "proved",
   "theorems": [
    "C27_nearest",
    "C27_distance",
    "C27_width_refuted"
   ],
   "note": "Arithmetic over the reals."
  },
  {
   "property": "C28",
   "status": "proved",
   "theorems": [
    "C28_iteration",
    "C28_monotone",
    "C28_run",
    "C28_defined",
    "C28_gain",
    "C28_converges",
    "C28_no_tolerance",
    "C28_assertion_refuted"
   ],
   "note": "Arithmetic over the reals. Proved for builds without Eigen assertions and for one feature; refuted clause: with assertions the first iteration fails for more than one feature."
  },
  {
   "property": "C29",
   "status": "proved",
   "theorems": [
    "C29_plusplus",
    "C29_potential",
    "C29_distinct",
    "C29_zero_draw_refuted",
    "C29_random",
    "C29_other_init_refuted"
   ],
   "note": "Arithmetic over the reals; random numbers are arguments. Refuted clauses: a zero draw repeats a centre; an unknown initialisation name is undefined."
  },
  {
   "property": "C30",
   "status": "proved",
   "theorems": [
    "C30_value",
    "C30_gradient",
    "C30_minimum"
   ],
   "note": "Value, partial derivatives, and the tangent bound (so a zero gradient is a global minimum), for all data and real arithmetic."
  },
  {
   "property": "C31",
   "status": "proved",
   "theorems": [
    "C31_value",
    "C31_gradient",
    "C31_minimum"
   ],
   "note": "Value, partial derivatives, and the tangent bound, for all data and real arithmetic (no overflow of exp)."
  },
  {
   "property": "C32",
   "status": "proved",
   "theorems": [
    "C32_value",
    "C32_gradient",
    "C32_minimum",
    "C32_penalty_refuted"
   ],
   "note": "The lambda clause is stated as a refutation: C32_penalty_refuted covers every lambda <> 0 and every W with an entry different from its row total."
  },
  {
   "property": "C33",
   "status": "partial",
   "theorems": [
    "C33_hinge_value",
    "C33_hinge_subgradient",
    "C33_hinge_refuted",
    "C33_huber_refuted",
    "C33_huber_value_refuted",
    "C33_huber_gradient"
   ],
   "note": "REFUTED for the hinge gradient as a function of its arguments (C33_hinge_refuted) and for Huber (C33_huber_refuted, C33_huber_value_refuted). Proved: hinge value, and the result is the memory's contents plus a true subgradient, entry by entry. HuberLoss does not compile with Eigen and is modelled by its evident meaning."
  },
  {
   "property": "C34",
   "status": "proved",
   "theorems": [
    "C34_step_decay",
    "C34_step_decay_decreasing",
    "C34_step_decay_refuted",
    "C34_step_decay_zero",
    "C34_exponential_sign",
    "C34_exponential_refuted"
   ],
   "note": ""
  },
  {
   "property": "C35",
   "status": "proved",
   "theorems": [
    "C35_vanilla",
    "C35_vanilla_shape",
    "C35_momentum_forgets",
    "C35_momentum_refuted",
    "C35_nesterov_refuted"
   ],
   "note": ""
  },
  {
   "property": "C36",
   "status": "proved",
   "theorems": [
    "C36_exception",
    "C36_returns",
    "C36_total",
    "C36_batch",
    "C36_logistic_sgd",
    "C36_few_samples_refuted",
    "C36_tail_ignored",
    "C36_zero_batch"
   ],
   "note": "For SGD, SAG and TruncatedGradient, for any loss and update; the step is total for logistic regression."
  },
  {
   "property": "C37",
   "status": "proved",
   "theorems": [
    "C37_table",
    "C37_run",
    "C37_step",
    "C37_average_refuted"
   ],
   "note": ""
  },
  {
   "property": "C38",
   "status": "proved",
   "theorems": [
    "C38_truncate",
    "C38_budget",
    "C38_step",
    "C38_run",
    "C38_cumulative_refuted"
   ],
   "note": ""
  },
  {
   "property": "C39",
   "status": "proved",
   "theorems": [
    "C39_step",
    "C39_no_features",
    "C39_monotone",
    "C39_lasso",
    "C39_fixed_point_optimal"
   ],
   "note": ""
  },
  {
   "property": "C40",
   "status": "proved",
   "theorems": [
    "C40_success",
    "C40_decrease",
    "C40_failure",
    "C40_terminates",
    "C40_defined",
    "C40_backtracking_steps",
    "C40_bracketing_steps",
    "C40_armijo_succeeds",
    "C40_armijo_smooth"
   ],
   "note": "Both line searches, all three conditions, any objective (which may fail). C40_success/C40_decrease/C40_failure give the postconditions, C40_terminates the bound on evaluations, C40_defined that no undefined behaviour occurs when the objective is defined and sizes agree, C40_backtracking_steps/C40_bracketing_steps which steps are tried, C40_armijo_succeeds/C40_armijo_smooth when a search must succeed."
  },
  {
   "property": "C41",
   "status": "proved",
   "theorems": [
    "C41_run",
    "C41_symmetric",
    "C41_secant",
    "C41_positive_definite",
    "C41_descent",
    "C41_wolfe_descends",
    "C41_convex_descends",
    "C41_monotone",
    "C41_no_worse",
    "C41_limit_terminates",
    "C41_unlimited_terminates",
    "C41_policy",
    "C41_stationary_start_refuted",
    "C41_uninitialised_refuted",
    "C41_zero_past_refuted",
    "C41_zero_memory_refuted"
   ],
   "note": "C41_run relates the whole optimiser (ring buffer, wrap-around, stopping tests) to the operator definition of L-BFGS; symmetry, secant equation, positive definiteness and descent are proved of that operator. Defects stated as refuted theorems: a stationary start sets no result, past >= 2 compares against memory that was never written (the result depends on it), past = 0 and mem_size = 0 are undefined behaviour. Divisions by a zero curvature product are not modelled as NaN."
  },
  {
   "property": "C42",
   "status": "proved",
   "theorems": [
    "C42_sigmoid",
    "C42_sigmoid_shape",
    "C42_softmax_rows",
    "C42_softmax_columns",
    "C42_softmax_all",
    "C42_softmax_distribution",
    "C42_softmax_shift",
    "C42_softmax_rejects",
    "C42_other_axis_refuted",
    "C42_logsumexp",
    "C42_logsumexp_bounds",
    "C42_gaussian"
   ],
   "note": "Over the reals, for each axis; one-row or one-column input raises in softmax, and other axes are undefined (stated as theorems)."
  },
  {
   "property": "C43",
   "status": "proved",
   "theorems": [
    "C43_weighted",
    "C43_unnormalised",
    "C43_weights_refuted",
    "C43_gini",
    "C43_entropy",
    "C43_degenerate"
   ],
   "note": "Labels over any ordered type, with and without weights; arithmetic over the reals. The clause on the scale of weights is stated as a refutation."
  },
  {
   "property": "C44",
   "status": "proved",
   "theorems": [
    "C44_norms",
    "C44_sum",
    "C44_mean",
    "C44_var",
    "C44_var_nonneg",
    "C44_var_zero",
    "C44_other_axis",
    "C44_other_axis_refuted",
    "C44_center",
    "C44_cov",
    "C44_cov_diagonal",
    "C44_cumsum",
    "C44_median",
    "C44_mode",
    "C44_sign"
   ],
   "note": "Over the reals. Invalid axes raise in sum/mean/var and are undefined in median/cumsum/norm2 (both stated)."
  },
  {
   "property": "C45",
   "status": "proved",
   "theorems": [
    "C45_mean_squared",
    "C45_mean_absolute_refuted",
    "C45_explained_variance",
    "C45_explained_variance_bound",
    "C45_vector_distances",
    "C45_sizes_refuted",
    "C45_minkowski",
    "C45_minkowski_raises"
   ],
   "note": "The mean_absolute_error clause is stated as a refutation; so is the missing size check of the vector distances."
  },
  {
   "property": "C46",
   "status": "proved",
   "theorems": [
    "C46_priors",
    "C46_gaussian_fit",
    "C46_gaussian_prediction",
    "C46_gaussian_prior_refuted",
    "C46_gaussian_asserted_refuted",
    "C46_smoothing",
    "C46_multinomial",
    "C46_multinomial_asserted_refuted",
    "C46_one_feature_refuted",
    "C46_lengths"
   ],
   "note": "Priors, smoothing, multinomial posterior and MAP prediction proved for every data set; Gaussian prediction proved to be the normalised likelihood without priors (so maximal-posterior prediction is refuted for it); undefined behaviour with Eigen's assertions and with one feature proved."
  },
  {
   "property": "C47",
   "status": "proved",
   "theorems": [
    "C47_naive_bayes_refit",
    "C47_naive_bayes_refit_refuted",
    "C47_naive_bayes_index",
    "C47_naive_bayes_labels_refuted",
    "C47_naive_bayes_labels",
    "C47_tree_refit",
    "C47_tree_index",
    "C47_tree_refit_defined"
   ],
   "note": "Both clauses are false of the code and are refuted in general form; exact behaviour of refits and predictions proved for naive Bayes and the decision tree."
  },
  {
   "property": "C48",
   "status": "proved",
   "theorems": [
    "C48_linear",
    "C48_singular_refuted",
    "C48_few_samples_refuted",
    "C48_ridge",
    "C48_linear_residuals",
    "C48_ridge_intercept",
    "C48_lengths"
   ],
   "note": "Unique minimiser over all coefficient vectors; inverse() modelled as elimination with partial pivoting in exact arithmetic. Dependent columns (always with fewer samples than coefficients) give no finite result; ridge penalises the intercept."
  },
  {
   "property": "C49",
   "status": "proved",
   "theorems": [
    "C49_prediction",
    "C49_fitted_prediction",
    "C49_short_rows_refuted",
    "C49_lasso_intercept_refuted",
    "C49_lasso",
    "C49_perceptron_intercept_refuted",
    "C49_perceptron",
    "C49_perceptron_predict",
    "C49_perceptron_labels_refuted",
    "C49_softmax_fit_refuted",
    "C49_softmax_predict",
    "C49_softmax_intercept_refuted",
    "C49_softmax_one_sample_refuted",
    "C49_logistic_solver",
    "C49_logistic_rejects",
    "C49_logistic_sgd",
    "C49_logistic_predict",
    "C49_logistic_swapped_refuted",
    "C49_softmax_step"
   ],
   "note": "Settled clause by clause; the refuted clauses are theorems with the suffix _refuted."
  },
  {
   "property": "C50",
   "status": "proved",
   "theorems": [
    "C50_flip",
    "C50_flip_shape_refuted",
    "C50_flip_zero_refuted",
    "C50_components",
    "C50_optimal",
    "C50_ratio",
    "C50_too_many_refuted",
    "C50_solver_refuted",
    "C50_transform",
    "C50_transform_one_refuted",
    "C50_transform_shift_refuted",
    "C50_covariance",
    "C50_covariance_full",
    "C50_pinv",
    "C50_pinv_cut_refuted",
    "C50_precision",
    "C50_score",
    "C50_stale_refuted",
    "C50_score_refuted",
    "C50_randomized_rejects",
    "C50_randomized_refuted",
    "C50_truncated",
    "C50_power_iterations"
   ],
   "note": "The singular value decomposition, LU and QR of Eigen are oracles constrained by hypotheses on the very calls made (is_svd, orthonormal); real arithmetic. Refuted clauses: transform centres with the mean of the new data, so a single sample always maps to zero and shifts of the new data are invisible; scoring is undefined until get_covariance and get_precision were called and they go stale after a refit; pinv uses an absolute cut-off; asking for too many components or another solver; TruncatedSVD undefined unless components + oversamples equals the number of features; svd_flip zeroes a zero column and needs as many rows of V^T as columns of U."
  },
  {
   "property": "C51",
   "status": "proved",
   "theorems": [
    "C51_outcome",
    "C51_fit",
    "C51_weights",
    "C51_moments",
    "C51_predict",
    "C51_one",
    "C51_ascent",
    "C51_monotone",
    "C51_tied_refuted",
    "C51_arguments_refuted",
    "C51_unfitted_refuted",
    "C51_unregularised_refuted",
    "C51_refit",
    "C51_refit_refuted"
   ],
   "note": "Over R, with the random draws as an argument and the Cholesky factor and triangular solves modelled concretely. usable means covariance_type full, or tied with one component; the other arguments are refuted (UB)."
  },
  {
   "property": "C52",
   "status": "partial",
   "theorems": [
    "C52_many_neighbours_refuted",
    "C52_one_neighbour",
    "C52_defined",
    "C52_one_query",
    "C52_batch_refuted"
   ],
   "note": "REFUTED: C52_many_neighbours_refuted, C52_batch_refuted. Proved: with k = 1 and one query the label of a nearest sample (data whose first column is widest, where tree queries are exact), with k = 1 and several queries one most frequent label. The brute solver, which does not compile, is the subject of C82."
  },
  {
   "property": "C53",
   "status": "proved",
   "theorems": [
    "C53_shuffle_pairs",
    "C53_rows",
    "C53_columns",
    "C53_axis_refuted"
   ],
   "note": "Permutations are arguments of the model."
  },
  {
   "property": "C54",
   "status": "proved",
   "theorems": [
    "C54_logdet",
    "C54_logdet_square_refuted",
    "C54_pca_score",
    "C54_cholesky",
    "C54_cholesky_lower_half",
    "C54_cholesky_symmetry_refuted",
    "C54_lu",
    "C54_lu_permute",
    "C54_lu_product_refuted"
   ],
   "note": "cholesky, lu and logdet are modelled as the algorithms Eigen documents (LLT, full and partial pivoting) over the reals. The documented P L U = x and the check of symmetry are refuted."
  },
  {
   "property": "C55",
   "status": "proved",
   "theorems": [
    "C55_gini",
    "C55_entropy",
    "C55_criterion",
    "C55_squared_error",
    "C55_gini_never_stops_refuted",
    "C55_entropy_splits_impure",
    "C55_regressor_refuses_refuted",
    "C55_useful_split_refused_refuted"
   ],
   "note": "Formulas, bounds and consequences for whole trees; the expectations that min_impurity_decrease/purity stop a Gini tree and that a regression tree takes every useful split are refuted."
  },
  {
   "property": "C56",
   "status": "proved",
   "theorems": [
    "C56_qr"
   ],
   "note": "Householder QR over the reals; Eigen's threshold for a zero tail (the smallest positive number) is taken as 0."
  },
  {
   "property": "C57",
   "status": "proved",
   "theorems": [
    "C57_numbers",
    "C57_table",
    "C57_ends",
    "C57_ragged_refuted",
    "C57_long_lines_refuted",
    "C57_commas_refuted",
    "C57_header_refuted",
    "C57_reload_refuted"
   ],
   "note": "Extraction of integers (any range) and of real numbers (exact, no rounding or overflow) is modelled concretely and proved to meet the contract reads used by the other theorems; unsigned types are not modelled. Refuted clauses are theorems with the suffix _refuted."
  },
  {
   "property": "C58",
   "status": "proved",
   "theorems": [
    "C58_permutation",
    "C58_shuffle",
    "C58_every_order_once",
    "C58_every_shuffle",
    "C58_all_orders_refuted",
    "C58_random_rows",
    "C58_matrix",
    "C58_first_center",
    "C58_first_center_any",
    "C58_no_rows_refuted"
   ],
   "note": "Engine and distributions are parameters with the contract of <random> as hypothesis; std::shuffle is modelled as libstdc++ implements it. Refuted clause (all orders reachable): C58_all_orders_refuted."
  },
  {
   "property": "C59",
   "status": "proved",
   "theorems": [
    "C59_mse",
    "C59_mse_constant",
    "C59_mse_ends",
    "C59_log",
    "C59_log_ends",
    "C59_logistic_regression",
    "C59_large_rate_refuted"
   ],
   "note": "Arithmetic over the reals; batch size equal to the number of samples. The refuted clause shows the bound on the rate is needed."
  },
  {
   "property": "C60",
   "status": "proved",
   "theorems": [
    "C60_classifier",
    "C60_majority",
    "C60_regressor",
    "C60_constant",
    "C60_deeper_classifier",
    "C60_deeper_regressor"
   ],
   "note": "Classifier with min_samples_leaf = 0, regressor with min_samples_leaf <= 1, whenever fit returns (C24, C26 say when it does)."
  },
  {
   "property": "C61",
   "status": "proved",
   "theorems": [
    "C61_formats",
    "C61_exact",
    "C61_completes",
    "C61_radius",
    "C61_orders"
   ],
   "note": "Distances to boxes and to rows are assumed to be added up in the same order; C61_orders shows that there is only one for at most two columns or the Chebyshev metric. Overflow and NaN are not covered."
  },
  {
   "property": "C62",
   "status": "proved",
   "theorems": [
    "C62_formats",
    "C62_sigmoid",
    "C62_softmax",
    "C62_softmax_rejects",
    "C62_softmax_loss",
    "C62_softmax_loss_refuted"
   ],
   "note": "The exponential is any function with the stated properties; the correctly rounded exponential is an instance. Softmax along columns and over the whole matrix is not modelled with rounding."
  },
  {
   "property": "C63",
   "status": "proved",
   "theorems": [
    "C63_split",
    "C63_split_refuted",
    "C63_threshold",
    "C63_neighbours_refuted"
   ],
   "note": "In C63_neighbours_refuted only the thresholds are rounded."
  },
  {
   "property": "C64",
   "status": "proved",
   "theorems": [
    "C64_distance",
    "C64_mean_monotone",
    "C64_mean_refuted",
    "C64_candidate",
    "C64_candidate_refuted",
    "C64_truncate"
   ],
   "note": "Includes the two refuted clauses as theorems about doubles."
  },
  {
   "property": "C65",
   "status": "proved",
   "theorems": [
    "C65_classifier",
    "C65_regressor",
    "C65_naive_bayes",
    "C65_least_squares",
    "C65_lasso",
    "C65_losses",
    "C65_softmax_loss",
    "C65_lbfgs",
    "C65_kmeans",
    "C65_statistics",
    "C65_sgd_refuted",
    "C65_neighbours",
    "C65_apriori_refuted"
   ],
   "note": "Exact arithmetic; k-means and neighbours under the shape hypotheses of C27/C10; the two exceptions are stated as refuted."
  },
  {
   "property": "C66",
   "status": "proved",
   "theorems": [
    "C66_kdtree",
    "C66_kdtree_default",
    "C66_kdtree_metric_refuted",
    "C66_knn",
    "C66_knn_solver_refuted",
    "C66_knn_default_refuted",
    "C66_logistic_gradient",
    "C66_logistic_scd",
    "C66_logistic_arguments",
    "C66_penalty_none",
    "C66_penalty_none_refuted",
    "C66_logistic_newton",
    "C66_logistic_newton_refuted",
    "C66_logistic_mixed_refuted",
    "C66_logistic_no_policy",
    "C66_logistic_default",
    "C66_perceptron",
    "C66_perceptron_check_refuted",
    "C66_perceptron_arguments",
    "C66_softmax",
    "C66_regressions",
    "C66_kmeans",
    "C66_kmeans_refit",
    "C66_kmeans_init_refuted",
    "C66_unfitted_refuted",
    "C66_getters_refuted",
    "C66_kmeans_default"
   ],
   "note": "Objects of linear_model, k-means, trees and Gaussian naive Bayes; Gaussian mixture and PCA objects are in C50/C51."
  },
  {
   "property": "C67",
   "status": "proved",
   "theorems": [
    "C67_classifier",
    "C67_regressor",
    "C67_kmeans_predict",
    "C67_kmeans_lloyd",
    "C67_kmeans_fit",
    "C67_least_squares",
    "C67_targets",
    "C67_statistics",
    "C67_pca",
    "C67_naive_bayes",
    "C67_one_feature_refuted",
    "C67_ridge_refuted",
    "C67_neighbours",
    "C67_monotone_classifier",
    "C67_monotone_regressor",
    "C67_unseen_refuted"
   ],
   "note": "Exact arithmetic. Trees: conversion commutes with growing and walking (grow_hom); for general increasing maps the trees agree on which training rows each threshold separates (grow_mono). The clauses that are false without the conditions are stated as refuted theorems."
  },
  {
   "property": "C68",
   "status": "proved",
   "theorems": [
    "C68_predict",
    "C68_predict_nan",
    "C68_predict_overflow_refuted",
    "C68_train_nan",
    "C68_plusplus_nan",
    "C68_tree",
    "C68_query_nan",
    "C68_query_infinite",
    "C68_query_overflow_refuted",
    "C68_sgd",
    "C68_sgd_weights",
    "C68_sgd_infinite_refuted"
   ],
   "note": "The last sentence is stated as the theorems C68_predict_overflow_refuted, C68_query_overflow_refuted and C68_sgd_infinite_refuted. Chebyshev queries and fused multiply-add are outside the double model."
  },
  {
   "property": "C69",
   "status": "proved",
   "theorems": [
    "C69_nearest",
    "C69_completes",
    "C69_radius",
    "C69_distance"
   ],
   "note": "IEEE doubles (Flocq) related to the rounding model of C61. The hypothesis on the first column is that of C10 and C61 (the code is wrong without it, see C11)."
  },
  {
   "property": "C70",
   "status": "proved",
   "theorems": [
    "C70_distance",
    "C70_double_distance",
    "C70_zero",
    "C70_underflow_refuted",
    "C70_nearest",
    "C70_radius"
   ],
   "note": "Error bounds for binary64, any order of summation; C70_underflow_refuted settles the clause marked false. Queries under the hypotheses of C69."
  },
  {
   "property": "C71",
   "status": "proved",
   "theorems": [
    "C71_mean",
    "C71_linear",
    "C71_perceptron",
    "C71_perceptron_refuted"
   ],
   "note": "Error bounds for binary64, any order of summation, no overflow; C71_perceptron_refuted settles the clause marked false."
  },
  {
   "property": "C72",
   "status": "proved",
   "theorems": [
    "C72_supports",
    "C72_rules",
    "C72_confidence",
    "C72_fraction",
    "C72_ends",
    "C72_negative_refuted",
    "C72_supports_refuted",
    "C72_confidence_refuted"
   ],
   "note": "Thresholds and confidences rounded to doubles (Flocq), on top of the exact frequent-itemset theorem.  Two clauses are stated as refuted: an itemset below the written fraction is found, and a rule below the double threshold is reported."
  },
  {
   "property": "C73",
   "status": "proved",
   "theorems": [
    "C73_travel",
    "C73_rates",
    "C73_perceptron_travel",
    "C73_logistic_travel",
    "C73_zero_labels_refuted",
    "C73_decay_refuted",
    "C73_separates",
    "C73_learns",
    "C73_constant_rate"
   ],
   "note": "The two natural readings that fail (small rates, labels 0) are the _refuted theorems; the gradient buffer is taken as zeroed because HingeLoss does not initialise it (C33)"
  },
  {
   "property": "C74",
   "status": "proved",
   "theorems": [
    "C74_rate",
    "C74_lasso",
    "C74_lasso_limit",
    "C74_small_curvature_refuted",
    "C74_logistic"
   ],
   "note": "Rate 2dC/k for any convex loss, for the lasso and for l1 logistic regression; convergence to the minimum; divergence when l1_ratio is below the curvature."
  },
  {
   "property": "C75",
   "status": "proved",
   "theorems": [
    "C75_losses",
    "C75_softmax_loss",
    "C75_lbfgs",
    "C75_lasso",
    "C75_gradient_descent",
    "C75_least_squares",
    "C75_ridge_refuted",
    "C75_kmeans",
    "C75_gaussian_nb",
    "C75_multinomial_nb",
    "C75_statistics",
    "C75_classifier_refuted",
    "C75_regressor_refuted",
    "C75_apriori_no_more",
    "C75_apriori",
    "C75_apriori_refuted"
   ],
   "note": "Positive parts for all data, k and orders; ridge with an unchanged penalty, Apriori with a fractional threshold, and both trees are stated as _refuted theorems. Exact arithmetic."
  },
  {
   "property": "C76",
   "status": "proved",
   "theorems": [
    "C76_losses",
    "C76_softmax_loss",
    "C76_sgd",
    "C76_sag",
    "C76_truncated_gradient",
    "C76_lbfgs",
    "C76_least_squares",
    "C76_logistic",
    "C76_perceptron",
    "C76_kmeans",
    "C76_gaussian_nb",
    "C76_multinomial_nb",
    "C76_statistics",
    "C76_distances",
    "C76_tree_split",
    "C76_classifier_refuted",
    "C76_lasso_refuted"
   ],
   "note": "Exact arithmetic. Every run on reordered columns is related step by step to the run on the original ones; the clauses about ties between features are stated as refuted with computed witnesses. Naive Bayes needs at least two features (with one, fit is undefined, see C40)."
  },
  {
   "property": "C77",
   "status": "proved",
   "theorems": [
    "C77_logsumexp",
    "C77_probabilities",
    "C77_probabilities_sum_refuted",
    "C77_impossible_refuted",
    "C77_softmax",
    "C77_sigmoid",
    "C77_log_loss",
    "C77_log_loss_refuted",
    "C77_logistic_fit",
    "C77_logistic_start_refuted"
   ],
   "note": "Settled in both directions: the bounds hold for every table; the clauses that fail (sums, impossible samples, the NaN loss, the start that is already right) are stated as refutations for all such inputs. The library's exp and log are arguments; DProb_Cases shows a pair that meets what is assumed."
  },
  {
   "property": "C78",
   "status": "proved",
   "theorems": [
    "C78_mse",
    "C78_log",
    "C78_logistic_regression",
    "C78_exact",
    "C78_exact_ends",
    "C78_recorded_refuted"
   ],
   "note": "Real arithmetic; the rates are bounded by the inverse curvature and the condition `unclipped` excludes clipped gradients. The clause about the recorded loss is refuted by a theorem."
  },
  {
   "property": "C79",
   "status": "proved",
   "theorems": [
    "C79_momentum",
    "C79_nesterov",
    "C79_truncated",
    "C79_sag",
    "C79_logistic_sag",
    "C79_sag_converges",
    "C79_same_settings_refuted"
   ],
   "note": "Equality of outcomes (failures included) by simulation; the claim that SAG and SGD agree with the same settings is refuted by a witness."
  },
  {
   "property": "C80",
   "status": "proved",
   "theorems": [
    "C80_support",
    "C80_rules",
    "C80_outcome_refuted",
    "C80_range",
    "C80_stronger_left",
    "C80_history",
    "C80_same_again",
    "C80_mixed_refuted"
   ],
   "note": "Thresholds as exact rationals (for doubles see C72). Non-monotone outcomes and mixed histories are stated as refuted clauses with witnesses."
  },
  {
   "property": "C81",
   "status": "proved",
   "theorems": [
    "C81_ridge_path",
    "C81_ridge_linear",
    "C81_ridge_bounds",
    "C81_ridge_mixed",
    "C81_linear_mixed",
    "C81_ridge_stable",
    "C81_lasso_zero",
    "C81_lasso_path",
    "C81_logistic"
   ],
   "note": "Ridge path, comparison with least squares, bounds, linearity and stability in the labels for all data; the lasso's zero result for every run, and the path for resting points of coordinate descent; the ball of logistic regression under the conditions of C59. Over the reals."
  },
  {
   "property": "C82",
   "status": "proved",
   "theorems": [
    "C82_vote_refuted",
    "C82_never_a_label",
    "C82_few_samples",
    "C82_metric",
    "C82_width_refuted"
   ],
   "note": "REFUTED for every training set (C82_vote_refuted, C82_never_a_label); the error cases are proved. brute_force does not compile and is modelled by its evident meaning."
  },
  {
   "property": "C83",
   "status": "proved",
   "theorems": [
    "C83_samples_refuted",
    "C83_laplacian",
    "C83_semidefinite"
   ],
   "note": "REFUTED for samples (C83_samples_refuted); proved for the features that are compared instead. The header does not compile, laplace_matrix is modelled by its evident meaning; fit_transform and predict are not modelled."
  }
 ]
}