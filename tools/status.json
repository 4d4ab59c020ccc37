{
 "C01": [
  "proved",
  "Exact counts for every leaf capacity, fan-out >= 1 and call history of one-length itemsets."
 ],
 "C02": [
  "proved",
  "Termination for every history; safety for fan-out >= 1 and one itemset length; the two excluded cases are shown to be undefined behaviour or to lose data."
 ],
 "C03": [
  "partial",
  "REFUTED as documented: the second identical query returns the answer twice. The exact accumulating behaviour is proved."
 ],
 "C04": [
  "proved",
  ""
 ],
 "C05": [
  "proved",
  "The clause on unordered databases is settled by the witness theorem."
 ],
 "C06": [
  "proved",
  "A witness shows the ordering precondition is needed."
 ],
 "C07": [
  "proved",
  "Stated end to end for fit_transform on a fresh object; confidence is an exact rational."
 ],
 "C08": [
  "proved",
  "Termination and the exception set hold on every database; the exact conditions hold on ordered ones."
 ],
 "C09": [
  "proved",
  "Partition, cuts and definedness hold for every matrix; 'boxes contain their rows' holds when column 0 has the widest spread and is refuted otherwise (C09_boxes_refuted)."
 ],
 "C10": [
  "proved",
  "Exactness under the stated proviso (column 0 widest, so that the boxes contain their rows) for every k, metric and tie-breaking; refuted otherwise. Leaves of 1 or 2 rows make the query undefined (C10_small_leaf_refuted); with leaf_size >= 5 and n >= 6 it always completes."
 ],
 "C11": [
  "partial",
  "REFUTED as stated: rows at exactly the radius are lost, and when column 0 is not the widest also rows inside. Proved: soundness for all trees, completeness strictly inside the radius when column 0 is the widest."
 ],
 "C12": [
  "proved",
  "Alignment of query proved; alignment of query_radius refuted (C12_radius_refuted) and characterised exactly (C12_radius_nonempty)."
 ],
 "C13": [
  "proved",
  "Rows, columns, whole matrix and invalid axis; plus the pair overload."
 ],
 "C14": [
  "proved",
  "Matrix argsort for lines of length >= 3, matrix and vector sort; lines of length 1 and 2 and the std::vector argsort are shown wrong/undefined."
 ],
 "C15": [
  "proved",
  "Values and positions characterised; the documented meaning of the indices is refuted."
 ],
 "C16": [
  "proved",
  "Exactly the ascending position choices, in lexicographic order, with the binomial count."
 ],
 "C17": [
  "proved",
  "First occurrences in order, termination included; empty input raises."
 ],
 "C18": [
  "proved",
  "All five utilities; the default unsorted mode of difference is refuted on unsorted input."
 ],
 "C19": [
  "proved",
  "Distinct rows sorted, equal rows undefined, empty raises."
 ],
 "C20": [
  "proved",
  "Including the wrong column check of the 2-d slice and the always-out-of-range 1-d slice."
 ],
 "C21": [
  "proved",
  "All row counts, ratios in [0,1] and permutations drawn by the shuffle."
 ],
 "C22": [
  "proved",
  ""
 ],
 "C23": [
  "proved",
  "Over any ordered feature type and any gain function; the real-valued criteria are instances. Refuted clause: one- and two-row searches."
 ],
 "C24": [
  "proved",
  "Structure for every fitted tree; definedness for the classifier with min_samples_split >= 3; refuted clause shown."
 ],
 "C25": [
  "proved",
  "Total when min_samples_leaf is 0; refuted clauses: missing child, and NaN shares of an empty leaf."
 ],
 "C26": [
  "proved",
  "Arithmetic over the reals. Refuted clauses: tied maxima, absolute_error."
 ],
 "C27": [
  "proved",
  "Arithmetic over the reals."
 ],
 "C28": [
  "proved",
  "Arithmetic over the reals. Proved for builds without Eigen assertions and for one feature; refuted clause: with assertions the first iteration fails for more than one feature."
 ],
 "C29": [
  "proved",
  "Arithmetic over the reals; random numbers are arguments. Refuted clauses: a zero draw repeats a centre; an unknown initialisation name is undefined."
 ],
 "C30": [
  "proved",
  "Value, partial derivatives, and the tangent bound (so a zero gradient is a global minimum), for all data and real arithmetic."
 ],
 "C31": [
  "proved",
  "Value, partial derivatives, and the tangent bound, for all data and real arithmetic (no overflow of exp)."
 ],
 "C32": [
  "proved",
  "The lambda clause is stated as a refutation: C32_penalty_refuted covers every lambda <> 0 and every W with an entry different from its row total."
 ],
 "C33": [
  "partial",
  "REFUTED for the hinge gradient as a function of its arguments (C33_hinge_refuted) and for Huber (C33_huber_refuted, C33_huber_value_refuted). Proved: hinge value, and the result is the memory's contents plus a true subgradient, entry by entry. HuberLoss does not compile with Eigen and is modelled by its evident meaning."
 ],
 "C34": [
  "proved",
  ""
 ],
 "C35": [
  "proved",
  ""
 ],
 "C36": [
  "proved",
  "For SGD, SAG and TruncatedGradient, for any loss and update; the step is total for logistic regression."
 ],
 "C37": [
  "proved",
  ""
 ],
 "C38": [
  "proved",
  ""
 ],
 "C39": [
  "proved",
  ""
 ],
 "C40": [
  "proved",
  "Both line searches, all three conditions, any objective (which may fail). C40_success/C40_decrease/C40_failure give the postconditions, C40_terminates the bound on evaluations, C40_defined that no undefined behaviour occurs when the objective is defined and sizes agree, C40_backtracking_steps/C40_bracketing_steps which steps are tried, C40_armijo_succeeds/C40_armijo_smooth when a search must succeed."
 ],
 "C41": [
  "proved",
  "C41_run relates the whole optimiser (ring buffer, wrap-around, stopping tests) to the operator definition of L-BFGS; symmetry, secant equation, positive definiteness and descent are proved of that operator. Defects stated as refuted theorems: a stationary start sets no result, past >= 2 compares against memory that was never written (the result depends on it), past = 0 and mem_size = 0 are undefined behaviour. Divisions by a zero curvature product are not modelled as NaN."
 ],
 "C42": [
  "proved",
  "Over the reals, for each axis; one-row or one-column input raises in softmax, and other axes are undefined (stated as theorems)."
 ],
 "C43": [
  "proved",
  "Labels over any ordered type, with and without weights; arithmetic over the reals. The clause on the scale of weights is stated as a refutation."
 ],
 "C44": [
  "proved",
  "Over the reals. Invalid axes raise in sum/mean/var and are undefined in median/cumsum/norm2 (both stated)."
 ],
 "C45": [
  "proved",
  "The mean_absolute_error clause is stated as a refutation; so is the missing size check of the vector distances."
 ],
 "C46": [
  "proved",
  "Priors, smoothing, multinomial posterior and MAP prediction proved for every data set; Gaussian prediction proved to be the normalised likelihood without priors (so maximal-posterior prediction is refuted for it); undefined behaviour with Eigen's assertions and with one feature proved."
 ],
 "C47": [
  "proved",
  "Both clauses are false of the code and are refuted in general form; exact behaviour of refits and predictions proved for naive Bayes and the decision tree."
 ],
 "C48": [
  "proved",
  "Unique minimiser over all coefficient vectors; inverse() modelled as elimination with partial pivoting in exact arithmetic. Dependent columns (always with fewer samples than coefficients) give no finite result; ridge penalises the intercept."
 ],
 "C49": [
  "proved",
  "Settled clause by clause; the refuted clauses are theorems with the suffix _refuted."
 ],
 "C50": [
  "proved",
  "The singular value decomposition, LU and QR of Eigen are oracles constrained by hypotheses on the very calls made (is_svd, orthonormal); real arithmetic. Refuted clauses: transform centres with the mean of the new data, so a single sample always maps to zero and shifts of the new data are invisible; scoring is undefined until get_covariance and get_precision were called and they go stale after a refit; pinv uses an absolute cut-off; asking for too many components or another solver; TruncatedSVD undefined unless components + oversamples equals the number of features; svd_flip zeroes a zero column and needs as many rows of V^T as columns of U."
 ],
 "C51": [
  "proved",
  "Over R, with the random draws as an argument and the Cholesky factor and triangular solves modelled concretely. usable means covariance_type full, or tied with one component; the other arguments are refuted (UB)."
 ],
 "C52": [
  "partial",
  "REFUTED: C52_many_neighbours_refuted, C52_batch_refuted. Proved: with k = 1 and one query the label of a nearest sample (data whose first column is widest, where tree queries are exact), with k = 1 and several queries one most frequent label. The brute solver, which does not compile, is the subject of C82."
 ],
 "C53": [
  "proved",
  "Permutations are arguments of the model."
 ],
 "C54": [
  "proved",
  "cholesky, lu and logdet are modelled as the algorithms Eigen documents (LLT, full and partial pivoting) over the reals. The documented P L U = x and the check of symmetry are refuted."
 ],
 "C55": [
  "proved",
  "Formulas, bounds and consequences for whole trees; the expectations that min_impurity_decrease/purity stop a Gini tree and that a regression tree takes every useful split are refuted."
 ],
 "C56": [
  "proved",
  "Householder QR over the reals; Eigen's threshold for a zero tail (the smallest positive number) is taken as 0."
 ],
 "C57": [
  "proved",
  "Extraction of integers (any range) and of real numbers (exact, no rounding or overflow) is modelled concretely and proved to meet the contract reads used by the other theorems; unsigned types are not modelled. Refuted clauses are theorems with the suffix _refuted."
 ],
 "C58": [
  "proved",
  "Engine and distributions are parameters with the contract of <random> as hypothesis; std::shuffle is modelled as libstdc++ implements it. Refuted clause (all orders reachable): C58_all_orders_refuted."
 ],
 "C59": [
  "proved",
  "Arithmetic over the reals; batch size equal to the number of samples. The refuted clause shows the bound on the rate is needed."
 ],
 "C60": [
  "proved",
  "Classifier with min_samples_leaf = 0, regressor with min_samples_leaf <= 1, whenever fit returns (C24, C26 say when it does)."
 ],
 "C61": [
  "proved",
  "Distances to boxes and to rows are assumed to be added up in the same order; C61_orders shows that there is only one for at most two columns or the Chebyshev metric. Overflow and NaN are not covered."
 ],
 "C62": [
  "proved",
  "The exponential is any function with the stated properties; the correctly rounded exponential is an instance. Softmax along columns and over the whole matrix is not modelled with rounding."
 ],
 "C63": [
  "proved",
  "In C63_neighbours_refuted only the thresholds are rounded."
 ],
 "C64": [
  "proved",
  "Includes the two refuted clauses as theorems about doubles."
 ],
 "C65": [
  "proved",
  "Exact arithmetic; k-means and neighbours under the shape hypotheses of C27/C10; the two exceptions are stated as refuted."
 ],
 "C66": [
  "proved",
  "Objects of linear_model, k-means, trees and Gaussian naive Bayes; Gaussian mixture and PCA objects are in C50/C51."
 ],
 "C67": [
  "proved",
  "Exact arithmetic. Trees: conversion commutes with growing and walking (grow_hom); for general increasing maps the trees agree on which training rows each threshold separates (grow_mono). The clauses that are false without the conditions are stated as refuted theorems."
 ],
 "C68": [
  "proved",
  "The last sentence is stated as the theorems C68_predict_overflow_refuted, C68_query_overflow_refuted and C68_sgd_infinite_refuted. Chebyshev queries and fused multiply-add are outside the double model."
 ],
 "C69": [
  "proved",
  "IEEE doubles (Flocq) related to the rounding model of C61. The hypothesis on the first column is that of C10 and C61 (the code is wrong without it, see C11)."
 ],
 "C70": [
  "proved",
  "Error bounds for binary64, any order of summation; C70_underflow_refuted settles the clause marked false. Queries under the hypotheses of C69."
 ],
 "C71": [
  "proved",
  "Error bounds for binary64, any order of summation, no overflow; C71_perceptron_refuted settles the clause marked false."
 ],
 "C72": [
  "proved",
  "Thresholds and confidences rounded to doubles (Flocq), on top of the exact frequent-itemset theorem.  Two clauses are stated as refuted: an itemset below the written fraction is found, and a rule below the double threshold is reported."
 ],
 "C73": [
  "proved",
  "The two natural readings that fail (small rates, labels 0) are the _refuted theorems; the gradient buffer is taken as zeroed because HingeLoss does not initialise it (C33)"
 ],
 "C74": [
  "proved",
  "Rate 2dC/k for any convex loss, for the lasso and for l1 logistic regression; convergence to the minimum; divergence when l1_ratio is below the curvature."
 ],
 "C75": [
  "proved",
  "Positive parts for all data, k and orders; ridge with an unchanged penalty, Apriori with a fractional threshold, and both trees are stated as _refuted theorems. Exact arithmetic."
 ],
 "C76": [
  "proved",
  "Exact arithmetic. Every run on reordered columns is related step by step to the run on the original ones; the clauses about ties between features are stated as refuted with computed witnesses. Naive Bayes needs at least two features (with one, fit is undefined, see C40)."
 ],
 "C77": [
  "proved",
  "Settled in both directions: the bounds hold for every table; the clauses that fail (sums, impossible samples, the NaN loss, the start that is already right) are stated as refutations for all such inputs. The library's exp and log are arguments; DProb_Cases shows a pair that meets what is assumed."
 ],
 "C78": [
  "proved",
  "Real arithmetic; the rates are bounded by the inverse curvature and the condition `unclipped` excludes clipped gradients. The clause about the recorded loss is refuted by a theorem."
 ],
 "C79": [
  "proved",
  "Equality of outcomes (failures included) by simulation; the claim that SAG and SGD agree with the same settings is refuted by a witness."
 ],
 "C80": [
  "proved",
  "Thresholds as exact rationals (for doubles see C72). Non-monotone outcomes and mixed histories are stated as refuted clauses with witnesses."
 ],
 "C81": [
  "proved",
  "Ridge path, comparison with least squares, bounds, linearity and stability in the labels for all data; the lasso's zero result for every run, and the path for resting points of coordinate descent; the ball of logistic regression under the conditions of C59. Over the reals."
 ],
 "C82": [
  "proved",
  "REFUTED for every training set (C82_vote_refuted, C82_never_a_label); the error cases are proved. brute_force does not compile and is modelled by its evident meaning."
 ],
 "C83": [
  "proved",
  "REFUTED for samples (C83_samples_refuted); proved for the features that are compared instead. The header does not compile, laplace_matrix is modelled by its evident meaning; fit_transform and predict are not modelled."
 ]
}