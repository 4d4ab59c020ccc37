{"id": "C01", "title": "Hash tree counts exactly like a table of candidates", "statement": "After registering any list of itemsets of one common length k>=1 with build_tree and then counting any list of k-element itemsets with add_support, compute_frequency_itemsets(s) returns exactly the distinct registered itemsets whose number of occurrences in the counted list is at least s, each once, each paired with that number; bucket and fan-out limits are unobservable.", "quantifier": "all leaf capacities, all fan-outs >= 1, all candidate lists, all counted lists, all thresholds", "why_tests_cant": "the answer must not depend on when leaves split or how items collide under the hash; the combinations of capacities, insertion orders and collisions are unbounded", "anchors": ["src/core/tree/hash_tree.hpp: HashTree::build_tree, add_support, compute_frequency_itemsets, insert, dfs"]}
{"id": "C02", "title": "Hash tree memory safety and its limits", "statement": "With itemsets of one common length k and fan-out >= 1 no operation sequence reads past an itemset or divides by zero and insertion terminates with recursion depth at most k; with fan-out 0, or with itemsets of different lengths, there are call sequences with undefined behaviour or with a registered itemset that is never reported.", "quantifier": "all operation sequences over the hash-tree API", "why_tests_cant": "absence of undefined behaviour must hold for every call history", "anchors": ["src/core/tree/hash_tree.hpp: HashTree::insert, hash, add_support"]}
{"id": "C03", "title": "Repeating a hash-tree frequency query", "statement": "compute_frequency_itemsets is a query: calling it again with the same threshold returns the same list. (The code appends to member lists that are never cleared, so the second answer repeats every itemset: refuted, with the exact accumulated result characterised.)", "quantifier": "all reachable trees and all sequences of queries", "why_tests_cant": "history-dependent behaviour: a single-call test never sees it", "anchors": ["src/core/tree/hash_tree.hpp: HashTree::compute_frequency_itemsets, dfs"]}
{"id": "C04", "title": "Transaction encoding", "statement": "TransactionEncoder::fit_transform returns a matrix with one row per transaction and one column per distinct item in ascending item order, whose stored entries are exactly the pairs (transaction, item) such that the transaction contains the item, each stored once, with the item itself as value, whatever the order and multiplicity of items in the transaction.", "quantifier": "all lists of transactions", "why_tests_cant": "must hold for every dataset, including duplicates and empty transactions", "anchors": ["src/core/preprocessing/transaction_encoder.hpp: TransactionEncoder::fit_transform"]}
{"id": "C05", "title": "Apriori reports true support counts", "statement": "For a database whose transactions are strictly increasing lists and whose items first appear in ascending order, every itemset recorded as frequent is recorded with exactly the number of transactions that contain it, and that number is at least the threshold floor(n*min_support).  Without the ordering precondition counts can be wrong (refutation with a witness).", "quantifier": "all ordered databases and thresholds; any number of mining levels", "why_tests_cant": "correctness of the level-wise counting has to hold for every database", "anchors": ["src/methods/rule_model/apriori.hpp: Apriori::fit_data"]}
{"id": "C06", "title": "Apriori misses no frequent itemset", "statement": "Under the same ordering precondition, whenever mining completes without exception the recorded itemsets are exactly the non-empty item sets contained in at least the threshold number of transactions, each recorded once.", "quantifier": "all ordered databases, thresholds >= 1", "why_tests_cant": "completeness quantifies over all 2^m candidate itemsets of every database", "anchors": ["src/methods/rule_model/apriori.hpp: Apriori::fit_data, is_prefix, generate_k_subsets"]}
{"id": "C07", "title": "Association rules are sound and complete", "statement": "Every rule (A => B, c) returned satisfies: A and B are non-empty disjoint parts of a frequent itemset I, A union B = I, c = support(I)/support(A) and c >= min_confidence; and every such split of a recorded itemset is returned.", "quantifier": "all frequency tables of strictly increasing itemsets", "why_tests_cant": "all subsets of all itemsets of every table", "anchors": ["src/methods/rule_model/apriori.hpp: Apriori::transform_data, src/core/common.hpp: combinations, difference"]}
{"id": "C08", "title": "Apriori mining terminates, and when it raises", "statement": "Level-wise mining terminates on every database; it ends normally only if some level leaves exactly one frequent itemset, and it raises an exception when a level (with at least two candidates' parents) has no frequent itemset, although itemsets were found.", "quantifier": "all databases and thresholds", "why_tests_cant": "termination for every input", "anchors": ["src/methods/rule_model/apriori.hpp: Apriori::fit_data; src/core/common.hpp: sortrows"]}
{"id": "C09", "title": "KD-tree partitions the data", "statement": "After construction every training row index belongs to exactly one leaf, every internal node's cut value separates its two children along its axis, and each child's stored box contains exactly what its rows require.", "quantifier": "all data sets and leaf sizes for which construction is defined", "why_tests_cant": "structural invariant over all data sets", "anchors": ["src/core/tree/kd_tree.hpp: KDTree::build_tree, find_partition_axis"]}
{"id": "C10", "title": "KD-tree k-nearest-neighbour queries are exact", "statement": "query returns the k training rows closest to the query point under the chosen metric (as a multiset of distances, in order), provided the boxes used for pruning contain the rows of their subtree; the code's root boxes do not when the first split axis is not column 0 (refuted with a witness).", "quantifier": "all data sets, query points, k <= n, metrics", "why_tests_cant": "branch-and-bound pruning must be right for every geometry", "anchors": ["src/core/tree/kd_tree.hpp: KDTree::query, query_single_data, check_intersection, compute_distance"]}
{"id": "C11", "title": "KD-tree radius queries are exact", "statement": "query_radius returns exactly the training rows within the radius; rows at exactly the radius (in particular duplicates of the query point with radius 0) can be lost because the box test is strict (refuted with a witness).", "quantifier": "all data sets, query points and radii", "why_tests_cant": "pruning correctness for every geometry", "anchors": ["src/core/tree/kd_tree.hpp: KDTree::query_radius, query_radius_single_data"]}
{"id": "C12", "title": "KD-tree answers are aligned with the queries", "statement": "query returns one row of results per query row, in order; query_radius returns one result per query row in order (refuted: empty results are dropped, so later answers shift).", "quantifier": "all batches of queries", "why_tests_cant": "batch composition is unbounded", "anchors": ["src/core/tree/kd_tree.hpp: KDTree::query, query_radius"]}
{"id": "C13", "title": "argmax / argmin", "statement": "argmax (argmin) returns, per column, per row or overall, the smallest index at which the maximum (minimum) is attained; other axis values raise invalid_argument.", "quantifier": "all matrices and axes", "why_tests_cant": "all sizes and tie patterns", "anchors": ["src/core/common.hpp: argmax, argmin, max_element"]}
{"id": "C14", "title": "argsort / sort", "statement": "sort returns each row or each column in ascending order, with the same multiset of values; argsort returns for every line a permutation of its positions that lists the values in ascending order; with lines of length 1 or 2 the initial index vector is out of range and the call is undefined.", "quantifier": "all matrices and axes", "why_tests_cant": "sizes and ties are unbounded", "anchors": ["src/core/common.hpp: argsort, sort"]}
{"id": "C15", "title": "unique", "statement": "unique returns the distinct values in strictly increasing order; the accompanying indices are positions of first occurrence in the sorted copy, not in the argument as documented (refuted with a witness).", "quantifier": "all vectors", "why_tests_cant": "all inputs", "anchors": ["src/core/common.hpp: unique"]}
{"id": "C16", "title": "combinations", "statement": "combinations(v,k) returns exactly the k-element selections of v by position, each selection once, keeping the order of v; their number is binomial(n,k); none if k>n.", "quantifier": "all vectors and k", "why_tests_cant": "2^n selections", "anchors": ["src/core/common.hpp: combinations"]}
{"id": "C17", "title": "remove_duplicate_rows keeps first occurrences", "statement": "remove_duplicate_rows terminates, never reads or erases out of range, and returns the rows of the argument with every later duplicate removed, the survivors in original order.", "quantifier": "all lists of rows", "why_tests_cant": "index arithmetic while erasing must be right for every pattern of duplicates", "anchors": ["src/core/common.hpp: remove_duplicate_rows"]}
{"id": "C18", "title": "Set utilities: contains, difference, merge, where, clip", "statement": "contains(v1,v2) is true iff every element of v1 occurs in v2; difference of sorted duplicate-free vectors is the set difference in ascending order; merge alternates and then appends the rest, a permutation of the two inputs; where returns ascending positions of matches; clip is the projection onto the interval.", "quantifier": "all vectors", "why_tests_cant": "all inputs", "anchors": ["src/core/common.hpp: contains, difference, merge, where, clip"]}
{"id": "C19", "title": "sortrows orders rows lexicographically", "statement": "sortrows of a non-empty list of pairwise distinct equally long rows returns the same rows in strictly increasing lexicographic order; empty input raises; equal rows reach a comparator path without return value (undefined behaviour).", "quantifier": "all lists of rows", "why_tests_cant": "all inputs", "anchors": ["src/core/common.hpp: sortrows"]}
{"id": "C20", "title": "Shape utilities: hstack, vstack, repeat, flatten, vec2mat, slice", "statement": "hstack/vstack concatenate and raise on mismatching sizes; repeat tiles; flatten reads row by row and inverts vec2mat; ragged or empty input to vec2mat raises; slice of vectors is characterised including its out-of-range accesses. fmin keeps the shape and takes the smaller of every entry and the bound; is_equal tells whether two vectors are the same except when the second is a proper prefix of the first, when it reads past the end of the second.", "quantifier": "all matrices, vectors and indices", "why_tests_cant": "all shapes", "anchors": ["src/core/common.hpp: hstack, vstack, repeat, flatten, vec2mat, slice"]}
{"id": "C21", "title": "train_test_split partitions the samples", "statement": "The training and test parts together contain every (row, label) pair exactly as often as the input, pairs stay together, the training part has floor(n*train_size) rows, and without shuffling the order is kept.", "quantifier": "all data sets, ratios and random permutations", "why_tests_cant": "all shuffles", "anchors": ["src/core/data/split.hpp: train_test_split; src/core/math/shuffle.hpp: shuffle_data"]}
{"id": "C22", "title": "divide_on_feature partitions the rows", "statement": "divide_on_feature sends each row to the left part iff its feature value is <= the threshold, keeps order within each part, and loses no row.", "quantifier": "all data sets, features, thresholds", "why_tests_cant": "all inputs", "anchors": ["src/core/data/split.hpp: divide_on_feature"]}
{"id": "C23", "title": "Decision-tree split search is optimal", "statement": "best_split returns, among all features and all midpoints between neighbouring values of the sorted feature column (a tied value is its own midpoint), one whose impurity gain is maximal (first in search order) and exceeds the minimum, or reports that none does; (refuted: on one or two rows the search is undefined).", "quantifier": "all data sets and impurity functions", "why_tests_cant": "all candidates of all data sets", "anchors": ["src/methods/tree/base.hpp: DecisionTree::best_split, choose_feature_threshold"]}
{"id": "C24", "title": "Decision-tree structure", "statement": "Along every root-leaf path the depth is at most max_depth+1, every node's samples are partitioned by its children, and every leaf's value is computed from exactly the training rows that follow the path to it; (refuted: with the default min_samples_split of 2 fitting two rows is undefined).", "quantifier": "all data sets and parameters", "why_tests_cant": "recursive construction over arbitrary data", "anchors": ["src/methods/tree/decision_tree_classifier.hpp, src/methods/tree/decision_tree_regressor.hpp: build_tree"]}
{"id": "C25", "title": "Decision-tree prediction is total", "statement": "predict on a fitted tree returns for every input the value of the leaf selected by comparing features with thresholds; (refuted: with min_samples_leaf > 1 a child can be missing and prediction dereferences a null pointer).", "quantifier": "all fitted trees and all inputs", "why_tests_cant": "all inputs", "anchors": ["src/methods/tree/*: predict_label"]}
{"id": "C26", "title": "Regression trees predict averages", "statement": "Every prediction of the regression tree is the mean of the training targets routed to that leaf, hence between the smallest and the largest training target; (refuted: fitting is undefined as soon as the largest value of a searched feature occurs twice, and always for absolute_error).", "quantifier": "all data sets, parameters and query points", "why_tests_cant": "all inputs", "anchors": ["src/methods/tree/decision_tree_regressor.hpp: compute_node_value, predict_label"]}
{"id": "C27", "title": "k-means assigns every point to a nearest centroid", "statement": "predict / assignment returns for every sample the lowest index of a centroid at minimal Euclidean distance; (refuted: samples of another width are undefined).", "quantifier": "all centroids and samples", "why_tests_cant": "all inputs", "anchors": ["src/methods/cluster/kmeans.hpp: KMeans"]}
{"id": "C28", "title": "k-means iterations never increase the objective", "statement": "One Lloyd iteration (assignment then update, empty clusters keeping their centroid) never increases the sum of squared distances to the assigned centroid; hence the whole run does not, for any number of iterations; (refuted: with Eigen's assertions compiled in the first iteration fails for more than one feature). Each iteration lowers the objective by at least the square of the total centroid movement divided by the number of clusters; so with a positive tolerance and more than K * objective / tolerance^2 allowed iterations the run ends with an iteration whose movement is below the tolerance, and with a tolerance of zero or less it always performs every allowed iteration.", "quantifier": "all data sets, centroids, iteration counts", "why_tests_cant": "real-valued inequality for every data set", "anchors": ["src/methods/cluster/kmeans.hpp: KMeans::update_centroid, fit_data"]}
{"id": "C29", "title": "k-means++ initialisation picks data rows", "statement": "kmeans++ initial centroids are rows of the data, the candidate index is always in range, and the potential never increases as centroids are added; each new centre is the best of its round's draws, and differs from the earlier ones if the draws are positive; (refuted: a zero draw may repeat a centre).", "quantifier": "all data sets and random draws", "why_tests_cant": "all random draws", "anchors": ["src/methods/cluster/kmeans.hpp: KMeans::init_centroid"]}
{"id": "C30", "title": "MSE gradient is the derivative of the MSE loss", "statement": "For every data set, parameter vector and penalty, each component returned by MSE::gradient is the partial derivative of MSE::evaluate, and the value lies above its tangents, so that a zero gradient is a global minimum (lambda >= 0).", "quantifier": "all X, y, W, lambda", "why_tests_cant": "an identity of real functions", "anchors": ["src/core/loss/mean_squared_error.hpp: MSE::evaluate, gradient"]}
{"id": "C31", "title": "Log-loss gradient is the derivative of the log-loss", "statement": "For every data set, parameter vector and penalty, each component returned by LogLoss::gradient is the partial derivative of LogLoss::evaluate, and the value lies above its tangents, so that a zero gradient is a global minimum (lambda >= 0).", "quantifier": "all X, y, W, lambda", "why_tests_cant": "an identity of real functions", "anchors": ["src/core/loss/log_loss.hpp: LogLoss::evaluate, gradient"]}
{"id": "C32", "title": "Softmax-loss gradient is the derivative of the softmax loss", "statement": "With lambda = 0 (or one class) each component returned by SoftmaxLoss::gradient is the partial derivative of SoftmaxLoss::evaluate, and with lambda = 0 the value lies above its tangents; with lambda <> 0 it is not the derivative wherever an entry of W differs from the total of its row (refuted): the penalty evaluated sums all entries of W^T W.", "quantifier": "all X, labels, W, lambda", "why_tests_cant": "an identity of real functions", "anchors": ["src/core/loss/softmax_loss.hpp: SoftmaxLoss::evaluate, gradient"]}
{"id": "C33", "title": "Hinge and Huber gradients", "statement": "The hinge gradient is a function of its arguments and a subgradient of the hinge loss (refuted: the returned vector is an uninitialised accumulator); the Huber gradient is the derivative of the Huber loss (refuted). Both gradients are proved to be what the code returns entry by entry, including the average over the samples.", "quantifier": "all X, y, W", "why_tests_cant": "identities of real functions; indeterminate memory", "anchors": ["src/core/loss/hinge_loss.hpp, src/core/loss/huber_loss.hpp"]}
{"id": "C34", "title": "Learning-rate schedules", "statement": "Each decay policy returns the documented rate for every epoch and is non-increasing in the epoch for non-negative parameters; step decay is off by one epoch and exponential decay grows instead of decaying (refuted). Precisely: step decay returns the documented rate of epoch + 1, which differs from that of the epoch exactly when step_size divides epoch + 1.", "quantifier": "all parameters and epochs", "why_tests_cant": "all epochs", "anchors": ["src/core/optimizer/sgd/decay_policies/*.hpp"]}
{"id": "C35", "title": "Weight-update policies", "statement": "VanillaUpdate computes W - lr*grad; MomentumUpdate and NesterovMomentumUpdate carry velocity from step to step (refuted: momentum resets the velocity each call and equals the vanilla step; Nesterov is a rescaled vanilla step).", "quantifier": "all histories of gradients", "why_tests_cant": "history-dependent", "anchors": ["src/core/optimizer/sgd/update_policies/*.hpp"]}
{"id": "C36", "title": "SGD control flow", "statement": "SGD::optimize either raises after max_iter epochs or stops after exactly num_iters_no_change consecutive epochs without an improvement larger than tol and returns the last iterate; every batch consists of distinct samples and all but the last n mod batch samples are visited each epoch. With fewer samples than one batch the start point is returned unchanged. The exception means that the total loss went on falling: for every B with num_iters_no_change * B < max_iter some epoch up to num_iters_no_change * B was better than the first by B times the tolerance times the batch size.", "quantifier": "all losses, shuffles, parameters", "why_tests_cant": "all loss sequences and schedules", "anchors": ["src/core/optimizer/sgd/sgd.hpp: SGD::optimize"]}
{"id": "C37", "title": "SAG maintains a consistent gradient table", "statement": "At every step of SAG::optimize the running average equals (sum of the stored per-batch gradients)/batch_size, each stored gradient being the latest evaluation for its batch. This is the mean of the table only when the number of batches equals the batch size (refuted otherwise).", "quantifier": "all histories of batches", "why_tests_cant": "invariant over arbitrary histories", "anchors": ["src/core/optimizer/sgd/sag.hpp: SAG::optimize"]}
{"id": "C38", "title": "Truncated gradient soft-thresholds", "statement": "The truncation step moves each coordinate toward zero by at most the accumulated budget, never changes its sign, and sets it to exactly zero when its magnitude is within the budget. The budget is applied again at each step: k steps shrink by c k(k+1)/2 instead of k c (refuted as cumulative penalty).", "quantifier": "all weights and budgets", "why_tests_cant": "real inequality for all inputs", "anchors": ["src/core/optimizer/sgd/tg.hpp"]}
{"id": "C39", "title": "SCD coordinate step is exact", "statement": "Each SCD step changes one coordinate, chooses the coordinate with the best predicted descent, and the step is the exact minimiser of the penalised quadratic model in that coordinate. If the loss is bounded by the quadratic model (as for MSE with features in [-1,1] and beta >= 1) the penalised objective never increases; a step that changes nothing is at the minimum of a convex loss.", "quantifier": "all gradients, weights, penalties, beta>0", "why_tests_cant": "optimality over all reals", "anchors": ["src/core/optimizer/sgd/scd.hpp: SCD::optimize"]}
{"id": "C40", "title": "Line search postconditions", "statement": "When a line search reports success the returned point is x + step*d, the returned value and gradient are those of that point, step > 0, and the requested sufficient-decrease (and curvature) condition holds; on failure it reports an error code; at most max(1,max_linesearch) evaluations are made.", "quantifier": "all objective functions, directions, parameters", "why_tests_cant": "all functions", "anchors": ["src/core/optimizer/lbfgs/*.hpp"]}
{"id": "C41", "title": "L-BFGS direction and monotonicity", "statement": "The ring-buffer recursion computes the inverse-BFGS product of the last min(k,m) correction pairs, which satisfies the secant equation and is a descent direction when all curvature products are positive; accepted iterations never increase the objective A run ends at the first point where the gradient is small, the objective changed little against the value `past` iterations earlier, or max_iter is reached, or where the line search fails; it terminates with a limit, and without one for objectives bounded below. With a curvature condition every direction descends.", "quantifier": "all histories of correction pairs", "why_tests_cant": "all histories and wrap-arounds", "anchors": ["src/core/optimizer/lbfgs/lbfgs.hpp: LBFGS::optimize"]}
{"id": "C42", "title": "sigmoid, softmax, logsumexp", "statement": "sigmoid(x) equals 1/(1+exp(-x)), lies in (0,1), is increasing and symmetric; softmax along rows, columns or all entries equals exp/sum(exp): rows are positive, sum to 1, keep the order of the entries and are invariant under row shifts; matrices of one row or column are rejected; logsumexp equals log(sum(exp)) along rows, columns or all entries and lies between the maximum and the maximum plus log of the size; axes other than -1, 0, 1 are undefined behaviour. gaussian_fn is the logarithm of the normal density.", "quantifier": "all real matrices with the sizes the code accepts", "why_tests_cant": "real identities", "anchors": ["src/core/math/extmath.hpp: sigmoid, softmax; src/core/math/linalg.hpp: logsumexp"]}
{"id": "C43", "title": "entropy and gini", "statement": "entropy and gini of a non-empty label vector are 0 iff the labels are all equal, are non-negative and bounded by log2(c) and 1-1/c for c classes; (empty input: gini 1). With positive weights of mean 1 both are those of the weighted distribution; only the proportions of the weights matter (refuted: the total weight is divided by the number of rows, so pure labels have non-zero impurity unless the weights add up to the number of rows).", "quantifier": "all label vectors", "why_tests_cant": "real inequalities for all inputs", "anchors": ["src/core/math/extmath.hpp: entropy, gini"]}
{"id": "C44", "title": "Descriptive statistics", "statement": "sum, mean, var, cov, center, cumsum, median, mode satisfy their definitions along each axis: var is the mean squared deviation, nonnegative, and 0 just for constant data; centred columns have mean 0 and keep differences; cov is symmetric positive semidefinite with the unbiased variances on the diagonal; cumsum entries are prefix totals; at least half the data lie on each side of the median; mode is a most frequent value with its count, the smallest when all differ. An axis other than -1, 0, 1 raises in sum, mean and var and is undefined in median, cumsum and norm2. norm2 and row_norms give Euclidean lengths of columns and rows.", "quantifier": "all matrices", "why_tests_cant": "real identities", "anchors": ["src/core/math/ops.hpp"]}
{"id": "C45", "title": "Metrics", "statement": "mean_absolute_error returns the mean squared error (refuted as mean absolute error); explained_variance_score is 1 - var(pred - true)/var(true), at most 1, and 1 just when the prediction is off by a constant; euclidean_distance and manhattan_distance are metrics on vectors of one size, but sizes are not checked (refuted: a longer second argument is truncated, a shorter one is read out of bounds); minkowski_distance is a metric for p in {1, 2, inf} and raises just for other p or different shapes.", "quantifier": "all vectors", "why_tests_cant": "real identities and inequalities", "anchors": ["src/core/metric.hpp"]}
{"id": "C46", "title": "Naive Bayes probabilities", "statement": "Class priors are positive and sum to 1; predict_prob rows are positive and sum to 1; smoothed multinomial feature probabilities are positive and sum to 1; the multinomial classifier predicts a class of maximal posterior (prior times likelihood); the Gaussian classifier fits class means and smoothed variances, but predicts a class of maximal likelihood, ignoring the priors (maximal posterior refuted). With Eigen's assertions compiled in, Gaussian prediction with two classes and every multinomial fit are undefined; with one feature every fit is (defined behaviour refuted).", "quantifier": "all data sets and labels", "why_tests_cant": "real identities for all inputs", "anchors": ["src/methods/naive_bayes/*.hpp"]}
{"id": "C47", "title": "Refitting and label identity of the classifiers", "statement": "predict returns values that occur among the training labels, and fitting a second time forgets the first fit (both refuted for naive Bayes and decision-tree classifiers: an index is returned and the label table accumulates; exact behaviour characterised).", "quantifier": "all label sets and histories of fits", "why_tests_cant": "histories of calls", "anchors": ["src/methods/naive_bayes/base.hpp, src/methods/tree/decision_tree_classifier.hpp"]}
{"id": "C48", "title": "Least squares and ridge optimality", "statement": "LinearRegression (when X^T X is invertible) and RidgeRegression (lambda>0) return a minimiser of ||y-Xw||^2 + lambda||w||^2 over all w. When the columns are dependent, in particular with fewer samples than coefficients, LinearRegression has no finite result although minimisers exist (refuted). With an intercept the residuals of least squares add up to 0 and those of ridge to lambda times the intercept, because the intercept is penalised.", "quantifier": "all data sets and all competing w", "why_tests_cant": "optimality over all reals", "anchors": ["src/methods/linear_model/linear_regression.hpp, ridge_regression.hpp"]}
{"id": "C49", "title": "Linear models treat the intercept consistently", "statement": "Training and prediction use the same decision function x.w+b (refuted for softmax regression: the intercept row is ignored at prediction; refuted for lasso, perceptron and softmax with intercept: shapes disagree and the product is undefined); logistic predict returns the class whose probability the training objective raises (refuted: classes are swapped). The perceptron predicts 0 and 1 but samples labelled 0 do not influence its training (refuted). Softmax regression cannot classify a single sample (refuted). With an intercept, rows with too few features are accepted (refuted). Logistic regression accepts exactly the documented solver/penalty pairs. One step on a matrix of weights, as the softmax regression makes it, is W - lr*G entry by entry.", "quantifier": "all data sets, weights", "why_tests_cant": "all inputs", "anchors": ["src/methods/linear_model/*.hpp"]}
{"id": "C50", "title": "PCA and SVD", "statement": "PCA and SVD (real arithmetic, any decomposition meeting the SVD contract). svd_flip preserves the product U S V and makes the entry of largest absolute value of each column of U positive. After PCA.fit the components are orthonormal, no other orthonormal family of that size captures more variance, each explained variance is the sample variance of the projections, ratios are non-negative and sum to 1 when all components are kept (at most 1 otherwise). transform gives, for data centred on its own mean, the coordinates of the closest point of the span of the components. get_covariance is the sample covariance when all components are kept and in general replaces the discarded directions by their mean variance; get_precision is its inverse; score is the Gaussian log-likelihood for that precision. pinv is the Moore-Penrose inverse of the matrix when no non-zero singular value is below the tolerance. TruncatedSVD, where defined, has orthonormal components and ratios in [0,1] summing to at most 1. Expected but refuted: transform uses the training mean; score works right after fit; covariance and precision follow a refit; TruncatedSVD.fit works for any number of features. The power iterations multiply the drawn columns by X^T X the given number of times; with LU or QR normalisation the result spans at least those columns.", "quantifier": "all data sets", "why_tests_cant": "real identities", "anchors": ["src/methods/decomposition/*.hpp; src/core/math/extmath.hpp: svd_flip"]}
{"id": "C51", "title": "Gaussian mixture E and M steps", "statement": "For positive regularisation and covariance type \"full\" (or \"tied\" with one component), fit raises out_of_range exactly when there are fewer samples than components, and otherwise returns or raises runtime_error (always for a non-positive tolerance, fewer than two iterations or no initialisation; never with one component and two iterations). A fitted model holds positive weights, symmetric positive definite covariances and their inverses; its parameters are the weighted moments of the data under responsibilities that are positive with rows summing to 1; the weights sum to 1 + K*eps/n and not to 1; the mean of the mixture is the mean of the data. predict_prob is Bayes' rule with positive rows summing to 1 and predict its first maximum. Without the eps and reg corrections an EM iteration never lowers the likelihood; with them the change is bounded below by explicit terms. False of the code, and stated as refuted: tied covariances with several components, unknown covariance or initialisation names rejected, precisions replaced by a second fit, fitting degenerate data without regularisation.", "quantifier": "all data sets and parameters", "why_tests_cant": "real identities", "anchors": ["src/methods/mixture/gaussian_mixture.hpp"]}
{"id": "C52", "title": "Majority vote and mode", "statement": "The k-nearest-neighbours classifier predicts for each query the most frequent label among its k nearest samples (refuted: no prediction is ever returned unless k = 1, and a batch of queries gets a single label, a most frequent one among the labels of their nearest samples).", "quantifier": "all data sets", "why_tests_cant": "all inputs", "anchors": ["src/methods/neighbors/k_nearest_neighbors.hpp; src/core/math/ops.hpp: mode"]}
{"id": "C53", "title": "Shuffling keeps samples with their labels", "statement": "shuffle_data on a sample matrix and its labels applies one permutation to both, so that the pairs are the same multiset; shuffle_data on a matrix permutes the columns for axis 0 and the rows for axis 1 and rejects any other axis (refuted: any other axis means rows, because of an assignment in the condition).", "quantifier": "all matrices, labels, permutations drawn, axes", "why_tests_cant": "all random permutations", "anchors": ["src/core/math/shuffle.hpp: shuffle_data"]}
{"id": "C54", "title": "Cholesky factors, LU and log determinant", "statement": "For every symmetric d x d matrix x, math::cholesky returns the lower triangular L with a positive diagonal and L L^T = x (or its transpose, with lower = false) exactly when x is positive definite, and throws runtime_error otherwise; it reads the lower half only, so for a matrix that is not symmetric it returns a factor of another matrix instead of failing (refuted). For every square matrix, math::logdet returns log(det(x)) when the determinant is positive and -inf when it is negative or zero; on a matrix that is not square it runs into an assertion. For every matrix x of any shape, math::lu returns a permutation matrix P, a unit lower triangular L with entries of absolute value at most 1 and an upper triangular U such that L U is P x with its columns permuted; the column permutation is not returned, so P L U (or P^T L U) is not x whenever the largest entry of x lies outside its first column (the documented decomposition, refuted). With permute_l the first result is P L. The score of PCA with this logdet is the average log density of a normal distribution.", "quantifier": "all matrices of all shapes (symmetric ones for Cholesky)", "why_tests_cant": "A test factors a few matrices; that the exception is raised exactly on the matrices that are not positive definite, and that the sign of the determinant survives every pattern of row exchanges, is a statement about all of them.", "anchors": ["src/core/math/linalg.hpp: cholesky, lu, logdet", "src/methods/decomposition/pca.hpp: score"]}
{"id": "C55", "title": "The split gain measures an impurity decrease", "statement": "For any node targets divided into two sides: with criterion 'entropy' the gain is the information gain (entropy minus the share-weighted entropies of the sides), between 0 and the entropy, so only nodes with at least two labels are split; with 'gini' it is one minus the share-weighted Gini indices and at least one over the number of labels, so (contrary to what min_impurity_decrease suggests) small thresholds and purity never stop a Gini tree; with 'squared_error' it is the variance minus the unweighted sums of squared deviations, so it ranks splits by variance decrease but a node of n rows is split only if the squared error drops below one n-th; any other criterion throws std::invalid_argument.", "quantifier": "all target lists, all two-way divisions of them, all fitted trees and all their nodes", "why_tests_cant": "The inequalities must hold for every division of every target list and for every node of every tree; examples with clear-cut splits look right under all criteria.", "anchors": ["src/methods/tree/decision_tree_classifier.hpp: compute_impurity, build_tree", "src/methods/tree/decision_tree_regressor.hpp: compute_impurity, build_tree", "src/core/math/extmath.hpp: entropy, gini"]}
{"id": "C56", "title": "QR decomposition", "statement": "For every matrix x of any shape, math::qr returns Q with orthonormal columns and an upper triangular R such that Q R = x; with full_matrix Q is nr x nr and R is nr x nc, otherwise Q is nr x min(nr, nc) and R is min(nr, nc) x nc.", "quantifier": "all matrices of all shapes, both values of full_matrix", "why_tests_cant": "Orthogonality and exact reconstruction must hold for every shape (tall, wide, square) and rank; tests sample a few.", "anchors": ["src/core/math/linalg.hpp: qr"]}
{"id": "C57", "title": "Loading a table from a text file", "statement": "For every text of one or more lines of the same number (at least one) of numbers separated by white space, loadtxt returns the numbers before the last of each line as the rows of X and the last ones as y, in order, whether the last line is ended or not, and for integers as well as decimal and scientific notation; an unreadable file raises runtime_error; loading always ends. Malformed tables are reported (refuted: an empty file, an empty line or a line shorter than the first is undefined behaviour; of longer lines the Eigen overload drops the end and takes another number as the label; a header line is undefined behaviour or a length_error; of comma-separated lines only the first number is kept, as the label). Loading replaces what was there (refuted: the labels are appended, as are the rows in the overload without labels).", "quantifier": "all texts, all numbers of rows and columns, all number formats meeting the contract of operator>>", "why_tests_cant": "the property ranges over all file contents; tests load a few well-formed files", "anchors": ["src/core/data/load.hpp: loadtxt (three overloads)"]}
{"id": "C58", "title": "Random orders and random numbers", "statement": "random::permutation(n) always returns an order of 0..n-1 and shuffle_data keeps every sample with its label, whatever the random engine does; every order of n elements is the result of exactly one of the n! equally likely sequences of draws, so that ideal draws give uniformly distributed orders and every reordering of the labelled samples can occur. Because each call seeds a new engine with one 32-bit number this is not what happens from 13 elements on: for every engine there are orders that no seed produces. k-means' random initialisation takes rows at different places (more centres than rows is undefined), rand and randint return matrices of the requested shape with entries between the limits, both included for randint, reversed limits are undefined, and the first k-means++ centre can be any row but, without rows, is drawn from 0..2^64-1.", "quantifier": "all engines, all sequences of draws, all sizes, all seeds, all data", "why_tests_cant": "the number of orders and of engine states is unbounded and the outcome is random: a test sees a few draws only", "anchors": ["src/core/math/random.hpp: rand, permutation, randint", "src/core/math/shuffle.hpp: shuffle_data", "src/methods/cluster/kmeans.hpp: init_centroid, kmeans_plusplus"]}
{"id": "C59", "title": "Gradient descent on the whole data converges", "statement": "When the batch size equals the number of samples, SGD with the vanilla update on the mean squared error or the logistic loss (labels between 0 and 1, any penalty weight >= 0, with or without shuffling) and learning rates up to the inverse of the curvature bound ((sum of squared entries of the data, for the logistic loss a quarter of it, plus lambda) / n) never raises the loss from one epoch to the next, even where the gradient is clipped; if the loss at the start is too small for clipping to happen, the loss after rates r1..re exceeds the loss of any coefficients u by at most |w0-u|^2 / (2 (r1+...+re)); and with a positive tolerance it ends without an exception when max_iter exceeds the patience times the number of tolerances that fit into the initial loss. LogisticRegression with the sgd solver inherits this. (Refuted without the bound: beyond twice the inverse curvature every step can raise the loss.)", "quantifier": "all data, labels, start points, penalty weights, learning-rate schedules within the bound, shuffles, patience, tolerances and iteration limits", "why_tests_cant": "A convergence rate against every competitor and a guarantee of termination quantify over all data and all runs; a test sees one trajectory.", "anchors": ["src/core/optimizer/sgd/sgd.hpp: SGD::optimize", "src/core/optimizer/sgd/update_policies/vanilla_update.hpp: VanillaUpdate::update", "src/core/loss/mean_squared_error.hpp: MSE", "src/core/loss/log_loss.hpp: LogLoss", "src/methods/linear_model/logistic_regression.hpp: LogisticRegression::fit"]}
{"id": "C60", "title": "A fitted tree fits its training data as well as its leaves allow", "statement": "With the default minimum leaf size, a fitted decision tree classifier classifies all its training rows, and no assignment of labels that treats rows of the same leaf alike gets more of them right; in particular it is right at least as often as answering the most frequent label. A fitted regression tree (minimum leaf size at most 1) likewise has the least sum of squared errors among all predictions constant on its leaves, in particular at most that of any constant. Fitting again with a larger maximum depth and otherwise the same parameters never lowers the number of training rows classified correctly and never raises the sum of squared errors.", "quantifier": "all training sets, criteria and parameters for which fit returns, all competing predictions constant on the leaves, all pairs of depth bounds", "why_tests_cant": "Optimality is a comparison with every other prediction on every data set, and monotonicity in the depth relates two arbitrary runs; a test compares one tree with one baseline.", "anchors": ["src/methods/tree/decision_tree_classifier.hpp: build_tree, predict, predict_prob", "src/methods/tree/decision_tree_regressor.hpp: build_tree, predict"]}
{"id": "C61", "title": "KD-tree answers are exact for the distances the program computes", "statement": "With subtraction, multiplication, addition and square root rounded, in any monotone odd rounding (in particular to the nearest double or float, short of overflow) and with any fixed order of additions inside a distance, a KD-tree whose first column is the widest still answers exactly with respect to the distances as the program computes them: a completed k-nearest query returns k different rows, nearest first, such that no other row has a smaller computed distance; a radius query returns rows whose computed distance is at most the radius, each once, and all whose computed distance is smaller. Queries complete under the same conditions as in exact arithmetic.", "quantifier": "all roundings, orders of additions, metrics, matrices with the first column widest, queries, k, radii and tie-breaking of the priority queue", "why_tests_cant": "Pruning compares a rounded distance to a box with rounded distances to rows; whether rounding can ever make it skip a nearer row depends on all bit patterns.", "anchors": ["src/core/tree/kd_tree.hpp: build_tree, query, query_radius", "src/core/metric.hpp: minkowski_distance", "src/core/common.hpp: norm"]}
{"id": "C62", "title": "Probabilities under rounding", "statement": "In any number format (in particular doubles short of overflow) and with any computed exponential that is monotone, exact at 0 and not negative: every entry of sigmoid is a number in [0, 1], at least 1/2 for inputs >= 0 and at most 1/2 for inputs <= 0; softmax by rows never divides by zero, its entries lie in [0, 1] and are ordered as the entries of the row. The probabilities computed inside the softmax loss and its gradient are numbers in [0, 1] as long as every sample has a score whose exponential relative to the largest score of all samples does not round to zero. Documented behaviour that is false: that the softmax loss and gradient are defined for all finite scores - the subtracted maximum is that of the whole matrix, so that in doubles two samples with scores 1100 and 0 make the second one 0/0.", "quantifier": "all roundings, orders of additions, computed exponentials and finite inputs", "why_tests_cant": "Whether a rounded quotient can leave [0, 1], or a row sum can vanish, ranges over all inputs; tests use scores of moderate size.", "anchors": ["src/core/math/extmath.hpp: sigmoid, softmax", "src/core/loss/softmax_loss.hpp: evaluate, gradient"]}
{"id": "C63", "title": "Splits under rounding", "statement": "With the product of sample count and training ratio rounded, train_test_split still partitions the samples into training and test samples with their labels, and the training set has the exact (truncated) number of samples or one more. A threshold tried by the decision tree's split search, (a + b) / 2 rounded, lies between the two neighbouring feature values, so that at least one row goes left. Documented behaviour that is false: that the training count is the truncated exact product (ten samples with the double nearest to 0.7 give seven although the product is below seven), and that distinct feature values always leave rows on both sides - between neighbouring doubles the threshold can round to the larger one, and a regression tree then evaluates the variance of an empty vector.", "quantifier": "all roundings with exact integers up to the number of samples, all samples, ratios in [0, 1], permutations and feature columns", "why_tests_cant": "The effects appear at particular bit patterns only.", "anchors": ["src/core/data/split.hpp: train_test_split", "src/methods/tree/base.hpp: choose_feature_threshold, best_split"]}
{"id": "C64", "title": "Sums, distances and shrinkage under rounding", "statement": "With rounded arithmetic: distances are symmetric, not negative and zero from a row to itself; a mean does not decrease when entries increase; truncation of the truncated gradient never enlarges a weight or changes its sign and zeroes weights within the bound; the candidate k-means++ draws is a sample at a positive computed distance from the centres chosen so far, provided the potential is the last running sum and the drawn value does not round to zero. Documented behaviour that is false in doubles: that the mean of equal numbers is that number and the variance is not negative (three times 0.1), and that k-means++ never draws a centre again (the potential is added up in another order than the running sums).", "quantifier": "all roundings, orders of additions, vectors, weights and draws", "why_tests_cant": "Each claim must hold for every bit pattern and every order in which a compiler or Eigen adds up a sum.", "anchors": ["src/core/metric.hpp: minkowski_distance", "src/core/math/ops.hpp: mean, var, cumsum", "src/core/optimizer/sgd/tg.hpp: truncate", "src/methods/cluster/kmeans.hpp: init_centroid"]}
{"id": "C65", "title": "The order of the training rows does not affect what is learned", "statement": "Presenting the same training samples (rows with their labels) in another order gives the same result, including the same failures: the tree of a decision tree classifier or regressor, the statistics of both naive Bayes classifiers, the coefficients of linear and ridge regression, the coefficients of lasso (whose shuffle flag and random permutations do not matter either), the value and gradient of every loss on a whole data set and hence a whole L-BFGS run, k-means from given centroids, column statistics, and the distances of nearest neighbours found with a KD-tree. Exceptions: Apriori reports other itemsets when transactions are reordered, and stochastic gradient descent without shuffling visits the rows in the given order.", "quantifier": "all data sets, all reorderings of their rows, all parameters", "why_tests_cant": "there are n! orders of every data set; ties between splits, equal values and duplicate rows must all be handled independently of position", "anchors": ["src/methods/tree/base.hpp: build_tree, best_split", "src/methods/naive_bayes/base.hpp", "src/methods/linear_model/linear_regression.hpp", "src/methods/linear_model/lasso_regression.hpp", "src/core/loss/*.hpp: evaluate, gradient", "src/core/optimizer/lbfgs/lbfgs.hpp: optimize", "src/methods/cluster/kmeans.hpp", "src/core/tree/kd_tree.hpp: query", "src/methods/rule_model/apriori.hpp: fit_transform"]}
{"id": "C66", "title": "Constructors, unused arguments and unfitted objects", "statement": "What fit computes is determined by the constructor's arguments, the data and the random draws, each argument being used as it is named. This holds for the logistic regression constructors for gradient descent (unless asked for scd with l1) and for coordinate descent, for the default one, and for perceptron, softmax, ridge and lasso regression and k-means; a second k-means fit forgets the first. Documented behaviour that is false: the L-BFGS constructor leaves the regularisation strength that fit uses uninitialised, and combining a constructor with another solver reads uninitialised members; penalty \"None\" still regularises; perceptron and softmax ignore penalty and solver, and the perceptron's parameter check, which its own defaults fail, is never made; k-means ignores num_init and an unknown init name is undefined; predicting before fitting is undefined instead of an exception; coefficient and moment getters that return a matrix as a column are undefined unless it has one column. A KD-tree given one of the three metric names uses that distance, and nearest-neighbour classification with the tree solver is then the one of C52. False as well: a KD-tree accepts any other metric name and its queries then use an uninitialised number (one of the three distances, or an exception); an unknown solver name makes every prediction an empty vector without an error; the default nearest-neighbour classifier can never return a prediction. A default-constructed k-means looks for 3 clusters from a k-means++ start with at most 300 rounds.", "quantifier": "all constructor arguments, all contents of uninitialised memory, all data", "why_tests_cant": "A test sees one content of uninitialised memory, usually zero, and one combination of arguments.", "anchors": ["src/methods/linear_model/logistic_regression.hpp: LogisticRegression, fit_data", "src/methods/linear_model/perceptron.hpp: Perceptron, check_parameters, fit_data", "src/methods/linear_model/softmax_regression.hpp: SoftmaxRegression, fit_data", "src/methods/linear_model/base.hpp: get_coef, predict_label", "src/methods/cluster/kmeans.hpp: KMeans, fit, predict", "src/methods/naive_bayes/gaussian_naive_bayes.hpp: get_mean, get_var", "src/core/tree/kd_tree.hpp: KDTree", "src/methods/neighbors/k_nearest_neighbors.hpp: KNearestNeighbors, fit, predict"]}
{"id": "C67", "title": "Units of measurement do not change what is learned", "statement": "Expressing the data in other units changes results only as the units do. Features shifted and rescaled by positive factors of their own, together with any increasing renaming of the labels, leave the classes and probabilities predicted by a decision tree classifier unchanged for every input, and moving all targets by t moves every prediction of a regression tree by t, whatever the outcome of the calls. Any increasing maps of the features leave a tree unchanged but for its thresholds, and leave its answers on the training rows unchanged. Least squares with an intercept gives the same predictions for any nonzero factors and shifts, is singular for the one data set exactly when it is for the other, and follows changes of unit of the target. Column means, variances, covariances and medians convert as they should; PCA does not notice a shift. With one common factor and any shift: k-means assignments and the final centroids (with the tolerance converted) correspond, the whole k-means fit corresponds under shifts, KD-tree neighbour distances are multiplied by the factor, and Gaussian naive Bayes gives the same classes and probabilities when its variances are positive. False without these conditions: nonlinear increasing maps change tree predictions on new rows; rescaling one feature changes k-means labels; shifting a feature changes ridge predictions, because the intercept is penalised.", "quantifier": "all data sets, all conversion factors and shifts, all increasing maps, all parameters and random draws", "why_tests_cant": "the conversions form a continuum; ties, failures and undefined calls must correspond too", "anchors": ["src/methods/tree/base.hpp: choose_feature_threshold, best_split", "src/methods/tree/decision_tree_classifier.hpp: fit, predict", "src/methods/tree/decision_tree_regressor.hpp: fit, predict", "src/methods/linear_model/linear_regression.hpp: fit_data", "src/methods/cluster/kmeans.hpp: fit, predict", "src/core/tree/kd_tree.hpp: query", "src/methods/naive_bayes/gaussian_naive_bayes.hpp", "src/core/math/ops.hpp: mean, var, cov, median", "src/methods/decomposition/pca.hpp"]}
{"id": "C68", "title": "NaN, infinities and overflow", "statement": "On IEEE doubles, k-means prediction gives a sample the first centroid at the least computed distance among those at a distance below infinity, and label 0 if there is none; so a sample with a NaN gets label 0. One NaN in the training data makes the first k-means centroid NaN in that column after any number of rounds, makes the tolerance irrelevant, and makes k-means++ with two or more clusters read an uninitialised value. In a decision tree a NaN goes right at every split, as +infinity does; on numbers the walk is the usual one. A nearest-neighbour query with a NaN coordinate, or with an infinite one on finite data, answers with training row 0 at infinite distance, k times (Euclidean and Manhattan). Stochastic gradient descent with a patience of at least 1 only returns weights from an epoch whose loss was a number, throws when every loss is NaN or +infinity or when the tolerance is NaN, and with squared error never returns NaN weights. False: finite samples and queries always get their nearest centroid or row (squares overflow), and returned weights have a finite loss.", "quantifier": "all doubles including NaN, infinities and numbers that overflow; all orders of summation; all data, parameters, draws, gradients and learning rates", "why_tests_cant": "special values must be tried in every position and combination; the order of summation is the compiler's choice", "anchors": ["src/methods/cluster/kmeans.hpp: fit, predict, kmeans_plusplus", "src/methods/tree/decision_tree_classifier.hpp: predict", "src/methods/tree/decision_tree_regressor.hpp: predict", "src/core/tree/kd_tree.hpp: query", "src/core/optimizer/sgd/sgd.hpp: optimize", "src/core/loss/mean_squared_error.hpp: evaluate"]}
{"id": "C69", "title": "Neighbour search on doubles that cannot overflow", "statement": "If all coordinates of the rows and of the query points are finite doubles of at most 2^480 in absolute value, no distance computed on IEEE doubles overflows or is NaN, and each equals what arithmetic with rounding gives. If moreover the first column of the data has the widest range, a completed k-nearest query on doubles returns k distinct rows with the distances computed for them, in ascending order, and no other row has a smaller computed distance; with at least 6 rows and leaves of at least 5 the query completes; a radius query returns each row at most once, only rows whose computed distance is within the radius, and all whose computed distance is smaller.", "quantifier": "all tables with up to 2^53-1 columns and all query points of such doubles, all orders of summation, the three metrics, all k, leaf sizes and radii, all choices among equal heap entries", "why_tests_cant": "every combination of magnitudes and every order of summation would have to be tried", "anchors": ["src/core/tree/kd_tree.hpp: query, query_radius", "src/core/metric.hpp: minkowski_distance"]}
{"id": "C70", "title": "Accuracy of computed distances and of neighbour search", "statement": "Distances computed on doubles are the exact ones up to relative errors of 2^-53: as many as there are coordinates for the Manhattan metric, three more for the Euclidean metric, one for the Chebyshev metric. For the Euclidean metric this holds as long as coordinates that differ do so by at least 2^-500. So rows returned by a k-nearest query on moderate doubles are nearest up to twice that error, the distances reported are accurate to it, and a radius query finds all rows that are inside by more than the error and none that are outside by more. Manhattan and Chebyshev distances are computed as zero only for equal points; for Euclidean distances this is false (squares underflow).", "quantifier": "all points of doubles with any number of coordinates, all orders of summation, the three metrics; for queries all tables and queries as in C69", "why_tests_cant": "the worst case over all doubles and all orders of summation cannot be sampled", "anchors": ["src/core/metric.hpp: minkowski_distance", "src/core/tree/kd_tree.hpp: query, query_radius"]}
{"id": "C71", "title": "Accuracy of means and of linear predictions", "statement": "The mean of n doubles, computed in any order, differs from the exact mean by at most ((1+2^-53)^n - 1) times the mean of the absolute values, plus 2^-1075. A value predicted by a linear model with d features differs from the exact one by at most ((1+2^-53)^(d+1) - 1) times the sum of the absolute values of its terms, plus d(1+2^-53)^d 2^-1075. So the perceptron's class is that of exact arithmetic wherever the exact value is further from 0 than that bound; nearer to 0 it may be wrong (false in general).", "quantifier": "all vectors, rows and weights of doubles without overflow, all orders of summation, with and without intercept", "why_tests_cant": "error bounds are statements about all inputs; the order of summation is the compiler's choice", "anchors": ["src/methods/linear_model/base.hpp: predict_label", "src/methods/linear_model/perceptron.hpp: predict", "src/core/math/ops.hpp: mean"]}
{"id": "C72", "title": "Association rules with thresholds given as doubles", "statement": "With min_support and min_confidence as doubles: every itemset contained in at least the fraction min_support of the transactions is found with its exact count, and none is found that is a whole transaction or more short of it (a fraction such as 29/100, rounded to a double, may admit an itemset of 28 in 100 transactions). The confidence reported for a rule is its true confidence rounded once; every rule whose true confidence reaches min_confidence is reported, and a reported rule's true confidence reaches it up to a factor 1+2^-53 (it may lie below it). If min_confidence is the double nearest to a fraction p/q, and q and the number of transactions are at most 2^26, exactly the rules with true confidence at least p/q are reported.", "quantifier": "all ordered databases with at most 2^53 transactions, all thresholds between 0 and 1", "why_tests_cant": "whether a rounded product or quotient crosses a threshold depends on every count and threshold", "anchors": ["src/methods/rule_model/apriori.hpp: fit_transform, get_rules"]}
{"id": "C73", "title": "How far training with decaying learning rates can go, and when a perceptron learns", "statement": "Perceptron::fit (no penalty, gradient memory zeroed) and LogisticRegression::fit with sgd use learning rates alpha, halved every ten epochs: these add up to at most 19 alpha, so no weight ever moves by more than 19 alpha times the sum of |label * feature| (for logistic regression with labels in [0,1]: 19 alpha / batch_size times the sum of |feature|), however large max_iter is. It is therefore false that enough epochs always separate separable data: with one sample, alpha < 1/19 and a start that is wrong by 1, the returned model is still wrong. It is also false that the labels predict returns (0 and 1) can be used for training: samples labelled 0 leave the weights as they are. With labels -1 and 1, whole batches and samples of norm at most r separated by u with margin m, as soon as the rates divided by alpha add up to more than batch_size |u|^2 r^2/m^2 + 2 |u| |w0|/(alpha m), every sample is on the right side; if the patience leaves room for that many epochs fit returns without an exception and predict reproduces the labels. With a constant rate every separable data set is learnt this way.", "quantifier": "all data sets, starting weights, batch sizes, shuffles, learning rates, tolerances and epoch limits", "why_tests_cant": "the bound holds for runs of any length and the convergence theorem for all separable data; a test trains a few data sets for a few epochs", "anchors": ["src/methods/linear_model/perceptron.hpp: fit_data, predict", "src/methods/linear_model/logistic_regression.hpp: fit_data", "src/core/loss/hinge_loss.hpp: evaluate, gradient", "src/core/optimizer/sgd/decay_policies/step_decay.hpp: compute", "src/core/optimizer/sgd/sgd.hpp: optimize"]}
{"id": "C74", "title": "Greedy coordinate descent approaches the best coefficients", "statement": "Lasso::fit without intercept and LogisticRegression::fit with scd and l1 move one coefficient per iteration, the one with the largest predicted gain. When lambda > 0 and l1_ratio is at least the curvature of the loss along every feature (mean of its squares, a quarter of it for the logistic loss plus lambda/n), the penalised loss after max_iter iterations exceeds that of any coefficients v by at most 2 d C / max_iter, where C is the larger of the penalised loss at the start and l1_ratio (|v|_1 + that loss / lambda)^2. So with enough iterations it comes within any distance of the smallest value, in whatever order the samples are presented. Without the condition on l1_ratio this is false: with the default l1_ratio of 1 and one feature of value 2 the loss at least quadruples with every iteration.", "quantifier": "all data sets, comparison coefficients, penalties, step parameters, shuffles and iteration counts", "why_tests_cant": "a rate of convergence speaks of all iteration counts and of all other coefficient vectors; a test compares one run with one reference", "anchors": ["src/core/optimizer/sgd/scd.hpp: optimize", "src/methods/linear_model/lasso_regression.hpp: fit_data", "src/methods/linear_model/logistic_regression.hpp: fit_data"]}
{"id": "C75", "title": "What is learned depends on the proportions of the data", "statement": "Train on a data set in which every labelled row occurs k times as often, in any order. Least squares, lasso, logistic regression by L-BFGS or by gradient descent with one batch of all rows, k-means from given centroids and Gaussian naive Bayes learn exactly the same parameters; so does ridge regression, and any penalised mean loss (squared, logistic, softmax), if the penalty is multiplied by k, and multinomial naive Bayes if its smoothing is. With ridge's penalty unchanged the coefficients differ. Means, variances and medians of the rows stay as they are and covariances are multiplied by k(n-1)/(kn-1). Apriori records no itemset it did not record before; if n * min_support is a whole number it records the same itemsets with k times the counts and the same rules with the same confidences, and otherwise itemsets can be lost. Decision trees do not share this: a classification tree may choose another threshold and classify new rows differently, and for k of two or more a regression tree that would have to split is undefined behaviour.", "quantifier": "every data set, every number of repetitions, every order of the repeated rows, every permutation drawn by the shuffles, every number of iterations and every parameter", "why_tests_cant": "the equalities are between two runs on data of unrelated sizes and must hold for all data, all k, all orders and all iteration counts; a test fixes one data set", "anchors": ["src/core/loss/mean_squared_error.hpp:gradient", "src/core/loss/log_loss.hpp:gradient", "src/core/loss/softmax_loss.hpp:gradient", "src/methods/linear_model/linear_regression.hpp:fit_data", "src/methods/linear_model/ridge_regression.hpp:fit_data", "src/methods/linear_model/lasso_regression.hpp:fit_data", "src/core/optimizer/sgd/sgd.hpp:optimize", "src/core/optimizer/lbfgs/lbfgs.hpp:optimize", "src/methods/naive_bayes/gaussian_naive_bayes.hpp:fit", "src/methods/naive_bayes/multinomial_naive_bayes.hpp:fit", "src/methods/cluster/kmeans.hpp:fit", "src/core/math/ops.hpp:mean,var,median,cov", "src/methods/rule_model/apriori.hpp:fit_transform", "src/methods/tree/decision_tree_classifier.hpp:fit", "src/methods/tree/decision_tree_regressor.hpp:fit"]}
{"id": "C76", "title": "The order of the features does not matter, except between equally good ones", "statement": "Give the columns of the training data and of later queries in another order, with every start vector and scratch memory reordered alike. The loss functions have the same value and their gradients, and the weights found by SGD (plain, momentum, Nesterov), SAG, truncated gradient, L-BFGS, linear and ridge regression, logistic regression (unless the penalty is l1) and the perceptron, are the same numbers in the new order, an intercept staying last; k-means finds the same centroids and clusters, naive Bayes the same classes, priors and per-class parameters, and all of them make the same predictions, throw the same exceptions and run into undefined behaviour for the same inputs. Sums, means, variances, medians and covariances follow the columns and distances do not change. A decision tree's best gain at a node is the same and the split chosen is one of the equally best ones. It is false that the tree, or a lasso fitted by coordinate descent, is the same: both break ties in favour of the feature given first, so a classifier may answer differently for a new row and lasso may move another coefficient.", "quantifier": "all numbers of features and all orders of them, all data, labels, start vectors, hyperparameters, shuffles and numbers of iterations; all queries", "why_tests_cant": "a test tries a few orders of a few columns; the claim is about every permutation of any number of columns at once and about whole training runs", "anchors": ["src/core/loss/mean_squared_error.hpp:MSE", "src/core/optimizer/sgd/sgd.hpp:SGD::optimize", "src/core/optimizer/sgd/sag.hpp:SAG", "src/core/optimizer/lbfgs/lbfgs.hpp:LBFGS::optimize", "src/core/optimizer/sgd/scd.hpp:SCD::optimize", "src/methods/linear_model/linear_regression.hpp:LinearRegression::fit", "src/methods/linear_model/logistic_regression.hpp:LogisticRegression::fit", "src/methods/linear_model/perceptron.hpp:Perceptron::fit", "src/methods/cluster/kmeans.hpp:fit", "src/methods/naive_bayes/gaussian_naive_bayes.hpp:GaussianNB", "src/methods/tree/base.hpp:best_split"]}
{"id": "C77", "title": "Probabilities and the logistic loss on floating-point numbers", "statement": "On IEEE doubles, with any library exp and log that are accurate to a few units in the last place and any order of summation: (1) logsumexp along either axis or over all entries never overflows: if the entries are finite or -infinity and one is finite, the result is finite and not below the largest entry; (2) naive Bayes' predict_prob and the responsibilities of the Gaussian mixture are then finite and in [0, 1], and so are softmax and, for every number including the infinities, sigmoid; (3) the probabilities need not add up to one: with equal log-likelihoods of 2^66 or more in size every one of the K classes gets probability 1, and a sample impossible under every class gets NaN for every class; (4) the logistic loss is finite while every margin is between -32 and 32, but one sample with label 1 and margin at least 64 (or label 0 and margin at most -1100) makes it NaN, whatever the other samples; (5) so gradient descent on all samples at once never returns weights that classify a training sample that well, and a fit that starts from weights that classify every sample that well throws however many epochs it may run.", "quantifier": "all tables of doubles with fewer than 2^53 entries, all orders of summation, all exp and log functions meeting the stated accuracy, all weights, labels, regularisation strengths, learning rates, tolerances and numbers of epochs", "why_tests_cant": "Overflow, cancellation and NaN appear only for particular magnitudes among 2^64 doubles per entry, and the summation order and library functions differ between builds; tests sample a handful of well-scaled tables on one build.", "anchors": ["src/core/math/linalg.hpp: logsumexp", "src/core/math/extmath.hpp: sigmoid, softmax", "src/methods/naive_bayes/base.hpp: predict_log_prob, predict_prob", "src/methods/mixture/gaussian_mixture.hpp: estimate_log_prob_resp", "src/core/loss/log_loss.hpp: evaluate, gradient", "src/core/optimizer/sgd/sgd.hpp: optimize"]}
{"id": "C78", "title": "What SGD on mini-batches achieves", "statement": "SGD with the vanilla update on the mean squared error or the logistic loss (labels between 0 and 1), batches of any size, any penalty weight >= 0, with or without shuffling: if every sample has squared norm at most B and the learning rates r1, r2, ... are at most 1/(B + lambda/batch_size) (logistic: B/4 in place of B), and no gradient is clipped, then for any coefficients u, after K epochs |w_K - u|^2 + 2 (r1 loss_1 + ... + rK loss_K) <= |w_0 - u|^2 + 2 T (r1 + ... + rK), where loss_k is the loss the optimizer records for epoch k and T is what u loses in an epoch; so some epoch recorded at most T + |w_0 - u|^2 / (2 (r1 + ... + rK)). LogisticRegression with the sgd solver inherits this. If the targets can be fitted exactly (no penalty), the weights are never further from any exact solution than at the start, the weighted losses add up to at most half the squared distance, and the run ends without an exception when max_iter exceeds the patience times the number of tolerances that fit into |w_0 - u|^2 / (2 r1). Expected but refuted: the recorded loss is the loss of the weights; it is measured batch by batch right after the step on that batch, can be 0 on data no weights fit, and the weights returned then lose twice the minimum.", "quantifier": "all data sets, batch sizes, permutations, penalty weights, rates within the bound, numbers of epochs, start points and comparison coefficients u; real arithmetic", "why_tests_cant": "A test runs a few data sets; the bound is against every possible coefficient vector, for every order of the batches and every number of epochs.", "anchors": ["src/core/optimizer/sgd/sgd.hpp: SGD::optimize", "src/core/loss/mean_squared_error.hpp: MSE::evaluate, MSE::gradient", "src/core/loss/log_loss.hpp: LogLoss::evaluate, LogLoss::gradient", "src/methods/linear_model/logistic_regression.hpp: LogisticRegression::fit"]}
{"id": "C79", "title": "Solvers that turn out to be the same", "statement": "A choice of solver or of update policy that makes no difference is known not to: SGD with momentum returns what SGD with the plain update returns, and Nesterov's momentum does no more than multiply the learning rates by 1 + mu; TruncatedGradient with no L1 penalty (alpha or l1_ratio 0) returns the weights of SGD; SAG with a single batch returns the weights of SGD with every rate divided by the batch size, and so LogisticRegression with solver \"sag\" and one batch learns what it learns with \"sgd\" and alpha divided by the batch size. Where one of the two fails, so does the other, in the same way. Hence SAG on the whole data never raises the mean squared error while the rate is at most the number of samples divided by the curvature, and comes as close to any coefficients as gradient descent does in as many times more epochs. That SAG and SGD reach the same weights with the same settings is false.", "quantifier": "every loss and gradient (failing ones included), data set, start, schedule, permutations drawn, batch size, tolerance, patience and number of epochs", "why_tests_cant": "Two solvers that agree on a data set may differ on the next; that they agree on every loss, schedule and failure needs a simulation of one run by the other.", "anchors": ["src/core/optimizer/sgd/sgd.hpp: SGD::optimize", "src/core/optimizer/sgd/sag.hpp: SAG::optimize", "src/core/optimizer/sgd/tg.hpp: TruncatedGradient::optimize", "src/core/optimizer/sgd/update_policies/momentum_update.hpp: MomentumUpdate::update", "src/core/optimizer/sgd/update_policies/nesterov_momentum_update.hpp: NesterovMomentumUpdate::update", "src/methods/linear_model/logistic_regression.hpp: LogisticRegression::fit"]}
{"id": "C80", "title": "Apriori: thresholds, and an object used more than once", "statement": "For a database meeting the ordering precondition of C05 and calls that return: raising min_support keeps exactly the recorded itemsets that reach the new threshold, with the same counts; raising min_support and min_confidence keeps exactly the rules that reach both, with the same confidences; every confidence is above 0 and at most 1; moving items from the right-hand side of a reported rule to its left-hand side gives a reported rule of at least the same confidence. Whether the call returns is not monotone in min_support (a witness returns, raises, returns). A second fit_transform on the same object does not start afresh: the rules it adds to the earlier ones are those of a table in which each itemset has its support in the last database that reported it. The same database again therefore doubles every rule, and another database can yield confidences above 1 and rules about items it does not contain.", "quantifier": "every ordered database, all thresholds, every sequence of databases given to one object", "why_tests_cant": "Relations between runs with different thresholds, and the effect of every possible history of an object, range over unboundedly many databases and call sequences.", "anchors": ["src/methods/rule_model/apriori.hpp: Apriori::fit_transform, Apriori::fit_data, Apriori::transform_data, Apriori::get_rules"]}
{"id": "C81", "title": "What the strength of the penalty does to ridge regression and the lasso", "statement": "For all data, of two ridge regressions the one with the stronger penalty has coefficients with no larger sum of squares and a training error that is no smaller; where least squares has a result, ridge regression's coefficients are no larger than its coefficients and its sum of squared residuals exceeds the least one by at most the penalty times the loss in squared length. Four times the penalty times the squared length of ridge coefficients is at most the squared length of the labels, and the predictions for the training samples are no longer than the labels. Ridge regression and least squares are linear in the labels, so changing the labels moves ridge coefficients by at most the length of the change over twice the root of the penalty. If the mean product of every feature with the labels is at most the penalty in absolute value, the lasso returns only zeros, whatever the number of iterations, the shuffling and the step parameter; of two resting points of the lasso the one with the stronger penalty has a no larger sum of absolute coefficients and a no smaller error. Logistic regression with the l2 penalty trained on the whole data with a small enough learning rate returns coefficients whose squared length is at most twice the number of samples times the loss at the start over the penalty.", "quantifier": "all data, labels, positive penalties, intercept settings, iteration counts and shuffle orders", "why_tests_cant": "A test tries a few penalties on one data set; the claims compare the results for all pairs of penalties and label vectors on all data.", "anchors": ["src/methods/linear_model/ridge_regression.hpp: fit", "src/methods/linear_model/linear_regression.hpp: fit", "src/methods/linear_model/lasso_regression.hpp: fit", "src/core/optimizer/sgd/scd.hpp: optimize"]}
{"id": "C82", "title": "Nearest neighbours with the brute solver", "statement": "A KNearestNeighbors object with solver \"brute\" predicts for every query the most frequent label among the k nearest training samples. (The function does not compile; it is read by its evident meaning. The claim is then false for every training set: with a known metric, k at most the number of samples and queries of the right length, -1 is returned for every query, in whatever order the hash map is traversed, so unless -1 is a label no prediction is ever a label. More neighbours than samples throw out_of_range; another metric name, also \"chebyshev\", throws invalid_argument; a query of another length violates an assertion.)", "quantifier": "all training sets, labels, queries, numbers of neighbours, metric names and traversal orders of the hash map", "why_tests_cant": "A test sees a wrong label for one data set; that no data set, query or traversal order leads to any other answer is a claim about all of them.", "anchors": ["src/methods/neighbors/k_nearest_neighbors.hpp: brute_force, fit, predict"]}
{"id": "C83", "title": "The Laplacian of spectral clustering", "statement": "The matrix that SpectralClustering builds from the data is the Laplacian of the similarity graph of the samples: symmetric, with rows that add up to 0 and off-diagonal entries minus the similarity, positive semidefinite. (The header does not compile and nothing calls the function; it is read by its evident meaning. It compares columns instead of samples: with more samples than features the access is out of range; otherwise it is the Laplacian of the graph on as many features as there are samples, with all the listed properties, and its kernel holds only the constant vectors, so the eigenvalue 0 never separates clusters.)", "quantifier": "all data matrices, all non-zero gamma, all vectors", "why_tests_cant": "Semidefiniteness and the kernel are statements about all vectors, and the identity must hold for all data.", "anchors": ["src/methods/cluster/spectral_clustering.hpp: laplace_matrix"]}
