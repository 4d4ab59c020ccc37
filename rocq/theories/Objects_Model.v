(** The estimator objects: members, constructors and how [fit] uses the members.  A constructor takes the object's memory before
    construction as its first argument: a member it does not initialise keeps what was there ([std::string] members are set to "").
    [verbose_] only controls printing but is kept, so that the theorems can say that it has no effect. *)
From Coq Require Import Reals String.
From Verif Require Import Base Common_Model KDReal_Proofs Vec Loss_Model Optim_Model Lbfgs_Model Linear_Model KMeans_Model Stats_Model NB_Model Tree_Model.
Local Open Scope R_scope.
Set Implicit Arguments.

(** logistic_regression.hpp:174-185. A [size_t] literal. *)
Definition lit (n : Z) : nat := Z.to_nat n.

(** * logistic_regression.hpp:17-35 *)
Record logistic := Logistic {
  l_alpha : R; l_lambda : R; l_tol : R; l_l1_ratio : R; l_ftol : R; l_wolfe : R; l_delta : R;
  l_no_change : nat; l_max_linesearch : nat; l_batch : nat; l_max_iter : nat; l_mem : nat; l_past : nat;
  l_solver : string; l_penalty : string; l_policy : string; l_condition : string; l_shuffle : bool; l_verbose : bool }.
(** logistic_regression.hpp:174-185 *)
Definition logistic_default (m : logistic) : logistic :=
  Logistic (1 / 10) 0 (1 / 10000) (l_l1_ratio m) (l_ftol m) (l_wolfe m) (l_delta m)
    5 (l_max_linesearch m) 16 (lit 2000) (l_mem m) (l_past m) "sag" "None" "" "" true true.
(** logistic_regression.hpp:188-208 *)
Definition logistic_gradient (m : logistic) (alpha lambda tol : R) (batch_size max_iter num_iters_no_change : nat) (solver penalty : string)
  (shuffle verbose : bool) : logistic :=
  Logistic alpha lambda tol (l_l1_ratio m) (l_ftol m) (l_wolfe m) (l_delta m)
    num_iters_no_change (l_max_linesearch m) batch_size max_iter (l_mem m) (l_past m) solver penalty "" "" shuffle verbose.
(** logistic_regression.hpp:211-225 *)
Definition logistic_scd (m : logistic) (lambda l1_ratio : R) (max_iter : nat) (solver penalty : string) (shuffle verbose : bool) : logistic :=
  Logistic (l_alpha m) lambda (l_tol m) l1_ratio (l_ftol m) (l_wolfe m) (l_delta m)
    (l_no_change m) (l_max_linesearch m) (l_batch m) max_iter (l_mem m) (l_past m) solver penalty "" "" shuffle verbose.
(** logistic_regression.hpp:228-256 *)
Definition logistic_newton (m : logistic) (tol ftol delta wolfe : R) (max_iter mem_size past max_linesearch : nat)
  (solver penalty linesearch_policy linesearch_condition : string) (shuffle verbose : bool) : logistic :=
  Logistic (l_alpha m) (l_lambda m) tol (l_l1_ratio m) ftol wolfe delta
    (l_no_change m) max_linesearch (l_batch m) max_iter mem_size past solver penalty linesearch_policy linesearch_condition shuffle verbose.

(** lbfgs.hpp:78-90; backtracking.hpp:77, 86 *)
Definition policy_of (s : string) : ls_policy :=
  if String.eqb s "backtracking" then Backtracking else if String.eqb s "bracketing" then Bracketing else OtherPolicy.
(** backtracking.hpp:77, 86 *)
Definition condition_of (s : string) : ls_condition :=
  if String.eqb s "ARMIJO" then Armijo else if String.eqb s "WOLFE" then Wolfe else OtherCondition.
(** lbfgs/params.hpp:32-42 *)
Definition ls_params4 (ftol wolfe : R) (max_linesearch : nat) (condition : string) : ls_params :=
  LsParams (1 / 2) (21 / 10) ftol wolfe (10 ^ 20) (/ 10 ^ 20) max_linesearch (condition_of condition).
(** logistic_regression.hpp:41-152. What an L-BFGS run finds in the memory it allocates, and a bound on its turns. *)
Record scratch := Scratch { sc_fuel : nat; sc_mem : list (list R) * list (list R) * list R; sc_pfx : list R }.
(** logistic_regression.hpp:41-152; [StepDecay(alpha_)] has its default [gamma] and [step_size] (step_decay.hpp:24-28). *)
Definition logistic_object_fit (o : logistic) (sc : scratch) (perm : nat -> list nat) (w0 : list R) (d : nat) (X : list (list R)) (y : list R)
  : outcome (option (list R)) :=
  logistic_fit
    (LogisticParams (l_lambda o) (l_alpha o) (1 / 2) 10 (l_l1_ratio o) (l_tol o) (l_batch o) (l_max_iter o) (l_no_change o) (l_shuffle o)
       (fun X_new y w => lbfgs_optimize (policy_of (l_policy o)) (ls_params4 (l_ftol o) (l_wolfe o) (l_max_linesearch o) (l_condition o))
          (log_evaluate (l_lambda o) X_new y) (log_gradient (l_lambda o) X_new y)
          (l_mem o) (l_past o) (l_max_iter o) (l_tol o) (l_delta o) (sc_fuel sc) (sc_mem sc) (sc_pfx sc) w))
    (l_solver o) (l_penalty o) perm w0 d X y.

(** * perceptron.hpp:19-27 *)
Record perceptron := Perceptron {
  p_alpha : R; p_lambda : R; p_tol : R; p_batch : nat; p_max_iter : nat; p_no_change : nat; p_penalty : string;
  p_intercept : bool; p_shuffle : bool; p_verbose : bool }.
(** perceptron.hpp:88-97 *)
Definition perceptron_default : perceptron := Perceptron (1 / 1000) 0 (1 / 10000) 32 (lit 2000) 5 "l2" true true true.
(** perceptron.hpp:105-124 *)
Definition perceptron_new (alpha lambda tol : R) (batch_size max_iter num_iters_no_change : nat) (penalty : string) (intercept shuffle verbose : bool)
  : perceptron := Perceptron alpha lambda tol batch_size max_iter num_iters_no_change penalty intercept shuffle verbose.
(** perceptron.hpp:32-39; no function calls it. *)
Definition perceptron_check (o : perceptron) : outcome unit :=
  if (String.eqb (p_penalty o) "l2" && Reqb (p_lambda o) 0)%bool then Throw InvalidArgument else Ok tt.
(** perceptron.hpp:42-81 *)
Definition perceptron_object_fit (o : perceptron) (grad0 w0 : list R) (perm : nat -> list nat) (X : list (list R)) (y : list R) : outcome (list R) :=
  perceptron_fit grad0 w0 (p_lambda o) (p_alpha o) (1 / 2) 10 perm (p_shuffle o) (p_batch o) (p_no_change o) (p_tol o) (p_max_iter o) X y.

(** * softmax_regression.hpp:19-28 *)
Record softmax_regression := SoftmaxRegression {
  s_alpha : R; s_lambda : R; s_tol : R; s_batch : nat; s_max_iter : nat; s_no_change : nat; s_solver : string; s_penalty : string;
  s_shuffle : bool; s_verbose : bool }.
(** softmax_regression.hpp:103-113 *)
Definition softmax_default : softmax_regression := SoftmaxRegression (1 / 100) 0 (1 / 10000) 4 (lit 2000) 5 "sgd" "None" true true.
(** softmax_regression.hpp:119-138 *)
Definition softmax_new (alpha lambda tol : R) (batch_size max_iter num_iters_no_change : nat) (solver penalty : string) (shuffle verbose : bool)
  : softmax_regression := SoftmaxRegression alpha lambda tol batch_size max_iter num_iters_no_change solver penalty shuffle verbose.
(** softmax_regression.hpp:39-79 *)
Definition softmax_object_fit (o : softmax_regression) (K : nat) (W0 : list (list R)) (perm : nat -> list nat) (X : list (list R)) (y : list nat)
  : outcome (list (list R)) :=
  softmax_fit K W0 (s_lambda o) (s_alpha o) (1 / 2) 10 perm (s_shuffle o) (s_batch o) (s_no_change o) (s_tol o) (s_max_iter o) X y.

(** * lasso_regression.hpp:19-24, ridge_regression.hpp:19, linear_model/base.hpp:24 *)
Record lasso := Lasso { a_max_iter : nat; a_lambda : R; a_l1_ratio : R; a_shuffle : bool; a_verbose : bool; a_intercept : bool }.
(** lasso_regression.hpp:65-70 *)
Definition lasso_default : lasso := Lasso (lit 5000) (1 / 1000) 1 true true true.
(** lasso_regression.hpp:78-89 *)
Definition lasso_new (max_iter : nat) (lambda l1_ratio : R) (shuffle verbose intercept : bool) : lasso :=
  Lasso max_iter lambda l1_ratio shuffle verbose intercept.
(** scd.hpp:26-39: the order of the arguments is max_iter, l1_ratio, lambda. *)
Record scd := Scd { c_max_iter : nat; c_l1_ratio : R; c_lambda : R; c_shuffle : bool; c_verbose : bool }.
(** scd.hpp:26-39 *)
Definition scd_new (max_iter : nat) (l1_ratio lambda : R) (shuffle verbose : bool) : scd := Scd max_iter l1_ratio lambda shuffle verbose.
(** lasso_regression.hpp:27-58; [MSE()] has lambda 0 (mean_squared_error.hpp:19). *)
Definition lasso_object_fit (o : lasso) (perm : nat -> list nat) (d : nat) (X : list (list R)) (y : list R) : outcome (list R) :=
  let c := scd_new (a_max_iter o) (a_l1_ratio o) (a_lambda o) (a_shuffle o) (a_verbose o) in
  lasso_fit 0 (c_lambda c) (c_l1_ratio c) perm (c_shuffle c) (c_max_iter c) (a_intercept o) d X y.
(** ridge_regression.hpp:53-54 *)
Record ridge := Ridge { r_lambda : R; r_intercept : bool }.
(** ridge_regression.hpp:53-54 *)
Definition ridge_default : ridge := Ridge (1 / 2) true.
(** ridge_regression.hpp:62-65 *)
Definition ridge_new (lambda : R) (intercept : bool) : ridge := Ridge lambda intercept.
(** ridge_regression.hpp:62-65 *)
Definition ridge_object_fit (o : ridge) (d : nat) (X : list (list R)) (y : list R) : outcome (option (list R)) :=
  ridge_fit (r_lambda o) (r_intercept o) d X y.

(** * kmeans.hpp:21-27 *)
Record kmeans := Kmeans { k_init : string; k_num_init : nat; k_clusters : nat; k_max_iter : nat; k_tol : R; k_centroids : list (list R) }.
(** kmeans.hpp:191-195 *)
Definition kmeans_default : kmeans := Kmeans "kmeans++" 10 3 (lit 300) (1 / 10000) [].
(** kmeans.hpp:197-205 *)
Definition kmeans_new (init : string) (num_init num_clusters max_iter : nat) (tol : R) : kmeans := Kmeans init num_init num_clusters max_iter tol [].
(** kmeans.hpp:107-121: [perm], [first] and [draws] are what the generators would return; with any other name the resized matrix
    is read as it was allocated. *)
Definition kmeans_start (o : kmeans) (perm : list nat) (first : nat) (draws : list (list R)) : init_kind :=
  if String.eqb (k_init o) "random" then InitRandom perm else if String.eqb (k_init o) "kmeans++" then InitPlusPlus first draws else InitOther.
(** kmeans.hpp:211-214 *)
Definition kmeans_object_fit (asserts : bool) (o : kmeans) (perm : list nat) (first : nat) (draws : list (list R)) (nf : nat) (X : list (list R))
  : outcome kmeans :=
  let! C0 := init_centroid (k_clusters o) X (kmeans_start o perm first draws) in
  let! C := lloyd asserts nf (k_clusters o) (k_tol o) X (k_max_iter o) C0 in
  Ok (Kmeans (k_init o) (k_num_init o) (k_clusters o) (k_max_iter o) (k_tol o) C).
(** kmeans.hpp:221-225 *)
Definition kmeans_object_predict (o : kmeans) (X : list (list R)) : outcome (list nat) := KMeans_Model.predict (k_clusters o) (k_centroids o) X.

(** * Trees: [root_] is null until [fit] (decision_tree_classifier.hpp:60, 296-303; regressor:53, 248-260); a null pointer is dereferenced
      for the first row. *)
Definition tree_object_predict {T I V A} (walk_one : dtree T I V -> list T -> outcome A) (root : option (dtree T I V)) (X : list (list T)) : outcome (list A) :=
  mapM (fun x => match root with None => UB | Some t => walk_one t x end) X.

(** * Getters returning a dynamic matrix as a column vector: linear_model/base.hpp:74-76, gaussian_naive_bayes.hpp:122-129.  Eigen resizes the vector
      to the matrix's shape and asserts that there is one column.  [c] is the number of columns. *)
Definition as_column (c : nat) (M : list (list R)) : outcome (list R) := if (c =? 1)%nat then Ok (concat M) else UB.
(** linear_model/base.hpp:74-76 *)
Definition softmax_get_coef (K : nat) (W : list (list R)) : outcome (list R) := as_column K W.
(** gaussian_naive_bayes.hpp:122-124 *)
Definition gnb_get_mean (nf : nat) (s : gnb) : outcome (list R) := as_column nf (g_mean s).
(** gaussian_naive_bayes.hpp:127-129 *)
Definition gnb_get_var (nf : nat) (s : gnb) : outcome (list R) := as_column nf (g_var s).
