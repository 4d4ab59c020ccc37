(** C66: what a constructor's arguments mean, what [fit] reads, and what an unfitted object does.
    [m], [m'] are the memory an object is constructed in, [sc], [sc'] the memory L-BFGS allocates. *)
From Coq Require Import Reals Lra String.
From Verif Require Import Base Common_Model KDReal_Proofs Vec Loss_Model Optim_Model Lbfgs_Model Linear_Model KMeans_Model Stats_Model NB_Model Tree_Model
  Objects_Model.
Local Open Scope R_scope.
Local Open Scope string_scope.

(** The constructor for gradient descent determines the fit, except for the combination scd / l1. *)
Theorem C66_logistic_gradient : forall m m' sc sc' alpha lambda tol batch_size max_iter no_change solver penalty shuffle verbose verbose' perm w0 d X y,
  ~ (solver = "scd" /\ penalty = "l1") ->
  logistic_object_fit (logistic_gradient m alpha lambda tol batch_size max_iter no_change solver penalty shuffle verbose) sc perm w0 d X y =
  logistic_object_fit (logistic_gradient m' alpha lambda tol batch_size max_iter no_change solver penalty shuffle verbose') sc' perm w0 d X y.
Proof.
  intros m m' sc sc' alpha lambda tol bs n nc solver penalty sh v v' perm w0 d X y H.
  unfold logistic_object_fit, logistic_fit, logistic_gradient, logistic_solver. cbn [l_solver l_penalty].
  destruct (String.eqb penalty "l2" || String.eqb penalty "None")%bool.
  - destruct (String.eqb solver "sgd"); [reflexivity|]. destruct (String.eqb solver "sag"); [reflexivity|]. destruct (String.eqb solver "lbfgs"); reflexivity.
  - destruct (String.eqb_spec penalty "l1"); [|reflexivity]. destruct (String.eqb_spec solver "scd"); [tauto|reflexivity].
Qed.
Print Assumptions C66_logistic_gradient.
(** The constructor for coordinate descent determines a fit with scd / l1. *)
Theorem C66_logistic_scd : forall m m' sc sc' lambda l1_ratio max_iter shuffle verbose verbose' perm w0 d X y,
  logistic_object_fit (logistic_scd m lambda l1_ratio max_iter "scd" "l1" shuffle verbose) sc perm w0 d X y =
  logistic_object_fit (logistic_scd m' lambda l1_ratio max_iter "scd" "l1" shuffle verbose') sc' perm w0 d X y.
Proof. reflexivity. Qed.
Print Assumptions C66_logistic_scd.
(** In these cases the arguments are used as named. *)
Theorem C66_logistic_arguments : forall m sc alpha lambda tol batch_size max_iter no_change shuffle verbose perm w0 d X y,
  (forall penalty, penalty = "l2" \/ penalty = "None" ->
     logistic_object_fit (logistic_gradient m alpha lambda tol batch_size max_iter no_change "sgd" penalty shuffle verbose) sc perm w0 d X y =
     (let! w := optimize (sgd_step (log_gradient lambda) (log_evaluate lambda) clip_grad vanilla_update)
                  (fun epoch => Ok (alpha * (1 / 2) ^ ((1 + epoch) / 10))) perm shuffle batch_size no_change tol max_iter (map (fun r => r ++ [1])%list X) y w0 in
      Ok (Some w))) /\
  (forall l1_ratio,
     logistic_object_fit (logistic_scd m lambda l1_ratio max_iter "scd" "l1" shuffle verbose) sc perm w0 d X y =
     (let! w := scd_optimize (log_gradient lambda) lambda l1_ratio (S d) perm shuffle max_iter (map (fun r => r ++ [1])%list X) y w0 in Ok (Some w))).
Proof.
  intros m sc alpha lambda tol bs n nc sh v perm w0 d X y. split; [|reflexivity].
  intros penalty [-> | ->]; reflexivity.
Qed.
Print Assumptions C66_logistic_arguments.

(** Two samples whose only feature is 0, with different labels, from weights (1, 0): the gradient is the regularisation alone. *)
Definition zero_X : list (list R) := [[0]; [0]].
Definition zero_w : list R := [1; 0].
Lemma sigmoid_zero z : z = 0 -> MathFun_Model.sigmoid1 z = 1 / 2.
Proof.
  intros ->. unfold MathFun_Model.sigmoid1. rewrite Rabs_R0, Ropp_0. unfold MathFun_Model.fmin. destruct (MathFun_Model.Rgeb 0 0); rewrite exp_0; field.
Qed.
Lemma zero_gradient lambda : log_gradient lambda [[0; 1]; [0; 1]] [0; 1] zero_w = Ok [lambda / 2; 0].
Proof.
  unfold log_gradient, zero_w. cbn. rewrite !sigmoid_zero by ring. f_equal. f_equal; [field|f_equal; field].
Qed.
(** Penalty "None" does not switch regularisation off: it is treated as "l2". *)
Theorem C66_penalty_none : forall m sc alpha lambda tol batch_size max_iter no_change solver shuffle verbose perm w0 d X y,
  logistic_object_fit (logistic_gradient m alpha lambda tol batch_size max_iter no_change solver "None" shuffle verbose) sc perm w0 d X y =
  logistic_object_fit (logistic_gradient m alpha lambda tol batch_size max_iter no_change solver "l2" shuffle verbose) sc perm w0 d X y.
Proof. reflexivity. Qed.
Print Assumptions C66_penalty_none.
Lemma zero_fit m sc lambda : 0 <= lambda <= 1 ->
  logistic_object_fit (logistic_gradient m 1 lambda 0 2 1 0 "sgd" "None" false false) sc (fun _ => []) zero_w 1 zero_X [0; 1] = Ok (Some [1 - lambda / 2; 0]).
Proof.
  intros H. rewrite (proj1 (C66_logistic_arguments _ _ _ _ _ _ _ _ _ _ _ _ _ _ _)) by (now right).
  cbn. rewrite !sigmoid_zero by ring. rewrite !Rmin_left by lra. rewrite !Rmax_left by lra. do 2 f_equal. f_equal; [field|f_equal; field].
Qed.
Theorem C66_penalty_none_refuted : exists lambda lambda' X y w w', w <> w' /\ forall m sc,
  logistic_object_fit (logistic_gradient m 1 lambda 0 2 1 0 "sgd" "None" false false) sc (fun _ => []) [1; 0] 1 X y = Ok (Some w) /\
  logistic_object_fit (logistic_gradient m 1 lambda' 0 2 1 0 "sgd" "None" false false) sc (fun _ => []) [1; 0] 1 X y = Ok (Some w').
Proof.
  exists 0, 1, zero_X, [0; 1], [1 - 0 / 2; 0], [1 - 1 / 2; 0]. split; [intros H; injection H; lra|]. intros. split; apply zero_fit; lra.
Qed.
Print Assumptions C66_penalty_none_refuted.

(** The constructor for L-BFGS: the run has the parameters given, in their places, the line search and the condition of the names given, and the [lambda]
    found in memory. *)
Definition names_search (name : string) (p : ls_policy) : Prop :=
  match p with Backtracking => name = "backtracking" | Bracketing => name = "bracketing" | OtherPolicy => name <> "backtracking" /\ name <> "bracketing" end.
Definition names_condition (name : string) (c : ls_condition) : Prop :=
  match c with Armijo => name = "ARMIJO" | Wolfe => name = "WOLFE" | OtherCondition => name <> "ARMIJO" /\ name <> "WOLFE" end.
Theorem C66_logistic_newton : forall m tol ftol delta wolfe max_iter mem_size past max_linesearch penalty search p condition c shuffle verbose fuel mem0 pfx0 perm w0 d X y,
  penalty = "l2" \/ penalty = "None" -> names_search search p -> names_condition condition c ->
  let X1 := map (fun r => r ++ [1])%list X in
  let P := {| dec_factor := 1 / 2; inc_factor := 21 / 10; Lbfgs_Model.ftol := ftol; Lbfgs_Model.wolfe := wolfe; max_step := 10 ^ 20; min_step := / 10 ^ 20;
              Lbfgs_Model.max_linesearch := max_linesearch; Lbfgs_Model.condition := c |} in
  logistic_object_fit (logistic_newton m tol ftol delta wolfe max_iter mem_size past max_linesearch "lbfgs" penalty search condition shuffle verbose)
    (Scratch fuel mem0 pfx0) perm w0 d X y =
  match p with
  | OtherPolicy => Throw InvalidArgument
  | _ => lbfgs (log_evaluate (l_lambda m) X1 y) (log_gradient (l_lambda m) X1 y) (line_search p (log_evaluate (l_lambda m) X1 y) (log_gradient (l_lambda m) X1 y) P)
           mem_size past max_iter tol delta fuel mem0 pfx0 w0
  end.
Proof.
  intros m tol ftol delta wolfe max_iter mem_size past max_linesearch penalty search p condition c shuffle verbose fuel mem0 pfx0 perm w0 d X y HP HS HC.
  assert (ES : policy_of search = p).
  { unfold policy_of. destruct p; cbn in HS; [now subst|now subst|]. destruct HS as (H1 & H2). apply String.eqb_neq in H1, H2. now rewrite H1, H2. }
  assert (EC : condition_of condition = c).
  { unfold condition_of. destruct c; cbn in HC; [now subst|now subst|]. destruct HC as (H1 & H2). apply String.eqb_neq in H1, H2. now rewrite H1, H2. }
  intros X1 P. unfold logistic_object_fit, logistic_fit. cbn [lp_lbfgs logistic_newton l_solver l_penalty l_policy l_ftol l_wolfe l_max_linesearch l_condition l_lambda l_mem l_past l_max_iter l_tol l_delta
    sc_fuel sc_mem sc_pfx]. assert (EL : logistic_solver "lbfgs" penalty = Ok UseLBFGS) by (destruct HP as [->| ->]; reflexivity). rewrite EL. cbn [bind].
  unfold ls_params4. rewrite ES, EC. unfold lbfgs_optimize. destruct p; reflexivity.
Qed.
Print Assumptions C66_logistic_newton.
(** The constructor for L-BFGS has no [lambda], yet [fit] regularises with it: the result depends on the memory the object is constructed in. *)
Lemma lbfgs_some policy P evaluate gradient ms past n tol delta fuel mem0 pfx0 x0 g : gradient x0 = Ok g -> converged tol x0 g = false ->
  lbfgs_optimize policy P evaluate gradient ms past n tol delta fuel mem0 pfx0 x0 <> Ok None.
Proof.
  intros Hg Hc. assert (E : forall ls, lbfgs evaluate gradient ls ms past n tol delta fuel mem0 pfx0 x0 <> Ok None);
    [|destruct policy; cbn [lbfgs_optimize]; [apply E|apply E|discriminate]].
  intros ls. unfold lbfgs. destruct mem0 as ((s0, y0), ys0). destruct (evaluate x0); cbn [bind]; try discriminate. rewrite Hg. cbn [bind].
  destruct (set_colM pfx0 0 a); cbn [bind]; try discriminate. rewrite Hc.
  destruct (lbfgs_loop _ _ _ _ _ _ _ _); cbn [bind]; discriminate.
Qed.
Lemma zero_converged lambda : 0 <= lambda -> converged 0 zero_w [lambda / 2; 0] = Rleb lambda 0.
Proof.
  intros H. unfold converged, zero_w, norm2. cbn. replace (0 + 1 * 1 + 0 * 0) with 1 by ring. rewrite sqrt_1.
  replace (0 + lambda / 2 * (lambda / 2) + 0 * 0) with ((lambda / 2) * (lambda / 2)) by ring. rewrite sqrt_square by lra.
  replace (if Rltb 1 1 then 1 else 1) with 1 by (destruct (Rltb 1 1); reflexivity). unfold Rleb. f_equal.
  destruct (Rltb 0 lambda) eqn:E; [apply Rltb_true in E; apply Rltb_true; lra|apply Rltb_false in E; apply Rltb_false; lra].
Qed.
Definition memory (lambda : R) (batch_size : nat) (l1_ratio : R) : logistic := Logistic 0 lambda 0 l1_ratio 0 0 0 0 0 batch_size 0 0 0 "" "" "" "" false false.
Theorem C66_logistic_newton_refuted : exists m m' sc X y w0,
  let fit m := logistic_object_fit (logistic_newton m 0 (1 / 10000) (1 / 1000000) (9 / 10) 0 8 3 40 "lbfgs" "l2" "backtracking" "WOLFE" true false)
                 sc (fun _ => []) w0 1 X y in
  fit m = Ok None /\ fit m' <> Ok None.
Proof.
  exists (memory 0 0 0), (memory 1 0 0), (Scratch 10 ([], [], []) [0; 0; 0]), zero_X, [0; 1], zero_w. cbv zeta. split.
  - unfold logistic_object_fit, logistic_fit. cbn -[log_gradient log_evaluate lbfgs]. unfold lbfgs. cbn -[converged log_gradient].
    rewrite zero_gradient. cbn -[converged]. rewrite zero_converged by lra. unfold Rleb. rewrite (proj2 (Rltb_false 0 0)) by lra. reflexivity.
  - unfold logistic_object_fit, logistic_fit. cbn -[log_gradient log_evaluate lbfgs_optimize].
    eapply lbfgs_some; [apply zero_gradient|]. rewrite zero_converged by lra. unfold Rleb. rewrite (proj2 (Rltb_true 0 1)) by lra. reflexivity.
Qed.
Print Assumptions C66_logistic_newton_refuted.
(** Likewise for a solver the constructor is not meant for: the batch size (zero is undefined) and the l1 ratio are then whatever memory holds. *)
Theorem C66_logistic_mixed_refuted :
  (forall m tol ftol delta wolfe max_iter mem_size past max_linesearch policy condition shuffle verbose sc perm w0 d X y, l_batch m = 0%nat ->
     logistic_object_fit (logistic_newton m tol ftol delta wolfe max_iter mem_size past max_linesearch "sgd" "l2" policy condition shuffle verbose)
       sc perm w0 d X y = UB) /\
  (forall m lambda l1_ratio max_iter shuffle verbose sc perm w0 d X y, l_batch m = 0%nat ->
     logistic_object_fit (logistic_scd m lambda l1_ratio max_iter "sgd" "l2" shuffle verbose) sc perm w0 d X y = UB).
Proof.
  split; intros; unfold logistic_object_fit, logistic_fit, optimize; cbn; rewrite H; reflexivity.
Qed.
Print Assumptions C66_logistic_mixed_refuted.
(** The other constructors leave the line search's name empty: L-BFGS then throws. *)
Theorem C66_logistic_no_policy : forall penalty, penalty = "l2" \/ penalty = "None" ->
  (forall m alpha lambda tol batch_size max_iter no_change shuffle verbose sc perm w0 d X y,
     logistic_object_fit (logistic_gradient m alpha lambda tol batch_size max_iter no_change "lbfgs" penalty shuffle verbose) sc perm w0 d X y = Throw InvalidArgument) /\
  (forall m lambda l1_ratio max_iter shuffle verbose sc perm w0 d X y,
     logistic_object_fit (logistic_scd m lambda l1_ratio max_iter "lbfgs" penalty shuffle verbose) sc perm w0 d X y = Throw InvalidArgument).
Proof. intros penalty [-> | ->]; split; reflexivity. Qed.
Print Assumptions C66_logistic_no_policy.
(** A default-constructed model runs SAG without depending on memory. *)
Theorem C66_logistic_default : forall m sc perm w0 d X y,
  logistic_object_fit (logistic_default m) sc perm w0 d X y =
  (let! s := optimize (sag_step (log_gradient 0) (log_evaluate 0) vanilla_update 16) (fun epoch => Ok (1 / 10 * (1 / 2) ^ ((1 + epoch) / 10)))
               perm true 16 5 (1 / 10000) (Z.to_nat 2000) (map (fun r => r ++ [1])%list X) y (sag_init w0 (S d) (length X / 16)) in
   Ok (Some (sg_w s))).
Proof. reflexivity. Qed.
Print Assumptions C66_logistic_default.

(** The perceptron ignores [penalty], and the check its class declares, which its own default parameters fail, is not made. *)
Theorem C66_perceptron : forall alpha lambda tol batch_size max_iter no_change penalty penalty' intercept shuffle verbose verbose' grad0 w0 perm X y,
  perceptron_object_fit (perceptron_new alpha lambda tol batch_size max_iter no_change penalty intercept shuffle verbose) grad0 w0 perm X y =
  perceptron_object_fit (perceptron_new alpha lambda tol batch_size max_iter no_change penalty' intercept shuffle verbose') grad0 w0 perm X y.
Proof. reflexivity. Qed.
Print Assumptions C66_perceptron.
Theorem C66_perceptron_check_refuted : perceptron_check perceptron_default = Throw InvalidArgument /\
  exists o, perceptron_check o = Ok tt /\ forall grad0 w0 perm X y, perceptron_object_fit perceptron_default grad0 w0 perm X y = perceptron_object_fit o grad0 w0 perm X y.
Proof.
  split.
  - unfold perceptron_check, perceptron_default, Reqb. cbn. destruct (Req_EM_T 0 0); [reflexivity|congruence].
  - exists (perceptron_new (1 / 1000) 0 (1 / 10000) 32 (Z.to_nat 2000) 5 "None" true true true). split; [reflexivity|]. reflexivity.
Qed.
Print Assumptions C66_perceptron_check_refuted.
Theorem C66_perceptron_arguments : forall alpha lambda tol batch_size max_iter no_change penalty intercept shuffle verbose grad0 w0 perm X y,
  perceptron_object_fit (perceptron_new alpha lambda tol batch_size max_iter no_change penalty intercept shuffle verbose) grad0 w0 perm X y =
  optimize (sgd_step (hinge_gradient grad0 lambda 0) (hinge_evaluate lambda 0) clip_grad vanilla_update)
    (fun epoch => Ok (alpha * (1 / 2) ^ ((1 + epoch) / 10))) perm shuffle batch_size no_change tol max_iter X y w0.
Proof. reflexivity. Qed.
Print Assumptions C66_perceptron_arguments.
(** Softmax regression ignores [solver] and [penalty]: any text is accepted. *)
Theorem C66_softmax : forall alpha lambda tol batch_size max_iter no_change solver solver' penalty penalty' shuffle verbose verbose' K W0 perm X y,
  softmax_object_fit (softmax_new alpha lambda tol batch_size max_iter no_change solver penalty shuffle verbose) K W0 perm X y =
  softmax_object_fit (softmax_new alpha lambda tol batch_size max_iter no_change solver' penalty' shuffle verbose') K W0 perm X y /\
  softmax_object_fit (softmax_new alpha lambda tol batch_size max_iter no_change solver penalty shuffle verbose) K W0 perm X y =
  optimize (sgd_step (softmax_gradient K lambda) (softmax_evaluate K lambda) mat_clip mat_update)
    (fun epoch => Ok (alpha * (1 / 2) ^ ((1 + epoch) / 10))) perm shuffle batch_size no_change tol max_iter X y W0.
Proof. split; reflexivity. Qed.
Print Assumptions C66_softmax.
(** Lasso and ridge use their arguments as named. *)
Theorem C66_regressions : forall max_iter lambda l1_ratio shuffle verbose intercept perm d X y,
  lasso_object_fit (lasso_new max_iter lambda l1_ratio shuffle verbose intercept) perm d X y =
    scd_optimize (mse_gradient 0) lambda l1_ratio d perm shuffle max_iter X y (repeat 0 (if intercept then S d else d)) /\
  ridge_object_fit (ridge_new lambda intercept) d X y = ridge_fit lambda intercept d X y.
Proof. intros n lambda l1 sh v b perm d X y. split; [|reflexivity]. destruct b; reflexivity. Qed.
Print Assumptions C66_regressions.

(** * k-means: [num_init] is ignored; a second fit forgets the first; only the two documented names initialise. *)
Theorem C66_kmeans : forall asserts init num_init num_init' K max_iter tol perm first draws nf X o o',
  kmeans_object_fit asserts (kmeans_new init num_init K max_iter tol) perm first draws nf X = Ok o ->
  kmeans_object_fit asserts (kmeans_new init num_init' K max_iter tol) perm first draws nf X = Ok o' ->
  k_centroids o = k_centroids o'.
Proof.
  unfold kmeans_object_fit, kmeans_new, kmeans_start. cbn [k_init k_num_init k_clusters k_max_iter k_tol].
  intros until o'. destruct (init_centroid _ _ _); cbn [bind]; try discriminate. destruct (lloyd _ _ _ _ _ _ _); cbn [bind]; try discriminate.
  intros [= <-] [= <-]. reflexivity.
Qed.
Print Assumptions C66_kmeans.
Theorem C66_kmeans_refit : forall asserts o o' perm first draws nf nf' perm' first' draws' X X',
  kmeans_object_fit asserts o perm first draws nf X = Ok o' ->
  kmeans_object_fit asserts o' perm' first' draws' nf' X' = kmeans_object_fit asserts o perm' first' draws' nf' X'.
Proof.
  intros asserts o o' perm first draws nf nf' perm' first' draws' X X'. unfold kmeans_object_fit.
  destruct (init_centroid _ X _); cbn [bind]; try discriminate. destruct (lloyd _ _ _ _ X _ _); cbn [bind]; try discriminate. intros [= <-]. reflexivity.
Qed.
Print Assumptions C66_kmeans_refit.
Theorem C66_kmeans_init_refuted : forall asserts init num_init K max_iter tol perm first draws nf X, init <> "random" -> init <> "kmeans++" ->
  kmeans_object_fit asserts (kmeans_new init num_init K max_iter tol) perm first draws nf X = UB.
Proof.
  intros asserts init ni K n tol perm first draws nf X H1 H2. unfold kmeans_object_fit, kmeans_start, kmeans_new. cbn [k_init].
  destruct (String.eqb_spec init "random"); [congruence|]. destruct (String.eqb_spec init "kmeans++"); [congruence|]. reflexivity.
Qed.
Print Assumptions C66_kmeans_init_refuted.

Lemma mv_defined X W : mv X W = UB \/ exists v, mv X W = Ok v.
Proof.
  unfold mv. induction X as [|x X [IH|(v & IH)]]; cbn [mapM]; [eauto| |]; destruct (length x =? length W)%nat; cbn [bind]; auto; rewrite IH; cbn [bind]; eauto.
Qed.
(** * Predicting before fitting: undefined instead of an exception. *)
Theorem C66_unfitted_refuted :
  (forall d X, predict_label true [] d X = UB) /\
  (forall d X, (d <> 0)%nat -> predict_label false [] d X = UB) /\
  (forall init num_init K max_iter tol x X, (K <> 0)%nat -> kmeans_object_predict (kmeans_new init num_init K max_iter tol) (x :: X) = UB) /\
  (forall T I V A (walk : dtree T I V -> list T -> outcome A) x X, tree_object_predict walk None (x :: X) = UB).
Proof.
  split; [|split; [|split]].
  - intros d X. unfold predict_label. destruct d; cbn; [|reflexivity]. destruct (mv_defined X []) as [->|(v & ->)]; reflexivity.
  - intros d X H. unfold predict_label. cbn. destruct d; [congruence|reflexivity].
  - intros init ni K n tol x X H. unfold kmeans_object_predict, KMeans_Model.predict. cbn [kmeans_new k_clusters k_centroids mapM]. unfold closest. destruct K; [congruence|]. reflexivity.
  - reflexivity.
Qed.
Print Assumptions C66_unfitted_refuted.

(** * Getters that return a matrix as a column vector are undefined unless it has one column. *)
Theorem C66_getters_refuted : forall nf nf' K s W,
  ((exists v, gnb_get_mean nf s = Ok v) <-> nf = 1%nat) /\ ((exists v, gnb_get_var nf' s = Ok v) <-> nf' = 1%nat) /\
  ((exists v, softmax_get_coef K W = Ok v) <-> K = 1%nat).
Proof.
  assert (H : forall c M, (exists v, as_column c M = Ok v) <-> c = 1%nat).
  { intros c M. unfold as_column. destruct (Nat.eqb_spec c 1); split; [auto|eauto|intros (v & [=])|congruence]. }
  intros. split; [apply H|]. split; apply H.
Qed.
Print Assumptions C66_getters_refuted.

(** Objects of different memory that are fitted: gradient constructor, one epoch, defined result. *)
Example C66_case : exists w, forall m sc, logistic_object_fit (logistic_gradient m 1 (1 / 2) 0 2 1 0 "sgd" "None" false false) sc (fun _ => []) zero_w 1 zero_X [0; 1] = Ok (Some w).
Proof. eexists. intros. apply zero_fit. lra. Qed.
Example C66_kmeans_case : exists o, kmeans_object_fit false (kmeans_new "random" 10 2 0 0) [1; 0]%nat 0 [] 1 [[3]; [5]] = Ok o /\ k_centroids o = [[5]; [3]].
Proof. eexists. split; reflexivity. Qed.
