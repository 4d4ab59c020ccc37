(** C65: the order of the training rows does not matter.  Arithmetic is exact (over the reals). *)
From Coq Require Import Reals Lra QArith FunctionalExtensionality.
From Verif Require Import Base Common_Model Tree_Model Tree_Spec Tree_Proofs TreeReal_Proofs KDReal_Proofs Impurity_Model Vec MathFun_Model Stats_Model
  Loss_Model Loss_Spec Optim_Model Optim_Spec Lbfgs_Model NB_Model Linear_Model KMeans_Model KMeans_Spec RowOrder_Spec RowOrder_Proofs RowOrderMore_Proofs.
Local Open Scope R_scope.

(** Decision trees: the same tree is grown, or the call fails in the same way. *)
Theorem C65_classifier : forall c P nf X y X' y', matrix nf X -> same_rows X y X' y' ->
  classifier_fit c P nf [] X y = classifier_fit c P nf [] X' y'.
Proof.
  intros c P nf X y X' y' HM H. unfold classifier_fit. rewrite !fit_labels_spec by apply H. cbn [bind]. rewrite (counts_perm (same_rows_y H)).
  rewrite (grow_perm Rmid Rltb_order Rgtb_order dbl_min (class_gain Rltb c) _ P (@class_gain_perm c) (@class_value_perm _) HM H). reflexivity.
Qed.
Print Assumptions C65_classifier.
Theorem C65_regressor : forall c min_stdev P nf X y X' y', matrix nf X -> same_rows X y X' y' ->
  regressor_fit c min_stdev P nf X y = regressor_fit c min_stdev P nf X' y'.
Proof.
  intros c ms P nf X y X' y' HM H.
  exact (grow_perm Rmid Rltb_order Rgtb_order dbl_min (reg_gain c) _ P (@reg_gain_perm c) (@reg_value_perm ms) HM H).
Qed.
Print Assumptions C65_regressor.

(** Naive Bayes: the same means, variances, counts and priors. *)
Theorem C65_naive_bayes : forall X y X' y', same_rows X y X' y' ->
  (forall var_smoothing nf, gnb_fit var_smoothing nf gnb0 X y = gnb_fit var_smoothing nf gnb0 X' y') /\
  (forall asserts nf, mnb_fit asserts nf mnb0 X y = mnb_fit asserts nf mnb0 X' y').
Proof. intros X y X' y' H. split; intros; [now apply gnb_fit_perm|now apply mnb_fit_perm]. Qed.
Print Assumptions C65_naive_bayes.

(** Least squares and ridge regression: the same coefficients. *)
Theorem C65_least_squares : forall intercept d X y X' y', same_rows X y X' y' ->
  linear_fit intercept d X y = linear_fit intercept d X' y' /\
  forall lambda, ridge_fit lambda intercept d X y = ridge_fit lambda intercept d X' y'.
Proof.
  intros b d X y X' y' H. unfold linear_fit, ridge_fit. rewrite (gram_perm (ncols b d) (same_rows_X (with_ones_same b H))).
  split; intros; apply normal_solution_perm; now apply with_ones_same.
Qed.
Print Assumptions C65_least_squares.

(** Lasso: moreover neither the shuffle flag nor the permutations drawn matter. *)
Theorem C65_lasso : forall lambda0 lambda l1_ratio max_iter intercept d X y X' y' (perm perm' : nat -> list nat) shuffle shuffle',
  width d X -> same_rows X y X' y' ->
  (forall i, is_perm (length X) (perm i)) -> (forall i, is_perm (length X) (perm' i)) ->
  lasso_fit lambda0 lambda l1_ratio perm shuffle max_iter intercept d X y = lasso_fit lambda0 lambda l1_ratio perm' shuffle' max_iter intercept d X' y'.
Proof.
  intros l0 l l1 n b d X y X' y' p p' s s' HW H Hp Hp'. unfold lasso_fit, scd_optimize.
  refine (scd_perm (mse_gradient l0) l l1 d p p' s s' _ Hp Hp' _ _ _ H).
  - intros X1 y1 W H1. exact (mse_gradient_perm l0 HW H1 W).
  - split; [apply H|]. split; [apply H|apply Permutation_refl].
Qed.
Print Assumptions C65_lasso.

(** The losses and their gradients on a whole data set, for any parameters and any shapes. *)
Theorem C65_losses : forall d lambda X y X' y', width d X -> same_rows X y X' y' -> forall W,
  mse_evaluate lambda X y W = mse_evaluate lambda X' y' W /\ mse_gradient lambda X y W = mse_gradient lambda X' y' W /\
  log_evaluate lambda X y W = log_evaluate lambda X' y' W /\ log_gradient lambda X y W = log_gradient lambda X' y' W /\
  (forall threshold, hinge_evaluate lambda threshold X y W = hinge_evaluate lambda threshold X' y' W) /\
  (forall threshold grad0, hinge_gradient grad0 lambda threshold X y W = hinge_gradient grad0 lambda threshold X' y' W) /\
  (forall delta, huber_evaluate lambda delta X y W = huber_evaluate lambda delta X' y' W) /\
  (forall delta, huber_gradient lambda delta X y W = huber_gradient lambda delta X' y' W).
Proof.
  intros d l X y X' y' HW H W.
  repeat split; intros;
    [eapply mse_evaluate_perm|eapply mse_gradient_perm|eapply log_evaluate_perm|eapply log_gradient_perm|eapply hinge_evaluate_perm|eapply hinge_gradient_perm
    |eapply huber_evaluate_perm|eapply huber_gradient_perm]; eassumption.
Qed.
Print Assumptions C65_losses.
Theorem C65_softmax_loss : forall K lambda X (y : list nat) X' y' W, shapes_mat K X y W -> same_rows X y X' y' ->
  softmax_evaluate K lambda X y W = softmax_evaluate K lambda X' y' W /\ softmax_gradient K lambda X y W = softmax_gradient K lambda X' y' W.
Proof. exact softmax_perm. Qed.
Print Assumptions C65_softmax_loss.
(** Logistic regression by L-BFGS: the same run. *)
Theorem C65_lbfgs : forall d lambda X y X' y', width d X -> same_rows X y X' y' ->
  forall policy P mem_size past max_iter tol delta fuel mem0 pfx0 w0,
    lbfgs_optimize policy P (log_evaluate lambda X y) (log_gradient lambda X y) mem_size past max_iter tol delta fuel mem0 pfx0 w0 =
    lbfgs_optimize policy P (log_evaluate lambda X' y') (log_gradient lambda X' y') mem_size past max_iter tol delta fuel mem0 pfx0 w0.
Proof.
  intros d l X y X' y' HW H policy P ms past n tol delta fuel m0 p0 w0.
  rewrite (functional_extensionality _ _ (log_evaluate_perm l HW H)), (functional_extensionality _ _ (log_gradient_perm l HW H)). reflexivity.
Qed.
Print Assumptions C65_lbfgs.

(** k-means from given centroids: the same final centroids. *)
Theorem C65_kmeans : forall asserts nf tol max_iter X X' C, rows nf X -> rows nf C -> C <> [] -> Permutation X X' ->
  lloyd asserts nf (length C) tol X max_iter C = lloyd asserts nf (length C) tol X' max_iter C.
Proof. intros a nf tol n X X' C HX HC Hne HP. now apply lloyd_perm. Qed.
Print Assumptions C65_kmeans.

(** Statistics over the rows. *)
Theorem C65_statistics : forall nc X X', Permutation X X' ->
  mean nc X 0 = mean nc X' 0 /\ mean nc X (-1) = mean nc X' (-1) /\ var nc X 0 = var nc X' 0 /\ var nc X (-1) = var nc X' (-1) /\
  sum nc X 0 = sum nc X' 0 /\ sum nc X (-1) = sum nc X' (-1) /\ cov nc X = cov nc X' /\
  median nc X 0 = median nc X' 0 /\ median nc X (-1) = median nc X' (-1).
Proof.
  intros nc X X' H. pose proof (concat_perm H) as HC.
  split; [now apply mean0_perm|]. split; [unfold mean; cbn; now rewrite (mean1_perm HC)|]. split; [now apply var0_perm|].
  split; [unfold var; cbn; now rewrite (mean1_perm HC), (mean1_perm (Permutation_map sq HC))|].
  split; [now apply sum0_perm|]. split; [now apply sum1_perm|]. split.
  - unfold cov. rewrite (Permutation_length H). apply map_ext. intros i. apply map_ext. intros j. f_equal. apply Rsum_map_perm. now apply center_perm.
  - split; unfold median; cbn.
    + f_equal. apply functional_extensionality. intros j. apply median1_perm. unfold column. now apply Permutation_map.
    + now rewrite (median1_perm HC).
Qed.
Print Assumptions C65_statistics.

(** Stochastic gradient descent without shuffling is the documented exception: the order of the rows is the order of the steps. *)
Definition one_epoch_sgd (X : list (list R)) (y : list R) : outcome (list R) :=
  optimize (sgd_step (mse_gradient 0) (mse_evaluate 0) (fun g => g) vanilla_update) (fun _ => Ok 1) (fun _ => []) false 1 0 0 1 X y [0].
Theorem C65_sgd_refuted : exists X y X' y' w w', width 1 X /\ same_rows X y X' y' /\
  one_epoch_sgd X y = Ok [w] /\ one_epoch_sgd X' y' = Ok [w'] /\ w <> w'.
Proof.
  exists [[1]; [1]], [0; 1], [[1]; [1]], [1; 0]. do 2 eexists. split; [intros r [<-|[<-|[]]]; reflexivity|]. split.
  - split; [reflexivity|]. split; [reflexivity|]. cbn. apply perm_swap.
  - unfold one_epoch_sgd, optimize. cbn. split; [reflexivity|]. split; [reflexivity|]. lra.
Qed.
Print Assumptions C65_sgd_refuted.

(** Three rows with two features in two orders. *)
Definition rows_a : list (list R) := [[1; 5]; [2; 4]; [3; 9]].
Definition rows_b : list (list R) := [[3; 9]; [1; 5]; [2; 4]].
Lemma rows_ab {L} (a b c : L) : same_rows rows_a [a; b; c] rows_b [c; a; b].
Proof.
  split; [reflexivity|]. split; [reflexivity|]. unfold rows_a, rows_b. cbn [combine].
  eapply perm_trans; [|apply perm_swap]. apply perm_skip. apply perm_swap.
Qed.
Lemma rows_a_ok : matrix 2 rows_a /\ width 2 rows_a /\ rows 2 rows_a.
Proof. repeat split; [| |repeat constructor]; intros r [<-|[<-|[<-|[]]]]; reflexivity. Qed.
Example C65_case : rows_a <> rows_b /\ mse_evaluate 0 rows_a [1; 0; 0] [1; 1] = mse_evaluate 0 rows_b [0; 1; 0] [1; 1] /\
  (exists v, mse_evaluate 0 rows_a [1; 0; 0] [1; 1] = Ok v) /\
  classifier_fit Gini (Params 2%nat 1%nat 5%nat 0) 2 [] rows_a [0; 1; 1] = classifier_fit Gini (Params 2%nat 1%nat 5%nat 0) 2 [] rows_b [1; 0; 1].
Proof.
  destruct rows_a_ok as (H1 & H2 & _). split; [unfold rows_a, rows_b; intros H; injection H; intros; lra|].
  split; [apply (C65_losses _ _ _ _ _ _ H2 (rows_ab 1 0 0))|]. split; [eexists; cbn; reflexivity|]. apply C65_classifier; [assumption|apply rows_ab].
Qed.
