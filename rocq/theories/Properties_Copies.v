(** C75: what is learned depends on the proportions of the training data, not on how many times the whole of it is repeated.
    Arithmetic is exact (over the reals). *)
From Coq Require Import Reals Lra Lia QArith FunctionalExtensionality.
From Verif Require Import Base Sorting Common_Model Argsort_Model Split_Model Tree_Model Tree_Spec Tree_Proofs TreeReal_Proofs KDReal_Proofs Impurity_Model Impurity_Spec Impurity_Proofs Vec MathFun_Model Stats_Model
  Stats_Spec Loss_Model Loss_Spec Loss_Proofs Shuffle_Model Optim_Model Optim_Spec Lbfgs_Model NB_Model NB_Spec NB_Proofs Linear_Model Linear_Spec KMeans_Model KMeans_Spec Units_Spec RowOrder_Spec RowOrder_Proofs
  RowOrderMore_Proofs UnitsCase_Proofs Copies_Spec Copies_Proofs Properties_Tree Properties_NB Properties_Linear Properties_RowOrder Properties_Units Properties_UnitsMono.
Local Open Scope R_scope.

(** Two rows and three rows to show cases with; here the repeated data simply stand one after the other. *)
Definition two_rows : list (list R) := [[1; 5]; [2; 4]].
Lemma two_width : width 2 two_rows.
Proof. intros r [<-|[<-|[]]]; reflexivity. Qed.
Lemma two_ne : two_rows <> [].
Proof. discriminate. Qed.
Lemma two_repeated {B} (a b : B) : repeated 3 two_rows [a; b] (copies 3 two_rows) (copies 3 [a; b]).
Proof. apply repeated_self; [lia|reflexivity]. Qed.

(** The mean losses and their gradients, with the penalty scaled as the number of rows is. *)
Theorem C75_losses : forall d k lambda X y X' y', width d X -> X <> [] -> repeated k X y X' y' -> forall W,
  mse_evaluate (INR k * lambda) X' y' W = mse_evaluate lambda X y W /\ mse_gradient (INR k * lambda) X' y' W = mse_gradient lambda X y W /\
  log_evaluate (INR k * lambda) X' y' W = log_evaluate lambda X y W /\ log_gradient (INR k * lambda) X' y' W = log_gradient lambda X y W.
Proof.
  intros d k l X y X' y' HW N H W. destruct (mse_copies l HW N H W). destruct (log_copies l HW N H W). auto.
Qed.
Print Assumptions C75_losses.
Example C75_losses_case := C75_losses 2 3 (1 / 2) two_rows [0; 1] _ _ two_width two_ne (two_repeated 0 1) [7; 8].
Theorem C75_softmax_loss : forall K k lambda X (y : list nat) X' y' W, shapes_mat K X y W -> repeated k X y X' y' ->
  softmax_evaluate K (INR k * lambda) X' y' W = softmax_evaluate K lambda X y W /\ softmax_gradient K (INR k * lambda) X' y' W = softmax_gradient K lambda X y W.
Proof. exact (fun K k l X y X' y' W HS H => softmax_copies l HS H). Qed.
Print Assumptions C75_softmax_loss.
Example C75_softmax_loss_case : forall W, W = [[0; 1]; [2; 3]] ->
  softmax_evaluate 2 (INR 3 * 1) (copies 3 two_rows) (copies 3 [1%nat; 0%nat]) W = softmax_evaluate 2 1 two_rows [1%nat; 0%nat] W.
Proof.
  intros W ->. apply C75_softmax_loss; [|apply two_repeated]. split; [exact two_ne|]. split; [discriminate || lia|]. split; [exact two_width|].
  split; [intros r [<-|[<-|[]]]; reflexivity|]. split; [reflexivity|]. intros c [<-|[<-|[]]]; lia.
Qed.

(** Logistic regression by L-BFGS: the same run. *)
Theorem C75_lbfgs : forall d k lambda X y X' y', width d X -> X <> [] -> repeated k X y X' y' ->
  forall policy P mem_size past max_iter tol delta fuel mem0 pfx0 w0,
    lbfgs_optimize policy P (log_evaluate (INR k * lambda) X' y') (log_gradient (INR k * lambda) X' y') mem_size past max_iter tol delta fuel mem0 pfx0 w0 =
    lbfgs_optimize policy P (log_evaluate lambda X y) (log_gradient lambda X y) mem_size past max_iter tol delta fuel mem0 pfx0 w0.
Proof.
  intros d k l X y X' y' HW N H policy P ms past n tol delta fuel m0 p0 w0.
  rewrite (functional_extensionality _ _ (fun W => proj1 (log_copies l HW N H W))), (functional_extensionality _ _ (fun W => proj2 (log_copies l HW N H W))). reflexivity.
Qed.
Print Assumptions C75_lbfgs.
Example C75_lbfgs_case := C75_lbfgs 2 3 (1 / 2) two_rows [0; 1] _ _ two_width two_ne (two_repeated 0 1).

(** Lasso: the same weights, whatever permutations are drawn. *)
Theorem C75_lasso : forall k lambda0 lambda l1_ratio max_iter intercept d X y X' y' (perm perm' : nat -> list nat) shuffle shuffle',
  width d X -> X <> [] -> repeated k X y X' y' ->
  (forall i, is_perm (length X) (perm i)) -> (forall i, is_perm (length X') (perm' i)) ->
  lasso_fit (INR k * lambda0) lambda l1_ratio perm' shuffle' max_iter intercept d X' y' = lasso_fit lambda0 lambda l1_ratio perm shuffle max_iter intercept d X y.
Proof.
  intros k l0 l l1 n b d X y X' y' p p' s s' HW N H Hp Hp'. pose proof H as (Hk & L & HS).
  assert (SX : same_rows X y X y) by (split; [congruence|split; [congruence|apply Permutation_refl]]).
  assert (SX' : same_rows X' y' X' y') by (destruct HS as (_ & L2 & _); split; [congruence|split; [congruence|apply Permutation_refl]]).
  assert (HW' : width d X') by (apply (width_perm (repeated_X H)); now apply width_copies).
  assert (E : forall Xs ys ps ss (lam : R), width d Xs -> same_rows Xs ys Xs ys -> (forall i, is_perm (length Xs) (ps i)) ->
    lasso_fit lam l l1 ps ss n b d Xs ys = lasso_fit lam l l1 (fun _ => seq 0 (length Xs)) false n b d Xs ys).
  { intros Xs ys ps ss lam W S P. apply C65_lasso; [assumption|assumption|assumption|]. intros i. apply Permutation_refl. }
  rewrite (E X' y' p' s'), (E X y p s) by assumption. clear E. unfold lasso_fit, scd_optimize. generalize (zeros (ncols b d)). generalize (seq 0 n).
  induction l2 as [|i l2 IH]; intros w; [reflexivity|]. cbn [scd_loop reshuffle bind fst snd].
  assert (ES : scd_step (mse_gradient (INR k * l0)) l l1 d X' y' w = scd_step (mse_gradient l0) l l1 d X y w) by (unfold scd_step; now rewrite (proj2 (mse_copies l0 HW N H w))).
  rewrite ES. destruct (scd_step (mse_gradient l0) l l1 d X y w) as [w'| | |]; cbn [bind]; auto.
Qed.
Print Assumptions C75_lasso.
Example C75_lasso_case : forall n, lasso_fit (INR 3 * 0) 1 1 (fun _ => rev (seq 0 6)) true n false 2 (copies 3 two_rows) (copies 3 [0; 1]) =
  lasso_fit 0 1 1 (fun _ => seq 0 2) false n false 2 two_rows [0; 1].
Proof.
  intros n. apply C75_lasso; [exact two_width|exact two_ne|apply two_repeated| |].
  - intros i. apply Permutation_refl.
  - intros i. exact (Permutation_sym (Permutation_rev (seq 0 6))).
Qed.

(** Gradient descent with one batch of all rows: the same run (the stopping tolerance is multiplied by the batch size in the code). *)
Theorem C75_gradient_descent : forall d k lambda X y X' y' update decay (perm perm' : nat -> list nat) shuffle shuffle' num_iters_no_change tol max_iter w,
  width d X -> X <> [] -> repeated k X y X' y' ->
  (forall i, is_perm (length X) (perm i)) -> (forall i, is_perm (length X') (perm' i)) ->
  optimize (sgd_step (log_gradient (INR k * lambda)) (log_evaluate (INR k * lambda)) clip_grad update) decay perm' shuffle' (length X') num_iters_no_change (tol / INR k) max_iter X' y' w =
  optimize (sgd_step (log_gradient lambda) (log_evaluate lambda) clip_grad update) decay perm shuffle (length X) num_iters_no_change tol max_iter X y w.
Proof.
  intros d k l X y X' y' up dec p p' s s' nc tol n w HW N H Hp Hp'. pose proof H as (Hk & L & HS). assert (Pk : 0 < INR k) by (apply lt_0_INR; auto).
  assert (SX : same_rows X y X y) by (split; [congruence|split; [congruence|apply Permutation_refl]]).
  assert (SX' : same_rows X' y' X' y') by (destruct HS as (_ & L2 & _); split; [congruence|split; [congruence|apply Permutation_refl]]).
  assert (HW' : width d X') by (apply (width_perm (repeated_X H)); now apply width_copies).
  assert (LX : length X' = (k * length X)%nat) by exact (length_copies H).
  assert (N' : X' <> []) by (intro E; rewrite E in LX; destruct X; [congruence|cbn in LX; lia]).
  unfold optimize. destruct (Nat.eqb_spec (length X') 0) as [E0|_]; [destruct X'; [congruence|discriminate]|]. destruct (Nat.eqb_spec (length X) 0) as [E0|_]; [destruct X; [congruence|discriminate]|].
  set (G := fun s lr => sgd_step (log_gradient l) (log_evaluate l) clip_grad up s lr 0 X y).
  rewrite (@epochs_full _ _ _ (sgd_step (log_gradient l) (log_evaluate l) clip_grad up) dec p s nc tol X y G); [| |assumption|assumption|assumption].
  2: { intros w1 lr X1 y1 S1. unfold G, sgd_step. rewrite <- (log_gradient_perm l HW S1). destruct (log_gradient l X y w1) as [g| | |]; cbn [bind]; try reflexivity.
       destruct (up w1 (clip_grad g) lr) as [w2| | |]; cbn [bind]; try reflexivity. now rewrite <- (log_evaluate_perm l HW S1). }
  rewrite (@epochs_full _ _ _ (sgd_step (log_gradient (INR k * l)) (log_evaluate (INR k * l)) clip_grad up) dec p' s' nc (tol / INR k) X' y' G); [| |assumption|assumption|assumption].
  2: { intros w1 lr X1 y1 S1. unfold G, sgd_step. rewrite <- (log_gradient_perm (INR k * l) HW' S1), (proj2 (log_copies l HW N H w1)). destruct (log_gradient l X y w1) as [g| | |]; cbn [bind]; try reflexivity.
       destruct (up w1 (clip_grad g) lr) as [w2| | |]; cbn [bind]; try reflexivity. now rewrite <- (log_evaluate_perm (INR k * l) HW' S1), (proj1 (log_copies l HW N H w2)). }
  f_equal. rewrite LX, mult_INR. field. lra.
Qed.
Print Assumptions C75_gradient_descent.
Example C75_gradient_descent_case : forall n w,
  optimize (sgd_step (log_gradient (INR 3 * 1)) (log_evaluate (INR 3 * 1)) clip_grad vanilla_update) (step_decay 1 (1 / 2) 2) (fun _ => rev (seq 0 6)) true 6 5 (1 / INR 3) n (copies 3 two_rows) (copies 3 [0; 1]) w =
  optimize (sgd_step (log_gradient 1) (log_evaluate 1) clip_grad vanilla_update) (step_decay 1 (1 / 2) 2) (fun _ => seq 0 2) false 2 5 1 n two_rows [0; 1] w.
Proof.
  intros n w. refine (C75_gradient_descent 2 3 1 two_rows [0; 1] (copies 3 two_rows) (copies 3 [0; 1]) _ _ _ _ _ _ _ _ _ _ two_width two_ne (two_repeated 0 1) _ _).
  - intros i. apply Permutation_refl.
  - intros i. exact (Permutation_sym (Permutation_rev (seq 0 6))).
Qed.

(** Least squares: the same coefficients, or none in both cases; ridge regression with the penalty scaled as the number of rows. *)
Theorem C75_least_squares : forall intercept d k X y X' y', width d X -> repeated k X y X' y' ->
  linear_fit intercept d X' y' = linear_fit intercept d X y /\
  forall lambda, 0 < lambda -> ridge_fit (INR k * lambda) intercept d X' y' = ridge_fit lambda intercept d X y.
Proof.
  intros b d k X y X' y' HW H. pose proof H as (Hk & L & HS). assert (Pk : 0 < INR k) by (apply lt_0_INR; auto).
  assert (HW' : width d X') by (apply (width_perm (repeated_X H)); now apply width_copies).
  assert (L' : length y' = length X') by apply HS.
  assert (HI : forall x, In x X' <-> In x X). { intros x. split; intros Hx. - apply (Permutation_in x (Permutation_sym (repeated_X H))) in Hx. now apply copies_in in Hx. - apply (Permutation_in x (repeated_X H)). now apply copies_in. }
  split.
  - destruct (Classical_Prop.classic (independent b d X)) as [T|T].
    + assert (T' : independent b d X') by (intros w Lw Hw; apply T; [assumption|]; intros x Hx; apply Hw; now apply HI).
      destruct (C48_linear b d X y HW L T) as (w & -> & M). destruct (C48_linear b d X' y' HW' L' T') as (w' & -> & M'). do 2 f_equal.
      symmetry. eapply unique_minimum_same; [|exact M']. eapply (@unique_minimum_scale _ _ _ _ (INR k)); [assumption| |exact M]. intros v _. now apply rss_copies.
    + assert (exists w, length w = n_coef b d /\ w <> zeros (n_coef b d) /\ forall x, In x X -> linear_fun b w x = 0) as (w & Lw & Nw & Zw).
      { apply Classical_Prop.NNPP. intros C. apply T. intros w Lw Zw. apply Classical_Prop.NNPP. intros C'. apply C. exists w. auto. }
      rewrite (C48_singular_refuted b d X y w), (C48_singular_refuted b d X' y' w); auto. intros x Hx. apply Zw. now apply HI.
  - intros l Hl. destruct (C48_ridge l b d X y Hl HW L) as (w & -> & M). destruct (C48_ridge (INR k * l) b d X' y' ltac:(now apply Rmult_lt_0_compat) HW' L') as (w' & -> & M'). do 2 f_equal.
    symmetry. eapply unique_minimum_same; [|exact M']. eapply (@unique_minimum_scale _ _ _ _ (INR k)); [assumption| |exact M]. intros v _. unfold penalised_rss. rewrite (rss_copies b v H). ring.
Qed.
Print Assumptions C75_least_squares.
Example C75_least_squares_case := C75_least_squares true 2 3 two_rows [0; 1] _ _ two_width (two_repeated 0 1).

(** With the same penalty the coefficients do change: the penalty is not divided by the number of rows. *)
Theorem C75_ridge_refuted : exists X y X' y' w w', width 1 X /\ repeated 2 X y X' y' /\
  ridge_fit 1 false 1 X y = Ok (Some w) /\ ridge_fit 1 false 1 X' y' = Ok (Some w') /\ w <> w'.
Proof.
  assert (W : width 1 [[1]]) by (intros r [<-|[]]; reflexivity). assert (W' : width 1 [[1]; [1]]) by (intros r [<-|[<-|[]]]; reflexivity).
  destruct (C48_ridge 1 false 1 [[1]] [1] Rlt_0_1 W eq_refl) as (w & E & L & M). destruct (C48_ridge 1 false 1 [[1]; [1]] [1; 1] Rlt_0_1 W' eq_refl) as (w' & E' & L' & M').
  exists [[1]], [1], [[1]; [1]], [1; 1], w, w'. split; [exact W|]. split; [apply (@repeated_self _ _ 2 [[1]] [1]); [lia|reflexivity]|]. split; [exact E|]. split; [exact E'|]. intros <-.
  destruct w as [|a [|? ?]]; try discriminate. destruct (M [1 / 2] eq_refl) as (M1 & _). destruct (M' [2 / 3] eq_refl) as (M2 & _).
  unfold penalised_rss, rss, linear_fun, total, sqn, dot in M1, M2. cbn in M1, M2.
  assert (Q : 0 <= (a - 1 / 2) * (a - 1 / 2)) by apply Rle_0_sqr. assert (Ea : (a - 1 / 2) * (a - 1 / 2) = 0) by lra. apply Rmult_integral in Ea. assert (a = 1 / 2) as -> by lra. lra.
Qed.
Print Assumptions C75_ridge_refuted.

(** k-means from given centroids: the same final centroids. *)
Theorem C75_kmeans : forall asserts nf tol max_iter k X X' C, rows nf X -> rows nf C -> C <> [] -> (0 < k)%nat -> Permutation (copies k X) X' ->
  lloyd asserts nf (length C) tol X' max_iter C = lloyd asserts nf (length C) tol X max_iter C.
Proof.
  intros a nf tol n k X X' C HX HC Hne Hk HP. rewrite <- (@lloyd_perm a nf tol n (copies k X) X' (width_copies k HX) HP C HC Hne). now apply lloyd_copies.
Qed.
Print Assumptions C75_kmeans.
Example C75_kmeans_case : forall tol n, lloyd false 2 2 tol (copies 3 two_rows) n [[0; 0]; [3; 3]] = lloyd false 2 2 tol two_rows n [[0; 0]; [3; 3]].
Proof.
  intros tol n. apply (C75_kmeans false 2 tol n 3 two_rows _ [[0; 0]; [3; 3]]); [exact two_width|intros r [<-|[<-|[]]]; reflexivity|discriminate|lia|apply Permutation_refl].
Qed.

(** Naive Bayes: the same classes, priors, means and variances, hence the same predictions. *)
Theorem C75_gaussian_nb : forall eps nf k X y X' y', (2 <= nf)%nat -> width nf X -> y <> [] -> repeated k X y X' y' ->
  exists s s', gnb_fit eps nf gnb0 X y = Ok s /\ gnb_fit eps nf gnb0 X' y' = Ok s' /\
    nb_classes (g_labels s') = nb_classes (g_labels s) /\ g_priors s' = g_priors s /\ g_mean s' = g_mean s /\ g_var s' = g_var s /\
    forall asserts rows, gnb_predict_prob asserts s' rows = gnb_predict_prob asserts s rows /\ gnb_predict asserts s' rows = gnb_predict asserts s rows.
Proof.
  intros eps nf k X y X' y' Hnf HW Hy H. destruct (gnb_copies Hnf HW Hy H eps) as (s & s' & E & E' & A1 & A2 & A3 & A4). exists s, s'. repeat (split; [assumption|]).
  assert (LK : length (g_labels s') = length (g_labels s)) by (rewrite <- (map_length fst (g_labels s)), <- (map_length fst (g_labels s')); now f_equal).
  intros a rs. unfold gnb_predict_prob, gnb_predict, gnb_jll. now rewrite LK, A2, A3, A4.
Qed.
Print Assumptions C75_gaussian_nb.
Example C75_gaussian_nb_case := C75_gaussian_nb 1 2 3 two_rows [0; 1] _ _ (le_n 2) two_width ltac:(discriminate) (two_repeated 0 1).
(** Multinomial: the counts grow with the data, so the smoothing has to as well. *)
Theorem C75_multinomial_nb : forall alpha nf k X y X' y' rows, 0 < alpha -> (2 <= nf)%nat -> width nf X -> y <> [] -> (forall r a, In r X -> In a r -> 0 <= a) -> width nf rows ->
  repeated k X y X' y' ->
  exists s s', mnb_fit false nf mnb0 X y = Ok s /\ mnb_fit false nf mnb0 X' y' = Ok s' /\
    nb_classes (m_labels s') = nb_classes (m_labels s) /\ m_priors s' = m_priors s /\
    m_feature_count s' = map (vscale (INR k)) (m_feature_count s) /\ m_class_count s' = vscale (INR k) (m_class_count s) /\
    mnb_predict_prob (INR k * alpha) s' rows = mnb_predict_prob alpha s rows /\ mnb_predict (INR k * alpha) s' rows = mnb_predict alpha s rows.
Proof.
  intros alpha nf k X y X' y' rs Ha Hnf HW Hy Hpos HWr H. destruct (mnb_copies Hnf HW Hy H) as (s & s' & E & E' & A1 & A2 & A3 & A4). exists s, s'. repeat (split; [assumption|]).
  pose proof H as (Hk & L & HS). assert (Pk : 0 < INR k) by (apply lt_0_INR; auto).
  assert (Hy' : copies k y <> []) by (intro E0; now apply copies_nil in E0). assert (LC : length (copies k X) = length (copies k y)) by (rewrite !copies_length; congruence).
  destruct (C46_multinomial alpha nf X y rs Ha Hnf (conj (eq_sym L) HW) Hy Hpos HWr) as (s1 & E1 & P1 & _ & ks1 & K1 & F1).
  destruct (C46_multinomial (INR k * alpha) nf (copies k X) (copies k y) rs ltac:(now apply Rmult_lt_0_compat) Hnf
     (conj LC (width_copies k HW)) Hy' ltac:(intros r a Hr; apply Hpos; now apply copies_in in Hr) HWr) as (s2 & E2 & P2 & _ & ks2 & K2 & F2).
  rewrite (mnb_fit_perm false nf HS), E' in E2. injection E2 as <-. rewrite E in E1. injection E1 as <-. rewrite A1 in *.
  assert (EW : forall x, map (fun l => freq Req_EM_T (copies k y) l * multinomial_likelihood nf (smoothed_share (INR k * alpha) nf (rows_with l (copies k X) (copies k y))) x) (nb_classes (m_labels s)) =
                         map (fun l => freq Req_EM_T y l * multinomial_likelihood nf (smoothed_share alpha nf (rows_with l X y)) x) (nb_classes (m_labels s))).
  { intros x. apply map_ext. intros l. rewrite freq_copies, rows_with_copies by assumption. f_equal. unfold multinomial_likelihood. f_equal. apply map_ext. intros j. f_equal.
    apply share_copies; [assumption|]. assert (0 < alpha * INR nf) by (apply Rmult_lt_0_compat; [assumption|apply lt_0_INR; lia]).
    assert (0 <= total (map (fun i => total (col i (rows_with l X y))) (seq 0 nf))); [|lra]. apply total_nonneg. intros i Hi. apply in_seq in Hi. apply total_nonneg. intros r Hr.
    pose proof (rows_with_In _ _ _ _ Hr) as Hr'. apply (Hpos r); [assumption|]. apply nth_In. rewrite (HW r Hr'). lia. }
  split.
  - rewrite P1, P2. f_equal. apply map_ext. intros x. now rewrite EW.
  - rewrite K1, K2. do 2 f_equal. clear - F1 F2 EW. revert ks1 ks2 F1 F2. induction rs as [|x rs IH]; intros ks1 ks2 F1 F2; inversion F1; inversion F2; subst; [reflexivity|].
    f_equal; [|now apply IH]. rewrite EW in *. eapply first_largest_unique; eassumption.
Qed.
Print Assumptions C75_multinomial_nb.
Lemma two_nonneg r a : In r two_rows -> In a r -> 0 <= a.
Proof. intros [<-|[<-|[]]] [<-|[<-|[]]]; lra. Qed.
Example C75_multinomial_nb_case := C75_multinomial_nb 1 2 3 two_rows [0; 1] _ _ two_rows ltac:(lra) (le_n 2) two_width ltac:(discriminate) two_nonneg two_width (two_repeated 0 1).

(** Statistics over the rows: means, variances and medians; covariances shrink by the correction for the number of rows. *)
Theorem C75_statistics : forall nc k X X', width nc X -> X <> [] -> (0 < k)%nat -> Permutation (copies k X) X' ->
  mean nc X' 0 = mean nc X 0 /\ mean nc X' (-1) = mean nc X (-1) /\ var nc X' 0 = var nc X 0 /\ var nc X' (-1) = var nc X (-1) /\
  median nc X' 0 = median nc X 0 /\ median nc X' (-1) = median nc X (-1) /\
  ((2 <= length X)%nat -> forall i j, (i < nc)%nat -> (j < nc)%nat ->
     entry (cov nc X') i j = entry (cov nc X) i j * (INR k * (INR (length X) - 1) / (INR k * INR (length X) - 1))).
Proof.
  intros nc k X X' HW N Hk HP. destruct (C65_statistics nc (copies k X) X' HP) as (<- & <- & <- & <- & _ & _ & <- & <- & <-).
  unfold mean, var, median. cbn [Z.eqb Pos.eqb]. rewrite !copies_concat. rewrite <- !copies_map. rewrite !col_means_copies, !mean1_copies, !median1_copies; try assumption.
  2: { destruct X; [congruence|discriminate]. }
  2: { intros r Hr. apply in_map_iff in Hr. destruct Hr as (r0 & <- & Hr). rewrite map_length. now apply HW. }
  repeat (split; [reflexivity|]). split; [|split; [reflexivity|]].
  - f_equal. apply functional_extensionality. intros j. unfold column. rewrite <- copies_map. now apply median1_copies.
  - intros Hn i j Hi Hj. now apply cov_copies.
Qed.
Print Assumptions C75_statistics.
Example C75_statistics_case : entry (cov 2 (copies 3 two_rows)) 0 1 = entry (cov 2 two_rows) 0 1 * (3 / 5).
Proof.
  destruct (C75_statistics 2 3 two_rows _ two_width two_ne ltac:(lia) (Permutation_refl _)) as (_ & _ & _ & _ & _ & _ & E). rewrite E by (cbn; lia). f_equal. cbn. field.
Qed.

(** A tree of one classification split: repeating the data adds candidate thresholds at the data values themselves, and the first of the equally
    good ones is taken.  The split moves from halfway between 2 and 10 to 2, and 5 changes class. *)
Lemma six_labels : fit_labels Rltb [] [[0];[0];[2];[2];[10];[10]] [0;0;0;0;1;1] = Ok [(0,4%nat);(1,2%nat)].
Proof.
  unfold fit_labels. cbn [length seq mapM vget nth_error bind]. f_equal. cbn [fold_left]. unfold count_label, cmp_of. cbn [om_find om_set].
  repeat (rdec; cbn [om_find om_set]). reflexivity.
Qed.
Lemma six_value : class_value Rltb [(0,4%nat);(1,2%nat)] [0;0;0;0;1;1] = Ok ([4;2]%nat, 0%nat, false).
Proof. unfold class_value, count_label, cmp_of. cbn [fold_left om_find om_set map fst]. repeat (rdec; cbn [om_find om_set map fst]). reflexivity. Qed.
Lemma six_thresholds : choose_feature_threshold Rltb Rmid [0;0;2;2;10;10] = Ok [Rmid 0 0; Rmid 0 2; Rmid 2 2; Rmid 2 10; Rmid 10 10].
Proof.
  unfold choose_feature_threshold, argsort_col, Rmid. cbn. unfold pos_lt_by. cbn. repeat (rdec; cbn). unfold eqb. repeat (rdec; cbn). reflexivity.
Qed.
Ltac gain_tac := unfold class_gain, gini, class_probs, count_label, push_weight, cmp_of; cbn [length repeat Nat.eqb negb andb fold_left combine om_find om_set fst snd];
  repeat (rdec; cbn [om_find om_set fst snd app]); cbn; unfold class_prob, Rsum; cbn; f_equal; field.
Lemma six_gain_2 : class_gain Rltb Gini [0;0;0;0;1;1] [0;0] [0;0;1;1] = Ok (2/3).
Proof. gain_tac. Qed.
Lemma six_gain_4 : class_gain Rltb Gini [0;0;0;0;1;1] [0;0;0;0] [1;1] = Ok 1.
Proof. gain_tac. Qed.
Lemma six_gain_6 : class_gain Rltb Gini [0;0;0;0;1;1] [0;0;0;0;1;1] [] = Ok (5/9).
Proof. gain_tac. Qed.
Lemma six_split : best_split Rltb Rmid Rgtb dbl_min (class_gain Rltb Gini) 1 [[0];[0];[2];[2];[10];[10]] [0;0;0;0;1;1] = Ok (1, Some (0%nat, Rmid 2 2)).
Proof.
  unfold best_split. cbn [seq foldM column_of mapM vget nth_error bind]. rewrite six_thresholds. cbn [bind foldM]. unfold try_split.
  assert (D1 : divide_on_feature (leb Rltb) [[0];[0];[2];[2];[10];[10]] 0 (Rmid 0 0) = Ok ([0;1]%nat,[2;3;4;5]%nat)) by (unfold divide_on_feature, leb, Rmid; cbn; repeat (rdec; cbn); reflexivity).
  assert (D2 : divide_on_feature (leb Rltb) [[0];[0];[2];[2];[10];[10]] 0 (Rmid 0 2) = Ok ([0;1]%nat,[2;3;4;5]%nat)) by (unfold divide_on_feature, leb, Rmid; cbn; repeat (rdec; cbn); reflexivity).
  assert (D3 : divide_on_feature (leb Rltb) [[0];[0];[2];[2];[10];[10]] 0 (Rmid 2 2) = Ok ([0;1;2;3]%nat,[4;5]%nat)) by (unfold divide_on_feature, leb, Rmid; cbn; repeat (rdec; cbn); reflexivity).
  assert (D4 : divide_on_feature (leb Rltb) [[0];[0];[2];[2];[10];[10]] 0 (Rmid 2 10) = Ok ([0;1;2;3]%nat,[4;5]%nat)) by (unfold divide_on_feature, leb, Rmid; cbn; repeat (rdec; cbn); reflexivity).
  assert (D5 : divide_on_feature (leb Rltb) [[0];[0];[2];[2];[10];[10]] 0 (Rmid 10 10) = Ok ([0;1;2;3;4;5]%nat,[])) by (unfold divide_on_feature, leb, Rmid; cbn; repeat (rdec; cbn); reflexivity).
  rewrite D1, D2, D3, D4, D5. cbn [bind mapM vget nth_error]. rewrite six_gain_2, six_gain_4, six_gain_6. cbn [bind fst]. unfold Rgtb. pose proof dbl_min_half.
  repeat (rdec; cbn [bind fst]). reflexivity.
Qed.
Lemma six_fit : classifier_fit Gini (Params 2%nat 0%nat 0%nat 0) 1 [] [[0];[0];[2];[2];[10];[10]] [0;0;0;0;1;1] =
  Ok ([(0,4%nat);(1,2%nat)], Node (Info 6 ([4;2]%nat, 0%nat) (Some (0%nat, Rmid 2 2, 1))) (Node (Info 4 ([4;0]%nat, 0%nat) None) Null Null) (Node (Info 2 ([0;2]%nat, 1%nat) None) Null Null)).
Proof.
  unfold classifier_fit. rewrite six_labels. cbn [bind]. unfold grow. cbn [max_depth Tree_Model.build_tree].
  rewrite six_value. cbn [bind length]. change (6 <? min_samples_split (Params 2 0 0 0))%nat with false. change (max_depth (Params 2 0 0 0) <? 0)%nat with false. cbv iota.
  rewrite six_split. cbn [bind]. unfold Rgtb at 1. cbn [min_decrease]. rdec. cbn [negb column_of mapM vget nth_error bind map].
  unfold leb, Rmid. repeat rdec. cbn [negb]. cbn [rows_where where_ where_from mapM vget nth_error bind]. unfold rows_where. cbn -[class_value].
  assert (V1 : class_value Rltb [(0,4%nat);(1,2%nat)] [0;0;0;0] = Ok ([4;0]%nat, 0%nat, false)).
  { unfold class_value, count_label, cmp_of. cbn [fold_left om_find om_set map fst]. repeat (rdec; cbn [om_find om_set map fst]). reflexivity. }
  assert (V2 : class_value Rltb [(0,4%nat);(1,2%nat)] [1;1] = Ok ([0;2]%nat, 1%nat, false)).
  { unfold class_value, count_label, cmp_of. cbn [fold_left om_find om_set map fst]. repeat (rdec; cbn [om_find om_set map fst]). reflexivity. }
  rewrite V1, V2. reflexivity.
Qed.
Theorem C75_classifier_refuted : exists X y X' y' q p p', repeated 2 X y X' y' /\
  classify Gini (Params 2%nat 0%nat 0%nat 0) 1 X y [q] = Ok (p, [0%nat]) /\ classify Gini (Params 2%nat 0%nat 0%nat 0) 1 X' y' [q] = Ok (p', [1%nat]).
Proof.
  destruct (three_classes 0 2 10 5) as (p & E); [lra|lra|].
  exists [[0];[2];[10]], [0;0;1], [[0];[0];[2];[2];[10];[10]], [0;0;0;0;1;1], [5], p. eexists. split; [|split].
  - split; [lia|]. split; [reflexivity|]. split; [reflexivity|]. split; [reflexivity|]. cbn. apply perm_skip.
    apply (Permutation_trans (l' := [([0],0);([2],0);([10],1);([2],0);([10],1)])); [symmetry; exact (Permutation_middle [([2],0);([10],1)] [([2],0);([10],1)] ([0],0))|]. apply perm_skip, perm_skip, perm_swap.
  - rewrite E. unfold Rmid. rdec. reflexivity.
  - unfold classify. rewrite six_fit. cbn [bind]. unfold predict_class, predict_prob. cbn [mapM walk n_split vget nth_error bind]. unfold leb, Rmid. rdec. cbn. reflexivity.
Qed.
Print Assumptions C75_classifier_refuted.

(** A regression tree cannot be grown at all on repeated data: every largest value is then tied, see C26. *)
Lemma has_max (l : list R) : l <> [] -> exists m, In m l /\ forall v, In v l -> v <= m.
Proof.
  induction l as [|a l IH]; [congruence|]. intros _. destruct l as [|b l]; [exists a; split; [now left|]; intros v [->|[]]; lra|].
  destruct IH as (m & H1 & H2); [discriminate|]. destruct (Rle_dec a m) as [A|A].
  - exists m. split; [now right|]. intros v [<-|Hv]; [lra|auto].
  - exists a. split; [now left|]. intros v [<-|Hv]; [lra|]. specialize (H2 v Hv). lra.
Qed.
Theorem C75_regressor_refuted : forall min_stdev P nf k X y X' y', matrix nf X -> (0 < nf)%nat -> (2 <= k)%nat -> repeated k X y X' y' ->
  (3 <= length X')%nat -> (min_samples_split P <= length X')%nat -> (exists v, reg_value min_stdev y' = Ok (v, false)) ->
  regressor_fit SquaredError min_stdev P nf X' y' = UB.
Proof.
  intros ms P nf k X y X' y' HM Hnf Hk H H3 Hs (v & Hv). pose proof H as (Hk0 & L & HS).
  assert (HM' : matrix nf (copies k X)) by (intros r Hr; apply HM; now apply copies_in in Hr).
  rewrite <- (C65_regressor SquaredError ms P nf _ _ X' y' HM' HS). rewrite <- (Permutation_length (same_rows_X HS)) in H3, Hs. rewrite <- (reg_value_perm ms (same_rows_y HS)) in Hv.
  assert (NX : X <> []) by (intros ->; rewrite (proj2 (copies_nil (@nil (list R)) Hk0) eq_refl) in H3; cbn in H3; lia).
  destruct (has_max (map (fun r => nth 0 r 0) X)) as (m & Hm & Hmax); [destruct X; [congruence|discriminate]|].
  apply in_map_iff in Hm. destruct Hm as (r & <- & Hr). destruct (In_nth_error _ _ Hr) as (i & Hi).
  assert (Li : (i < length X)%nat) by (apply nth_error_Some; congruence).
  assert (Er : nth_error r 0 = Some (nth 0 r 0)) by (pose proof (HM r Hr) as Lr; destruct r; [cbn in Lr; lia|reflexivity]).
  apply C26_tied_maximum_refuted with (f := 0%nat) (m := nth 0 r 0) (i := i) (j := (length X + i)%nat); auto.
  - rewrite !copies_length. congruence.
  - exists v. exact Hv.
  - lia.
  - exists r, r. destruct k as [|[|k]]; [lia|lia|]. rewrite !copies_S. rewrite nth_error_app1 by assumption. rewrite nth_error_app2 by lia.
    replace (length X + i - length X)%nat with i by lia. rewrite nth_error_app1 by assumption. auto.
  - intros r' u Hr' Hu. apply copies_in in Hr'; [|assumption]. apply Hmax. apply in_map_iff. exists r'. split; [|assumption]. destruct r'; [discriminate|]. cbn in *. congruence.
Qed.
Print Assumptions C75_regressor_refuted.
(** On these three rows a tree can be grown (C26), on two copies of them it cannot. *)
Example C75_regressor_refuted_case : (exists t, regressor_fit SquaredError 0 (Params 3%nat 0%nat 5%nat 0) 1 [[0]; [1]; [2]] [0; 0; 1] = Ok t) /\
  regressor_fit SquaredError 0 (Params 3%nat 0%nat 5%nat 0) 1 (copies 2 [[0]; [1]; [2]]) (copies 2 [0; 0; 1]) = UB.
Proof.
  assert (M : matrix 1 [[0]; [1]; [2]]) by (intros r [<-|[<-|[<-|[]]]]; reflexivity). split.
  - apply C26_defined; [exact M|reflexivity|discriminate|cbn; lia|]. intros f Hf. assert (f = 0%nat) as -> by lia. cbn.
    repeat constructor; cbn; intros C; repeat (destruct C as [C|C]; [injection C; lra|]); exact C.
  - apply (C75_regressor_refuted 0 _ 1 2 [[0]; [1]; [2]] [0; 0; 1]); [exact M|lia|lia|apply repeated_self; [lia|reflexivity]|cbn; lia|cbn; lia|].
    unfold reg_value. cbn [copies repeat concat app mean_vec bind]. eexists. do 2 f_equal. apply negb_false_iff, Rltb_true. apply sqrt_lt_R0. apply Rmult_lt_0_compat.
    + apply sqrt_lt_R0. unfold Rsum. cbn. lra.
    + apply Rinv_0_lt_compat. cbn. lra.
Qed.
