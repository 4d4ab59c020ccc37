(** C81: what the strength of the penalty does to ridge regression and the lasso. *)
From Coq Require Import Reals Lra Psatz String.
From Verif Require Import Base Common_Model RDR_Proofs KDReal_Proofs Impurity_Spec Impurity_Proofs Vec Loss_Model Loss_Spec Loss_Proofs
  Shuffle_Model Shuffle_Proofs Optim_Model Optim_Spec Optim_Proofs OptimRun_Proofs Descent_Spec Descent_Proofs Linear_Model Linear_Spec LinSolve_Proofs Linear_Proofs
  Objects_Model Properties_Optim Properties_Linear Properties_Objects Properties_Descent Scd_Spec Scd_Proofs Properties_Scd Penalty_Spec Penalty_Proofs.
Local Open Scope R_scope.
Local Open Scope list_scope.

Lemma ridge_of lambda i d X y w : 0 < lambda -> width d X -> length y = length X -> ridge_fit lambda i d X y = Ok (Some w) ->
  unique_minimum (n_coef i d) (penalised_rss lambda i X y) w.
Proof. intros HL W Ly E. destruct (C48_ridge lambda i d X y HL W Ly) as (v & E' & M). rewrite E in E'. injection E' as <-. exact M. Qed.
Lemma linear_of i d X y w : width d X -> length y = length X -> independent i d X -> linear_fit i d X y = Ok (Some w) ->
  unique_minimum (n_coef i d) (rss i X y) w.
Proof. intros W Ly T E. destruct (C48_linear i d X y W Ly T) as (v & E' & M). rewrite E in E'. injection E' as <-. exact M. Qed.

(** A stronger penalty gives smaller coefficients and a worse fit to the training data. *)
Theorem C81_ridge_path : forall l1 l2 i d X y w1 w2, 0 < l1 <= l2 -> width d X -> length y = length X ->
  ridge_fit l1 i d X y = Ok (Some w1) -> ridge_fit l2 i d X y = Ok (Some w2) ->
  sqn w2 <= sqn w1 /\ rss i X y w1 <= rss i X y w2.
Proof.
  intros l1 l2 i d X y w1 w2 H W Ly E1 E2. destruct (Req_dec l1 l2) as [<-|D]. { rewrite E1 in E2. injection E2 as <-. lra. }
  destruct (@ridge_of l1 i d X y w1) as (L1 & M1); auto; [lra|]. destruct (@ridge_of l2 i d X y w2) as (L2 & M2); auto; [lra|].
  destruct (M1 w2 L2) as (A & _). destruct (M2 w1 L1) as (B & _). unfold penalised_rss in A, B. apply (@exchange _ _ _ _ l1 l2); auto; lra.
Qed.
Print Assumptions C81_ridge_path.
(** Where least squares has a result, ridge regression has smaller coefficients, and the sum of squared residuals grows by at
    most the penalty times what the coefficients lose. *)
Theorem C81_ridge_linear : forall lambda i d X y wl wr, 0 < lambda -> width d X -> length y = length X -> independent i d X ->
  linear_fit i d X y = Ok (Some wl) -> ridge_fit lambda i d X y = Ok (Some wr) ->
  sqn wr <= sqn wl /\ rss i X y wl <= rss i X y wr <= rss i X y wl + lambda * (sqn wl - sqn wr).
Proof.
  intros lambda i d X y wl wr HL W Ly T El Er. destruct (linear_of _ _ _ _ _ W Ly T El) as (Ll & Ml). destruct (@ridge_of lambda i d X y wr) as (Lr & Mr); auto.
  destruct (Ml wr Lr) as (A & _). destruct (Mr wl Ll) as (B & _). unfold penalised_rss in B. split; [nra|]. split; lra.
Qed.
Print Assumptions C81_ridge_linear.
(** The coefficients are at most [sqrt (|y|^2 / (4 lambda))] long whatever the data, and the predictions for the training
    samples are no longer than the labels. *)
Theorem C81_ridge_bounds : forall lambda i d X y w, 0 < lambda -> width d X -> length y = length X -> ridge_fit lambda i d X y = Ok (Some w) ->
  4 * lambda * sqn w <= sqn y /\ sqn (predictions i w X) <= sqn y.
Proof.
  intros lambda i d X y w HL W Ly E. destruct (@ridge_of lambda i d X y w) as (L & M); auto. apply (@ridge_bounds lambda i (n_coef i d)); auto; [lra|]. intros v Lv. now apply M.
Qed.
Print Assumptions C81_ridge_bounds.

(** Ridge regression and least squares are linear in the labels. *)
Theorem C81_ridge_mixed : forall lambda i d X y y' w w' a b, 0 < lambda -> width d X -> length y = length X -> length y' = length X ->
  ridge_fit lambda i d X y = Ok (Some w) -> ridge_fit lambda i d X y' = Ok (Some w') ->
  ridge_fit lambda i d X (mixed a b y y') = Ok (Some (mixed a b w w')).
Proof.
  intros lambda i d X y y' w w' a b HL W Ly Ly'. unfold ridge_fit. rewrite with_ones_ext. intros E E'.
  apply (@normal_mixed a b (Some lambda) (ncols i d) (map (ext i) X) y y' w w'); rewrite ?map_length; auto; [cbn; lra|now apply width_ext|].
  intros v Lv _ H. cbn [lam] in H. assert (Z : sqn v = 0) by (apply (Rmult_eq_reg_l lambda); lra). rewrite <- Lv. apply zeros_of. now apply sqn_zero.
Qed.
Print Assumptions C81_ridge_mixed.
Theorem C81_linear_mixed : forall i d X y y' w w' a b, width d X -> length y = length X -> length y' = length X -> independent i d X ->
  linear_fit i d X y = Ok (Some w) -> linear_fit i d X y' = Ok (Some w') ->
  linear_fit i d X (mixed a b y y') = Ok (Some (mixed a b w w')).
Proof.
  intros i d X y y' w w' a b W Ly Ly' T. unfold linear_fit. rewrite with_ones_ext. intros E E'.
  apply (@normal_mixed a b None (ncols i d) (map (ext i) X) y y' w w'); rewrite ?map_length; auto; [cbn; lra|now apply width_ext|].
  intros v Lv H _. rewrite ncols_coef in *. apply T; [auto|]. intros x Hx. rewrite <- (@ext_fun i d v x); [apply H; now apply in_map|auto|now rewrite ncols_coef].
Qed.
Print Assumptions C81_linear_mixed.
(** So a change of the labels moves the coefficients of ridge regression by a bounded amount, whatever the data. *)
Lemma mixed_diff u v : length u = length v -> mixed 1 (-1) u v = vsub u v.
Proof. unfold mixed, vadd, vsub, vscale. revert v; induction u as [|a u IH]; intros [|b v] L; cbn in *; try lia; [reflexivity|]. f_equal; [ring|]. apply IH; lia. Qed.
Theorem C81_ridge_stable : forall lambda i d X y y' w w', 0 < lambda -> width d X -> length y = length X -> length y' = length X ->
  ridge_fit lambda i d X y = Ok (Some w) -> ridge_fit lambda i d X y' = Ok (Some w') ->
  4 * lambda * sqn (vsub w w') <= sqn (vsub y y').
Proof.
  intros lambda i d X y y' w w' HL W Ly Ly' E E'. pose proof (C81_ridge_mixed lambda i d X y y' w w' 1 (-1) HL W Ly Ly' E E') as M.
  destruct (@ridge_of lambda i d X y w) as (L & _); auto. destruct (@ridge_of lambda i d X y' w') as (L' & _); auto.
  rewrite !mixed_diff in M by congruence. apply (C81_ridge_bounds lambda i d X _ _ HL W) in M; [tauto|]. rewrite vsub_length; congruence.
Qed.
Print Assumptions C81_ridge_stable.

(** If no feature has a mean product with the labels of more than the penalty, the lasso leaves all coefficients 0, after
    any number of iterations, in whatever order the samples are shuffled, and whatever step parameter is chosen. *)
Theorem C81_lasso_zero : forall max_iter lambda l1_ratio shuffle verbose perm d X y, 0 <= lambda -> 0 < l1_ratio -> (0 < d)%nat ->
  width d X -> X <> [] -> length y = length X -> (shuffle = true -> forall k, is_perm (length X) (perm k)) ->
  (forall j, (j < d)%nat -> Rabs (column_labels j X y) / INR (length X) <= lambda) ->
  lasso_object_fit (lasso_new max_iter lambda l1_ratio shuffle verbose false) perm d X y = Ok (zeros d).
Proof.
  intros max_iter lambda l1_ratio shuffle verbose perm d X y HL HB Pd W N Ly Hp Hc. cbn. unfold lasso_fit, scd_optimize.
  apply (@lasso_rests lambda l1_ratio perm shuffle d X y); auto. repeat split; auto.
Qed.
Print Assumptions C81_lasso_zero.
(** Coefficients at which the lasso with a given penalty stays: a stronger penalty has a smaller sum of absolute coefficients
    and a larger error. *)
Theorem C81_lasso_path : forall l1 l2 b1 b2 d X y w1 w2, 0 <= l1 < l2 -> 0 < b1 -> 0 < b2 -> (0 < d)%nat -> width d X -> X <> [] -> length y = length X ->
  length w1 = d -> length w2 = d ->
  scd_step (mse_gradient 0) l1 b1 d X y w1 = Ok w1 -> scd_step (mse_gradient 0) l2 b2 d X y w2 = Ok w2 ->
  norm1 w2 <= norm1 w1 /\ mse_loss 0 X y w1 <= mse_loss 0 X y w2.
Proof.
  intros l1 l2 b1 b2 d X y w1 w2 H B1 B2 Pd W N Ly L1 L2 E1 E2.
  assert (Q : forall l b w v, 0 <= l -> 0 < b -> length w = d -> length v = d -> scd_step (mse_gradient 0) l b d X y w = Ok w ->
              mse_loss 0 X y w + l * norm1 w <= mse_loss 0 X y v + l * norm1 v).
  { intros l b w v Hl Hb Lw Lv E. assert (HS : shapes X y w) by (split; [auto|]; rewrite Lw; auto).
    destruct (@mse_full 0 X y w (Rle_refl 0) HS X y w) as (_ & g & Eg & Lg & T); [repeat split; auto|auto|].
    apply (C39_fixed_point_optimal _ _ (mse_gradient 0) l b (mse_loss 0 X y) X y w g v); auto; try lia; try congruence.
    apply T; congruence. }
  apply (@exchange _ _ _ _ l1 l2); auto; [apply (Q l1 b1)|apply (Q l2 b2)]; auto; lra.
Qed.
Print Assumptions C81_lasso_path.

(** Logistic regression trained on the whole data with the conditions of C59: the coefficients stay within a ball that shrinks as the
    penalty grows, whatever the data. *)
Theorem C81_logistic : forall P perm w0 d X y B,
  width d X -> X <> [] -> length y = length X -> length w0 = n_coef true d -> (forall b, In b y -> 0 <= b <= 1) ->
  (lp_shuffle P = true -> forall k, is_perm (length X) (perm k)) -> lp_batch P = length X -> (0 < lp_step_size P)%nat ->
  0 < lp_lambda P -> 0 < lp_alpha P -> 0 < lp_gamma P <= 1 -> lp_alpha P * log_curvature (lp_lambda P) (map (fun x => x ++ [1]) X) <= 1 ->
  0 < lp_tol P -> log_loss (lp_lambda P) (map (fun x => x ++ [1]) X) y w0 < INR B * (lp_tol P * INR (length X)) -> (lp_no_change P * B < lp_max_iter P)%nat ->
  exists w, logistic_fit P "sgd" "l2" perm w0 d X y = Ok (Some w) /\ length w = n_coef true d /\
    sqn w <= 2 * INR (length X) * log_loss (lp_lambda P) (map (fun x => x ++ [1]) X) y w0 / lp_lambda P.
Proof.
  intros P perm w0 d X y B W NX Ly L0 Hlab Hp EB St Hl Ha Hg HC Ht HF HB.
  destruct (C59_logistic_regression P perm w0 d X y B) as (w & E & Lw & M); auto; [lra|]. exists w. split; [exact E|]. split; [exact Lw|].
  set (X1 := map (fun x => x ++ [1]) X) in *. assert (Hn : 0 < INR (length X)) by (apply lt_0_INR; destruct X; [congruence|cbn; lia]).
  assert (N1 : X1 <> []) by (unfold X1; destruct X; [congruence|discriminate]). assert (L1 : length X1 = length X) by apply map_length.
  pose proof (@log_loss_nonneg 0 X1 y w (Rle_refl 0) N1 Hlab) as P0.
  assert (S : log_loss (lp_lambda P) X1 y w = log_loss 0 X1 y w + lp_lambda P * sqn w / (2 * INR (length X))).
  { unfold log_loss, penalty, sqn. rewrite L1. field. lra. }
  assert (Q : lp_lambda P * sqn w / (2 * INR (length X)) <= log_loss (lp_lambda P) X1 y w0) by lra.
  apply (Rmult_le_reg_l (lp_lambda P / (2 * INR (length X)))); [apply Rdiv_lt_0_compat; lra|].
  replace (lp_lambda P / (2 * INR (length X)) * sqn w) with (lp_lambda P * sqn w / (2 * INR (length X))) by (field; lra).
  replace (lp_lambda P / (2 * INR (length X)) * (2 * INR (length X) * log_loss (lp_lambda P) X1 y w0 / lp_lambda P)) with (log_loss (lp_lambda P) X1 y w0) by (field; lra). exact Q.
Qed.
Print Assumptions C81_logistic.

(** The theorems meet non-trivial data: three points of a line. *)
Example C81_ridge_case : exists w1 w2, ridge_fit 1 true 1 [[0]; [1]; [2]] [1; 3; 5] = Ok (Some w1) /\ ridge_fit 2 true 1 [[0]; [1]; [2]] [1; 3; 5] = Ok (Some w2) /\
  sqn w2 <= sqn w1 /\ 8 * sqn w2 <= 35 /\ w1 <> w2.
Proof.
  destruct (C48_ridge 1 true 1 [[0]; [1]; [2]] [1; 3; 5]) as (w1 & E1 & M1); [lra|apply line_rows|reflexivity|].
  destruct (C48_ridge 2 true 1 [[0]; [1]; [2]] [1; 3; 5]) as (w2 & E2 & M2); [lra|apply line_rows|reflexivity|].
  exists w1, w2. split; [exact E1|]. split; [exact E2|]. split; [|split].
  - apply (C81_ridge_path 1 2 true 1 [[0]; [1]; [2]] [1; 3; 5]); auto; [lra|apply line_rows].
  - pose proof (C81_ridge_bounds 2 true 1 [[0]; [1]; [2]] [1; 3; 5] w2 ltac:(lra) line_rows eq_refl E2) as (B & _). replace (sqn [1; 3; 5]) with 35 in B by (unfold sqn, dot; cbn; ring). lra.
  - intros <-. destruct M1 as (L & M1). destruct M2 as (_ & M2). cbn in L. destruct w1 as [|a [|b [|? ?]]]; try discriminate L.
    assert (P1 : forall u v, penalised_rss 1 true [[0]; [1]; [2]] [1; 3; 5] [a; b] <= penalised_rss 1 true [[0]; [1]; [2]] [1; 3; 5] [u; v]) by (intros; apply M1; reflexivity).
    assert (P2 : forall u v, penalised_rss 2 true [[0]; [1]; [2]] [1; 3; 5] [a; b] <= penalised_rss 2 true [[0]; [1]; [2]] [1; 3; 5] [u; v]) by (intros; apply M2; reflexivity).
    clear M1 M2 E1 E2. unfold penalised_rss, rss, linear_fun, sqn, dot in P1, P2. cbn in P1, P2.
    assert (A1 : 6 * a + 3 * b - 13 = 0). { destruct (Req_dec (6 * a + 3 * b - 13) 0) as [|D]; auto. specialize (P1 (a - (6 * a + 3 * b - 13) / 6) b). set (e := (6 * a + 3 * b - 13) / 6) in *. assert (e <> 0) by (unfold e; lra). assert (6 * a + 3 * b - 13 = 6 * e) by (unfold e; field). nra. }
    assert (A2 : 7 * a + 3 * b - 13 = 0). { destruct (Req_dec (7 * a + 3 * b - 13) 0) as [|D]; auto. specialize (P2 (a - (7 * a + 3 * b - 13) / 7) b). set (e := (7 * a + 3 * b - 13) / 7) in *. assert (e <> 0) by (unfold e; lra). assert (7 * a + 3 * b - 13 = 7 * e) by (unfold e; field). nra. }
    assert (A3 : 3 * a + 4 * b - 9 = 0). { destruct (Req_dec (3 * a + 4 * b - 9) 0) as [|D]; auto. specialize (P1 a (b - (3 * a + 4 * b - 9) / 4)). set (e := (3 * a + 4 * b - 9) / 4) in *. assert (e <> 0) by (unfold e; lra). assert (3 * a + 4 * b - 9 = 4 * e) by (unfold e; field). nra. }
    lra.
Qed.
Lemma line_independent : independent true 1 [[0]; [1]; [2]].
Proof.
  intros w L H. cbn in L. destruct w as [|a [|b [|? ?]]]; try discriminate L. pose proof (H [0]) as H0. pose proof (H [1]) as H1. cbn in H0, H1. unfold dot in H0, H1. cbn in H0, H1.
  specialize (H0 (or_introl eq_refl)). specialize (H1 (or_intror (or_introl eq_refl))). unfold zeros. cbn. f_equal; [lra|]. f_equal. lra.
Qed.
Example C81_linear_case : exists wl wr, linear_fit true 1 [[0]; [1]; [2]] [1; 3; 5] = Ok (Some wl) /\ ridge_fit 1 true 1 [[0]; [1]; [2]] [1; 3; 5] = Ok (Some wr) /\ sqn wr <= sqn wl.
Proof.
  destruct (C48_linear true 1 [[0]; [1]; [2]] [1; 3; 5] line_rows eq_refl line_independent) as (wl & El & _).
  destruct (C48_ridge 1 true 1 [[0]; [1]; [2]] [1; 3; 5] Rlt_0_1 line_rows eq_refl) as (wr & Er & _). exists wl, wr. split; [exact El|]. split; [exact Er|].
  apply (C81_ridge_linear 1 true 1 [[0]; [1]; [2]] [1; 3; 5] wl wr Rlt_0_1 line_rows eq_refl line_independent El Er).
Qed.
Example C81_lasso_zero_case : lasso_object_fit (lasso_new 7 2 1 false false false) (fun _ => []) 2 [[1; 0]; [-1; 2]] [1; -1] = Ok (zeros 2).
Proof.
  apply C81_lasso_zero; try lra; try lia; try discriminate; auto.
  - intros r [<-|[<-|[]]]; reflexivity.
  - intros [|[|j]] Hj; [| |lia]; unfold column_labels; cbn; [rewrite Rabs_right by lra|rewrite Rabs_left by lra]; lra.
Qed.
Lemma lasso_rest_one l v : 0 <= l -> 0 < v -> scd_step (mse_gradient 0) l 1 1 [[1]] [v + l] [v] = Ok [v].
Proof.
  intros Hl Hv. assert (HS : shapes [[1]] [v + l] [v]) by (split; [discriminate|]; split; [intros r [<-|[]]; reflexivity|reflexivity]).
  unfold scd_step. rewrite mse_gradient_glm by auto. unfold glm_grad, mse_dphi, mse_c, dot, vsum, vadd, vscale, zeros. cbn -[Rltb scd_eta scd_descent].
  unfold scd_pick. cbn -[Rltb scd_eta scd_descent].
  match goal with |- context [scd_eta l 1 v ?g] => replace g with (- l) by field end.
  assert (E : scd_eta l 1 v (- l) = 0). { unfold scd_eta, Rltb. destruct (Rlt_dec _ _); [field|exfalso; lra]. }
  rewrite E. replace (scd_descent l 1 v (- l) 0) with 0 by (unfold scd_descent; rewrite Rplus_0_r; ring). unfold Rltb. destruct (Rlt_dec (-1) 0); [|exfalso; lra]. cbn. f_equal. f_equal. ring.
Qed.
Example C81_lasso_path_case : norm1 [1] <= norm1 [2] /\ mse_loss 0 [[1]] [3] [2] <= mse_loss 0 [[1]] [3] [1].
Proof.
  apply (C81_lasso_path 1 2 1 1 1 [[1]] [3] [2] [1]); try lra; try lia; try discriminate; auto; [intros r [<-|[]]; reflexivity| |].
  - replace 3 with (2 + 1) by ring. apply lasso_rest_one; lra.
  - replace 3 with (1 + 2) by ring. apply lasso_rest_one; lra.
Qed.
Example C81_logistic_case : let P := LogisticParams 1 (1 / 4) 1 1 0 1 2 6 5 false (fun _ _ _ => UB) in
  exists w, logistic_fit P "sgd" "l2" (fun _ => []) [0; 0] 1 [[1]; [-1]] [1; 0] = Ok (Some w) /\ length w = 2%nat /\ sqn w <= 4 * ln 2.
Proof.
  intro P. assert (E0 : log_loss 1 [[1; 1]; [-1; 1]] [1; 0] [0; 0] = ln 2).
  { unfold log_loss, over_samples, penalty, cross_entropy, dot, total. cbn. replace (1 * 0 + (1 * 0 + 0)) with 0 by ring. replace (-1 * 0 + (1 * 0 + 0)) with 0 by ring. rewrite logistic_0. replace (1 - / 2) with (/ 2) by field. rewrite ln_Rinv by lra. field. }
  destruct (C81_logistic P (fun _ => []) [0; 0] 1 [[1]; [-1]] [1; 0] 1) as (w & E & L & Q); unfold P in *; cbn [lp_lambda lp_alpha lp_gamma lp_step_size lp_l1_ratio lp_tol lp_batch lp_max_iter lp_no_change lp_shuffle] in *;
    try discriminate; try lia; try lra; try reflexivity.
  - intros r [<-|[<-|[]]]; reflexivity.
  - intros b [<-|[<-|[]]]; lra.
  - unfold log_curvature, sum_squares, sqn, dot, total. cbn. lra.
  - cbn [map app] in *. rewrite E0. pose proof ln_2_below. cbn. lra.
  - exists w. split; [exact E|]. split; [exact L|]. cbn [map app] in Q. rewrite E0 in Q. cbn in Q. lra.
Qed.
