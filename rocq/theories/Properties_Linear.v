(** C48, C49: the linear models. *)
From Coq Require Import Reals Lra Lia String.
From Verif Require Import Base Common_Model RDR_Proofs KDReal_Proofs Impurity_Model Impurity_Spec Impurity_Proofs Vec MathFun_Model MathFun_Proofs Stats_Spec
  Loss_Model Loss_Spec Loss_Proofs LossHinge_Proofs LossSoftmax_Proofs Shuffle_Model Shuffle_Proofs Optim_Model Optim_Spec Optim_Proofs OptimRun_Proofs
  NB_Model NB_Spec NB_Proofs Linear_Model Linear_Spec LinSolve_Proofs Linear_Proofs Properties_MathFun Properties_Loss Properties_Optim.
Local Open Scope R_scope.

(** * C48: least squares and ridge *)
(** When the columns (with the ones, if there is an intercept) are independent, [fit] finds the one vector of coefficients
    with the least sum of squared residuals. *)
Theorem C48_linear : forall i d X y, width d X -> length y = length X -> independent i d X ->
  exists w, linear_fit i d X y = Ok (Some w) /\ unique_minimum (n_coef i d) (rss i X y) w.
Proof.
  intros i d X y W Ly T. unfold linear_fit. rewrite with_ones_ext.
  destruct (@normal_solution_spec None (ncols i d) (map (ext i) X) y) as (w & E & M & _); [cbn; lra|now apply width_ext|now rewrite map_length| |].
  - intros v Lv H _. rewrite ncols_coef in *. apply T; [auto|]. intros x Hx. rewrite <- (@ext_fun i d v x); [apply H; now apply in_map|auto|now rewrite ncols_coef].
  - exists w. split; [exact E|]. rewrite <- ncols_coef. eapply unique_minimum_ext; [|exact M]. intros v Lv. rewrite (@obj_ext None i d) by auto. unfold penalised_rss. cbn [lam]. lra.
Qed.
Print Assumptions C48_linear.
(** Otherwise the matrix that is inverted is singular, and there is no finite result, although minimisers exist. *)
Theorem C48_singular_refuted : forall i d X y w, width d X -> length y = length X -> length w = n_coef i d -> w <> zeros (n_coef i d) ->
  (forall x, In x X -> linear_fun i w x = 0) -> linear_fit i d X y = Ok None.
Proof.
  intros i d X y w W Ly Lw N H. unfold linear_fit. rewrite with_ones_ext. rewrite <- ncols_coef in *. apply normal_solution_singular with (v := w); auto.
  - destruct w; [exfalso; apply N; cbn in Lw; rewrite <- Lw; reflexivity|cbn in Lw; lia].
  - now apply width_ext.
  - now rewrite map_length.
  - intros r Hr. apply in_map_iff in Hr. destruct Hr as (x & <- & Hx). rewrite (@ext_fun i d w x) by auto. auto.
Qed.
Print Assumptions C48_singular_refuted.
(** In particular with fewer samples than coefficients. *)
Theorem C48_few_samples_refuted : forall i d X y, width d X -> length y = length X -> (length X < n_coef i d)%nat -> linear_fit i d X y = Ok None.
Proof.
  intros i d X y W Ly L. rewrite <- ncols_coef in L. destruct (@wide_kernel (ncols i d) (map (ext i) X)) as (v & Lv & Nv & K); [now apply width_ext|now rewrite map_length|].
  apply C48_singular_refuted with (w := v); auto; try (now rewrite <- ncols_coef). intros x Hx. rewrite <- (@ext_fun i d v x) by auto. apply K. now apply in_map.
Qed.
Print Assumptions C48_few_samples_refuted.
(** Ridge regression with a positive penalty always finds the one minimiser of the penalised sum. *)
Theorem C48_ridge : forall lambda i d X y, 0 < lambda -> width d X -> length y = length X ->
  exists w, ridge_fit lambda i d X y = Ok (Some w) /\ unique_minimum (n_coef i d) (penalised_rss lambda i X y) w.
Proof.
  intros lambda i d X y HL W Ly. unfold ridge_fit. rewrite with_ones_ext.
  destruct (@normal_solution_spec (Some lambda) (ncols i d) (map (ext i) X) y) as (w & E & M & _); [cbn; lra|now apply width_ext|now rewrite map_length| |].
  - intros v Lv _ H. cbn [lam] in H. assert (Z : sqn v = 0) by (apply (Rmult_eq_reg_l lambda); lra). rewrite <- Lv. apply zeros_of. now apply sqn_zero.
  - exists w. split; [exact E|]. rewrite <- ncols_coef. eapply unique_minimum_ext; [|exact M]. intros v Lv. now rewrite (@obj_ext (Some lambda) i d) by auto.
Qed.
Print Assumptions C48_ridge.
Lemma line_rows : width 1 [[0]; [1]; [2]].
Proof. intros r [<-|[<-|[<-|[]]]]; reflexivity. Qed.
Example C48_ridge_case : exists w, ridge_fit 1 true 1 [[0]; [1]; [2]] [1; 3; 5] = Ok (Some w) /\ unique_minimum (n_coef true 1) (penalised_rss 1 true [[0]; [1]; [2]] [1; 3; 5]) w :=
  C48_ridge 1 true 1 [[0]; [1]; [2]] [1; 3; 5] Rlt_0_1 line_rows eq_refl.
(** The residuals of least squares with an intercept add up to 0.  Those of ridge regression add up to lambda times the
    intercept, because the intercept is penalised like the other coefficients. *)
Lemma intercept_equation l d X y w : width d X -> length y = length X -> length w = S d ->
  map (fun a => dot a w) (normal_matrix l (S d) (map (ext true) X)) = vsum (S d) (map2 vscale y (map (ext true) X)) ->
  total (map (fun p => snd p - linear_fun true w (fst p)) (combine X y)) = lam l * last w 0.
Proof.
  intros W Ly Lw E. set (u := basis (S d) d). assert (Lu : length u = S d) by apply basis_length.
  assert (U : forall z, length z = S d -> dot z u = last z 0).
  { intros z Lz. destruct (split_last z Lz) as (Ez & Lr). rewrite Ez at 1. unfold u. rewrite (@dot_nths (S d)) by (auto; rewrite <- ?Ez; auto; apply basis_length).
    rewrite (total_ext _ (fun j => if (j =? d)%nat then last z 0 else 0)).
    2: { intros j Hj. apply in_seq in Hj. rewrite nth_basis by lia. destruct (Nat.eqb_spec j d) as [->|]; [|ring]. rewrite app_nth2 by lia. rewrite Lr, Nat.sub_diag. cbn [nth]. ring. }
    rewrite seq_S, map_app, total_app. cbn [map plus]. rewrite Nat.eqb_refl. rewrite (total_ext _ (fun _ => 0)); [rewrite total_const; cbn; lra|].
    intros j Hj. apply in_seq in Hj. destruct (Nat.eqb_spec j d); [lia|auto]. }
  pose proof (@normal_dot l (S d) (map (ext true) X) u w (width_ext true W) Lu Lw) as N. rewrite E in N. rewrite dot_comm, tmv_dot in N by (try apply (width_ext true W); rewrite map_length; auto).
  rewrite (dot_comm u w), (U w Lw) in N. rewrite <- (total_combine_l (fun r => dot r u * dot r w) (map (ext true) X) y) in N by (now rewrite map_length).
  rewrite map2_swap, map2_combine in N. rewrite (total_ext _ (fun p => snd p + -1 * linear_fun true w (fst p))) by (intros; ring). rewrite total_plus, total_scal.
  assert (G : forall g, total (map g (combine (map (ext true) X) y)) = total (map (fun p => g (ext true (fst p), snd p)) (combine X y))).
  { clear. intro g. revert y. induction X as [|x X IH]; intros [|a y]; cbn [map combine]; auto. unfold total in *. cbn [fold_right map]. now rewrite IH. }
  rewrite !G in N. cbn [fst snd] in N.
  assert (A : forall p, In p (combine X y) -> dot (ext true (fst p)) u = 1 /\ dot (ext true (fst p)) w = linear_fun true w (fst p)).
  { intros p Hp. destruct p as (x, a). apply in_combine_l in Hp. cbn [fst]. rewrite U by (apply (@ext_length true d); auto). rewrite (@ext_fun true d w x) by auto. split; [apply last_last|auto]. }
  rewrite (total_ext (fun p => snd p * dot (ext true (fst p)) u) snd) in N by (intros p Hp; destruct (A p Hp) as (-> & _); ring).
  rewrite (total_ext (fun p => dot (ext true (fst p)) u * dot (ext true (fst p)) w) (fun p => linear_fun true w (fst p))) in N by (intros p Hp; destruct (A p Hp) as (-> & ->); ring). lra.
Qed.
Theorem C48_linear_residuals : forall d X y w, width d X -> length y = length X -> independent true d X -> linear_fit true d X y = Ok (Some w) ->
  total (map (fun p => snd p - linear_fun true w (fst p)) (combine X y)) = 0.
Proof.
  intros d X y w W Ly T E. unfold linear_fit in E. rewrite with_ones_ext in E. cbn [ncols] in E.
  destruct (@normal_solution_spec None (S d) (map (ext true) X) y) as (w' & E' & (L & _) & N); [cbn; lra|apply (width_ext true W)|now rewrite map_length| |].
  - intros v Lv H _. change (S d) with (ncols true d) in *. rewrite ncols_coef in *. apply T; auto. intros x Hx. rewrite <- (@ext_fun true d v x); [apply H; now apply in_map|auto|now rewrite ncols_coef].
  - cbn [normal_matrix] in E'. rewrite E in E'. injection E' as <-. rewrite (@intercept_equation None d X y w) by auto. cbn [lam]. ring.
Qed.
Print Assumptions C48_linear_residuals.
Theorem C48_ridge_intercept : forall lambda d X y w, 0 < lambda -> width d X -> length y = length X -> ridge_fit lambda true d X y = Ok (Some w) ->
  total (map (fun p => snd p - linear_fun true w (fst p)) (combine X y)) = lambda * last w 0.
Proof.
  intros lambda d X y w HL W Ly E. unfold ridge_fit in E. rewrite with_ones_ext in E. cbn [ncols] in E.
  destruct (@normal_solution_spec (Some lambda) (S d) (map (ext true) X) y) as (w' & E' & (L & _) & N); [cbn; lra|apply (width_ext true W)|now rewrite map_length| |].
  - intros v Lv _ H. cbn [lam] in H. assert (Z : sqn v = 0) by (apply (Rmult_eq_reg_l lambda); lra). rewrite <- Lv. apply zeros_of. now apply sqn_zero.
  - cbn [normal_matrix] in E'. rewrite E in E'. injection E' as <-. now rewrite (@intercept_equation (Some lambda) d X y w) by auto.
Qed.
Print Assumptions C48_ridge_intercept.
Example C48_ridge_intercept_case : exists w, ridge_fit 1 true 1 [[0]; [1]; [2]] [1; 3; 5] = Ok (Some w) /\
  total (map (fun p => snd p - linear_fun true w (fst p)) (combine [[0]; [1]; [2]] [1; 3; 5])) = 1 * last w 0.
Proof.
  destruct C48_ridge_case as (w & E & _). exists w. split; [exact E|]. exact (C48_ridge_intercept 1 1 [[0]; [1]; [2]] [1; 3; 5] w Rlt_0_1 line_rows eq_refl E).
Qed.
Theorem C48_lengths : forall i d X y, length y <> length X -> linear_fit i d X y = UB /\ forall lambda, ridge_fit lambda i d X y = UB.
Proof.
  intros i d X y H. unfold linear_fit, ridge_fit, normal_solution, tmv. rewrite with_ones_ext, map_length.
  destruct (Nat.eqb_spec (length X) (length y)); [congruence|]. cbn [bind]. auto.
Qed.
Print Assumptions C48_lengths.
Example C48_lengths_case : linear_fit true 1 [[0]; [1]; [2]] [1; 3] = UB /\ forall lambda, ridge_fit lambda true 1 [[0]; [1]; [2]] [1; 3] = UB :=
  C48_lengths true 1 [[0]; [1]; [2]] [1; 3] ltac:(discriminate).
(** Three points on the line 2 x + 1 determine it. *)
Example C48_case : independent true 1 [[0]; [1]; [2]] /\ (forall w, linear_fit true 1 [[0]; [1]; [2]] [1; 3; 5] = Ok (Some w) -> w = [2; 1]) /\
  (exists w, linear_fit true 1 [[0]; [1]; [2]] [1; 3; 5] = Ok (Some w)) /\ linear_fit true 1 [[7]; [7]] [1; 3] = Ok None.
Proof.
  assert (I : independent true 1 [[0]; [1]; [2]]).
  { intros w L H. destruct w as [|a [|b [|]]]; try discriminate. pose proof (H [0] (or_introl eq_refl)) as H0. pose proof (H [1] (or_intror (or_introl eq_refl))) as H1. unfold linear_fun in *. cbn in H0, H1.
    assert (b = 0) by lra. assert (a = 0) by lra. subst. reflexivity. }
  assert (W : width 1 [[0]; [1]; [2]]) by (intros x [<-|[<-|[<-|[]]]]; reflexivity).
  destruct (C48_linear true 1 [[0]; [1]; [2]] [1; 3; 5] W eq_refl I) as (w & E & L & M). split; [exact I|]. split; [|split; [eauto|]].
  - intros w' E'. rewrite E in E'. injection E' as <-. specialize (M [2; 1] eq_refl). symmetry. apply M.
    assert (Z : rss true [[0]; [1]; [2]] [1; 3; 5] [2; 1] = 0) by (unfold rss, linear_fun; cbn; ring).
    rewrite Z. unfold rss. apply total_nonneg. intros. rewrite <- Rsqr_pow2. apply Rle_0_sqr.
  - apply C48_singular_refuted with (w := [1; -7]); try reflexivity; [intros x [<-|[<-|[]]]; reflexivity|unfold zeros; cbn; intro Q; injection Q; lra|].
    intros x [<-|[<-|[]]]; unfold linear_fun; cbn; ring.
Qed.

(** * C49: the intercept, and what the classifiers predict *)
(** [predict] of the regressions, and the score behind the other predictions, is the function the fit was chosen for. *)
Theorem C49_prediction : forall i d w X, width d X -> length w = n_coef i d -> predict_label i w d X = Ok (map (linear_fun i w) X).
Proof.
  intros i d w X W Lw. unfold predict_label. destruct i; cbn [n_coef] in Lw.
  - assert (L1 : (d <=? length w)%nat = true) by (apply Nat.leb_le; lia). rewrite L1. assert (Lw' : length w = S d) by lia. destruct (split_last w Lw') as (E & Lr).
    assert (F : firstn d w = removelast w) by (rewrite removelast_firstn_len; f_equal; lia).
    rewrite F, mv_ok by (now rewrite Lr). cbn [bind]. rewrite Lw'. replace (S d - 1)%nat with d by lia.
    assert (G : vget w d = Ok (last w 0)). { unfold vget. rewrite E. rewrite nth_error_app2 by lia. rewrite Lr, Nat.sub_diag. rewrite last_last. reflexivity. }
    rewrite G. cbn [bind]. rewrite map_map. reflexivity.
  - rewrite <- Lw, Nat.eqb_refl. apply mv_ok. now rewrite Lw.
Qed.
Print Assumptions C49_prediction.
Example C49_prediction_case : predict_label true [2; 1] 1 [[0]; [1]; [2]] = Ok [linear_fun true [2; 1] [0]; linear_fun true [2; 1] [1]; linear_fun true [2; 1] [2]] :=
  C49_prediction true 1 [2; 1] [[0]; [1]; [2]] line_rows eq_refl.
Theorem C49_fitted_prediction : forall i d X y w, width d X -> length y = length X -> independent i d X -> linear_fit i d X y = Ok (Some w) ->
  exists p, predict_label i w d X = Ok p /\ forall v q, length v = n_coef i d -> predict_label i v d X = Ok q -> sqn (vsub y p) <= sqn (vsub y q).
Proof.
  intros i d X y w W Ly T E. destruct (C48_linear i d X y W Ly T) as (w' & E' & L & M). rewrite E in E'. injection E' as <-.
  exists (map (linear_fun i w) X). split; [now apply C49_prediction|]. intros v q Lv Eq. rewrite C49_prediction in Eq by auto. injection Eq as <-.
  assert (G : forall v, sqn (vsub y (map (linear_fun i v) X)) = rss i X y v).
  { clear - Ly. intro v. unfold rss. rewrite sqn_sum. unfold vsub. revert y Ly. induction X as [|x X IH]; intros [|a y] Ly; cbn in Ly; try lia; [reflexivity|].
    cbn [map map2 combine fst snd]. unfold total in *. cbn [fold_right]. rewrite IH by lia. ring. }
  rewrite !G. now apply M.
Qed.
Print Assumptions C49_fitted_prediction.
(** With an intercept, rows with fewer features than the model was fitted on are accepted: the first coefficients are
    used. *)
Theorem C49_short_rows_refuted : forall d d' w X, width d' X -> (d' <= d)%nat -> length w = S d ->
  predict_label true w d' X = Ok (map (fun x => dot x (firstn d' w) + last w 0) X).
Proof.
  intros d d' w X W L Lw. unfold predict_label. assert (L1 : (d' <=? length w)%nat = true) by (apply Nat.leb_le; lia). rewrite L1.
  rewrite mv_ok by (rewrite firstn_length, Nat.min_l by lia; auto). cbn [bind]. destruct (split_last w Lw) as (E & Lr). rewrite Lw. replace (S d - 1)%nat with d by lia.
  assert (G : vget w d = Ok (last w 0)). { unfold vget. rewrite E. rewrite nth_error_app2 by lia. rewrite Lr, Nat.sub_diag. rewrite last_last. reflexivity. }
  rewrite G. cbn [bind]. now rewrite map_map.
Qed.
Print Assumptions C49_short_rows_refuted.

Lemma mv_mismatch d X w : width d X -> X <> [] -> length w <> d -> mv X w = UB.
Proof. intros W N L. destruct X as [|x X]; [congruence|]. unfold mv. cbn [mapM]. rewrite (W x) by now left. destruct (Nat.eqb_spec d (length w)); [congruence|]. reflexivity. Qed.
(** Lasso and perceptron with an intercept reserve one coefficient more than the samples given to the optimizer have
    features: the first product is undefined. *)
Theorem C49_lasso_intercept_refuted : forall l0 lambda l1_ratio perm shuffle max_iter d X y, width d X -> X <> [] -> length y = length X ->
  (shuffle = true -> forall k, is_perm (length X) (perm k)) -> (0 < max_iter)%nat ->
  lasso_fit l0 lambda l1_ratio perm shuffle max_iter true d X y = UB.
Proof.
  intros l0 lambda l1_ratio perm shuffle max_iter d X y W N Ly P M. unfold lasso_fit, scd_optimize. destruct max_iter as [|m]; [lia|]. cbn [seq scd_loop].
  destruct (@reshuffle_spec _ _ perm shuffle X y Ly P 0%nat X y) as (X' & y' & -> & RO & _); [repeat split; auto|auto|]. cbn [bind fst snd].
  destruct (reordered_incl (le_n 1) Ly RO) as (IX & _). pose proof RO as (L1 & _). unfold scd_step, mse_gradient.
  rewrite (@mv_mismatch d X'); [reflexivity| | |]; [intros x Hx; apply W, IX, Hx|destruct X'; [destruct X; [congruence|discriminate]|discriminate]|].
  unfold zeros. rewrite repeat_length. cbn. lia.
Qed.
Print Assumptions C49_lasso_intercept_refuted.
(** Without intercept lasso returns [d] coefficients and the penalised loss does not exceed that of 0 (features in [-1, 1], curvature at least that of the loss). *)
Theorem C49_lasso : forall l0 lambda l1_ratio perm shuffle max_iter d X y, 0 <= l0 -> 0 <= lambda -> 1 + l0 / INR (length X) <= l1_ratio ->
  width d X -> X <> [] -> length y = length X -> (0 < d)%nat -> (forall x j, In x X -> Rabs (nth j x 0) <= 1) ->
  (shuffle = true -> forall k, is_perm (length X) (perm k)) ->
  exists w, lasso_fit l0 lambda l1_ratio perm shuffle max_iter false d X y = Ok w /\ length w = d /\
    mse_loss l0 X y w + lambda * norm1 w <= mse_loss l0 X y (zeros d).
Proof.
  intros l0 lambda l1_ratio perm shuffle max_iter d X y H0 HL HB W N Ly Pd Bx P. assert (Lz : length (zeros d) = d) by apply zeros_length.
  destruct (C39_lasso l0 lambda l1_ratio X y (zeros d) perm shuffle max_iter) as (w & E & L & M); auto; [repeat split; auto; now rewrite Lz|now rewrite Lz|].
  rewrite Lz in E, L. exists w. split; [exact E|]. split; [exact L|]. assert (Z : norm1 (zeros d) = 0). { unfold norm1, zeros. clear. induction d; cbn; [reflexivity|]. unfold total in *. cbn. rewrite IHd, Rabs_R0. lra. }
  rewrite Z in M. lra.
Qed.
Print Assumptions C49_lasso.
Example C49_lasso_case : exists w, lasso_fit 0 (1 / 10) 1 (fun _ => []) false 5 false 1 [[1]; [-1]] [3; -3] = Ok w /\ length w = 1%nat /\
  mse_loss 0 [[1]; [-1]] [3; -3] w + 1 / 10 * norm1 w <= mse_loss 0 [[1]; [-1]] [3; -3] (zeros 1).
Proof.
  apply C49_lasso; try lra; try discriminate; try lia; auto.
  - intros r [<-|[<-|[]]]; reflexivity.
  - intros x j [<-|[<-|[]]]; destruct j as [|[|j]]; cbn; apply Rabs_le; lra.
Qed.

Lemma optimize_UB (Row Lab S : Type) (step : S -> R -> nat -> list Row -> list Lab -> outcome (S * R)) decay perm shuffle bs N tol max_iter X y s :
  length y = length X -> (shuffle = true -> forall k, is_perm (length X) (perm k)) -> (0 < bs <= length X)%nat -> (0 < max_iter)%nat ->
  (forall k, decay k = UB \/ exists lr, decay k = Ok lr) ->
  (forall lr j Xb yb, length Xb = bs -> incl Xb X -> step s lr j Xb yb = UB) -> optimize step decay perm shuffle bs N tol max_iter X y s = UB.
Proof.
  intros Ly P B M D H. unfold optimize. destruct (Nat.eqb_spec bs 0); [lia|]. destruct max_iter as [|m]; [lia|]. cbn [seq epochs].
  destruct (@reshuffle_spec _ _ perm shuffle X y Ly P 0%nat X y) as (X' & y' & -> & RO & _); [repeat split; auto|auto|]. cbn [bind fst snd].
  destruct (reordered_incl (le_n 1) Ly RO) as (IX & _). pose proof RO as (L1 & L2 & _). unfold run_epoch. destruct (D 0%nat) as [->|(lr & ->)]; [reflexivity|]. cbn [bind].
  assert (Q : (length X' / bs = Datatypes.S (length X' / bs - 1))%nat). { assert (1 <= length X' / bs)%nat by (apply Nat.div_le_lower_bound; lia). lia. }
  rewrite Q. cbn [seq foldM]. unfold run_batch at 1. cbn [fst snd]. rewrite !middle_rows_Ok by lia. cbn [bind]. rewrite H; [reflexivity|rewrite firstn_length; cbn [mult]; cbn [skipn]; lia|].
  intros x Hx. apply IX. eapply in_firstn_skipn; eauto.
Qed.
Lemma step_decay_cases a g s k : step_decay a g s k = UB \/ exists lr, step_decay a g s k = Ok lr.
Proof. unfold step_decay. destruct (s =? 0)%nat; eauto. Qed.
Theorem C49_perceptron_intercept_refuted : forall grad0 w0 lambda alpha gamma step perm shuffle bs N tol max_iter d X y, width d X -> length y = length X ->
  (shuffle = true -> forall k, is_perm (length X) (perm k)) -> (0 < bs <= length X)%nat -> (0 < max_iter)%nat -> length w0 = n_coef true d ->
  perceptron_fit grad0 w0 lambda alpha gamma step perm shuffle bs N tol max_iter X y = UB.
Proof.
  intros grad0 w0 lambda alpha gamma step perm shuffle bs N tol max_iter d X y W Ly P B M L0. apply optimize_UB; auto; [apply step_decay_cases|].
  intros lr j Xb yb L I. unfold sgd_step, hinge_gradient. rewrite (@mv_mismatch d Xb); [reflexivity|intros x Hx; apply W, I, Hx|destruct Xb; [cbn in L; lia|discriminate]|]. cbn in L0. lia.
Qed.
Print Assumptions C49_perceptron_intercept_refuted.
(** Without intercept it always ends, with [d] coefficients or with [RuntimeError]. *)
Theorem C49_perceptron : forall grad0 w0 lambda alpha gamma step perm shuffle bs N tol max_iter d X y, width d X -> X <> [] -> length y = length X ->
  (shuffle = true -> forall k, is_perm (length X) (perm k)) -> (0 < bs)%nat -> (0 < step)%nat -> length w0 = d -> length grad0 = d ->
  (exists w, perceptron_fit grad0 w0 lambda alpha gamma step perm shuffle bs N tol max_iter X y = Ok w /\ length w = d) \/
  perceptron_fit grad0 w0 lambda alpha gamma step perm shuffle bs N tol max_iter X y = Throw RuntimeError.
Proof.
  intros grad0 w0 lambda alpha gamma step perm shuffle bs N tol max_iter d X y W NX Ly P B St L0 Lg. unfold perceptron_fit.
  destruct (@C36_total _ _ _ (sgd_step (hinge_gradient grad0 lambda 0) (hinge_evaluate lambda 0) clip_grad vanilla_update) (step_decay alpha gamma step) perm shuffle bs N tol max_iter X y w0
    (fun v => length v = d)) as [H|(H & _)]; auto.
  - intro k. unfold step_decay. destruct (Nat.eqb_spec step 0); [lia|eauto].
  - intros s lr j Xb yb Ls L1 L2 I1 I2. assert (HS : forall v, length v = d -> shapes Xb yb v).
    { intros v Lv. split; [destruct Xb; [cbn in L1; lia|discriminate]|]. split; [rewrite Lv; intros x Hx; auto|lia]. }
    unfold sgd_step. rewrite (hinge_gradient_glm 0 lambda grad0 (HS s Ls)) by lia. cbn [bind]. unfold vanilla_update.
    assert (Lc : length (clip_grad (vadd grad0 (glm_grad (hinge_dphi 0) 1 lambda Xb yb s))) = d).
    { unfold clip_grad. rewrite map_length, vadd_length; [auto|]. rewrite (glm_grad_length _ _ _ (HS s Ls)). lia. }
    rewrite sub_ok by (rewrite vscale_length; lia). cbn [bind]. set (w' := vsub _ _). assert (Lw' : length w' = d) by (unfold w'; rewrite vsub_length; rewrite ?vscale_length; lia).
    rewrite (hinge_evaluate_glm 0 lambda (HS w' Lw')). cbn [bind]. eauto.
Qed.
Print Assumptions C49_perceptron.
Example C49_perceptron_case :
  (exists w, perceptron_fit [0] [0] 0 (1 / 10) 1 1 (fun _ => []) false 2 5 (1 / 100) 10 [[1]; [-1]] [1; -1] = Ok w /\ length w = 1%nat) \/
  perceptron_fit [0] [0] 0 (1 / 10) 1 1 (fun _ => []) false 2 5 (1 / 100) 10 [[1]; [-1]] [1; -1] = Throw RuntimeError.
Proof. apply C49_perceptron; try discriminate; try lia; auto. intros r [<-|[<-|[]]]; reflexivity. Qed.
(** The perceptron predicts 1 where the score is positive and 0 elsewhere ... *)
Theorem C49_perceptron_predict : forall i d w X, width d X -> length w = n_coef i d ->
  perceptron_predict i w d X = Ok (map (fun x => if Rlt_dec 0 (linear_fun i w x) then 1 else 0) X).
Proof.
  intros i d w X W L. unfold perceptron_predict. rewrite C49_prediction by auto. cbn [bind]. rewrite map_map. f_equal. apply map_ext. intro x.
  destruct (Rltb 0 (linear_fun i w x)) eqn:E; [apply Rltb_true in E|apply Rltb_false in E]; destruct (Rlt_dec 0 (linear_fun i w x)); auto; lra.
Qed.
Print Assumptions C49_perceptron_predict.
(** ... but samples labelled 0 have no effect on its training (the hinge loss expects -1 and 1, and -1 is never
    predicted). *)
Theorem C49_perceptron_labels_refuted : forall X y Z w grad0, shapes X y w -> width (length w) Z -> length grad0 = length w ->
  hinge_evaluate 0 0 (X ++ Z) (y ++ zeros (length Z)) w = hinge_evaluate 0 0 X y w /\
  hinge_gradient grad0 0 0 (X ++ Z) (y ++ zeros (length Z)) w = hinge_gradient grad0 0 0 X y w.
Proof.
  intros X y Z w grad0 HS WZ Lg. pose proof HS as (H1 & H2 & H3).
  assert (HS' : shapes (X ++ Z) (y ++ zeros (length Z)) w).
  { split; [destruct X; [congruence|discriminate]|]. split; [intros x Hx; apply in_app_or in Hx; destruct Hx; auto|rewrite !app_length, zeros_length; lia]. }
  assert (C : combine (X ++ Z) (y ++ zeros (length Z)) = combine X y ++ combine Z (zeros (length Z))).
  { clear - H3. revert y H3. induction X as [|x X IH]; intros [|a y] L; cbn in L; try lia; [reflexivity|]. cbn. f_equal. apply IH. lia. }
  assert (CZ : forall p, In p (combine Z (zeros (length Z))) -> snd p = 0). { intros (a, b) Hp. apply in_combine_r in Hp. cbn. eapply repeat_spec; eauto. }
  assert (A : forall n n', glm_grad (hinge_dphi 0) 1 0 X y w = vadd (vscale 1 (vsum (length w) (map2 vscale (map2 (fun x b => hinge_dphi 0 b (dot x w)) X y) X))) (vscale (0 / n) w) ->
     vscale (0 / n) w = vscale (0 / n') w) by (intros; unfold Rdiv; now rewrite !Rmult_0_l).
  split.
  - rewrite (hinge_evaluate_glm 0 0 HS), (hinge_evaluate_glm 0 0 HS'). f_equal. unfold glm, penalty, over_samples. rewrite C, map_app, total_app.
    rewrite (total_ext _ (fun _ => 0) (combine Z _)); [rewrite total_const; unfold Rdiv; ring|]. intros p Hp. rewrite (CZ p Hp). unfold hinge_phi. rewrite Rmult_0_r. apply Rmax_left. lra.
  - rewrite (hinge_gradient_glm 0 0 grad0 HS Lg), (hinge_gradient_glm 0 0 grad0 HS' Lg). do 2 f_equal. unfold glm_grad.
    replace (0 / INR (length (X ++ Z))) with (0 / INR (length X)) by (unfold Rdiv; now rewrite !Rmult_0_l). do 2 f_equal. clear A C CZ HS HS'.
    assert (E : map2 vscale (map2 (fun x b => hinge_dphi 0 b (dot x w)) (X ++ Z) (y ++ zeros (length Z))) (X ++ Z) =
                map2 vscale (map2 (fun x b => hinge_dphi 0 b (dot x w)) X y) X ++ repeat (zeros (length w)) (length Z)).
    { clear H1. revert y H3. induction X as [|x X IH]; intros [|a y] L; cbn in L; try lia.
      - cbn [app map2]. induction Z as [|z Z IHZ]; [reflexivity|]. apply width_cons in WZ. destruct WZ as (Wz & WZ). cbn [length repeat zeros map2]. unfold zeros in IHZ |- *. cbn [repeat map2]. f_equal; [|apply IHZ; auto].
        replace (hinge_dphi 0 0 (dot z w)) with 0; [rewrite vscale_0, Wz; reflexivity|]. unfold hinge_dphi. destruct (Rltb _ _); ring.
      - apply width_cons in H2. cbn [app map2]. f_equal. apply IH; [tauto|lia]. }
    rewrite E. clear E. assert (V : forall n (L : list (list R)), width (length w) L -> vsum (length w) (L ++ repeat (zeros (length w)) n) = vsum (length w) L).
    { intros n L. induction L as [|u L IHL]; intro WL; cbn [app vsum fold_right].
      - induction n as [|n IHn]; cbn; [reflexivity|]. unfold vsum in IHn. cbn in IHn. rewrite IHn. replace (length w) with (length (zeros (length w))) at 1 by apply zeros_length. apply zeros_vadd.
      - apply width_cons in WL. f_equal. apply IHL. tauto. }
    apply V. now apply width_scaled.
Qed.
Print Assumptions C49_perceptron_labels_refuted.

(** Softmax regression: every constructor asks for an intercept, so fitting is never defined on a full batch. *)
Theorem C49_softmax_fit_refuted : forall K W0 lambda alpha gamma step perm shuffle bs N tol max_iter d X y, width d X -> length y = length X ->
  (shuffle = true -> forall k, is_perm (length X) (perm k)) -> (0 < bs <= length X)%nat -> (0 < max_iter)%nat -> length W0 = n_coef true d ->
  softmax_fit K W0 lambda alpha gamma step perm shuffle bs N tol max_iter X y = UB.
Proof.
  intros K W0 lambda alpha gamma step perm shuffle bs N tol max_iter d X y W Ly P B M L0. apply optimize_UB; auto; [apply step_decay_cases|].
  intros lr j Xb yb L I. unfold sgd_step, softmax_gradient, softmax_exp. destruct Xb as [|x Xb]; [cbn in L; lia|]. cbn [mapM]. unfold row_mul at 1.
  rewrite (W x) by (apply I; now left). cbn in L0. destruct (Nat.eqb_spec d (length W0)); [lia|]. reflexivity.
Qed.
Print Assumptions C49_softmax_fit_refuted.
(** Its predictions: softmax of the scores without the intercept row, and the position of the first largest. *)
Theorem C49_softmax_predict : forall K W b d X, (2 <= K)%nat -> (2 <= length X)%nat -> width d X -> length W = d -> width K W -> length b = K ->
  softmax_predict_prob K (W ++ [b]) d X = Ok (map (fun x => softmax_of (scores K W x)) X) /\
  exists ks, softmax_predict K (W ++ [b]) d X = Ok (map INR ks) /\ Forall2 (fun x k => first_largest (scores K W x) k) X ks.
Proof.
  intros K W b d X HK HX HW LW WW Lb.
  assert (E : softmax_predict_prob K (W ++ [b]) d X = Ok (map (fun x => softmax_of (scores K W x)) X)).
  { unfold softmax_predict_prob, softmax_boundary. rewrite app_length. assert (L : (d <=? length W + length [b])%nat = true) by (apply Nat.leb_le; lia). rewrite L.
    rewrite firstn_app, LW, Nat.sub_diag. cbn [firstn]. rewrite app_nil_r, firstn_all2 by lia.
    rewrite (Loss_Proofs.mapM_map (row_mul K W) (scores K W)).
    2: { intros x Hx. unfold row_mul. rewrite (HW x Hx), LW, Nat.eqb_refl. f_equal. apply zrow_scores; auto. now rewrite LW, (HW x Hx). }
    cbn [bind]. rewrite (C42_softmax_rows (length X) K); [now rewrite map_map|lia|auto|]. split; [apply map_length|]. intros r Hr. apply in_map_iff in Hr. destruct Hr as (x & <- & _). unfold scores. now rewrite map_length, seq_length. }
  split; [exact E|]. unfold softmax_predict. rewrite E. cbn [bind]. unfold argmax_rows. clear E.
  assert (NE : forall x, scores K W x <> []) by (intros x Q; apply (f_equal (@List.length R)) in Q; unfold scores in Q; rewrite map_length, seq_length in Q; cbn in Q; lia).
  assert (G : exists ks, mapM (Tree_Model.arg_best (fun a b => Rltb b a)) (map (fun x => softmax_of (scores K W x)) X) = Ok ks /\ Forall2 (fun x k => first_largest (scores K W x) k) X ks).
  { clear HX HW. induction X as [|x X (ks & E & F)]; [exists []; auto|]. cbn [map mapM].
    destruct (@arg_bestR (softmax_of (scores K W x))) as (k & Ek & Fk). { unfold softmax_of. intro Q. apply map_eq_nil in Q. now apply (NE x). }
    rewrite Ek. cbn [bind]. rewrite E. cbn [bind]. exists (k :: ks). split; [auto|]. constructor; [|auto].
    destruct (@arg_bestR (scores K W x) (NE x)) as (k' & _ & Fk').
    assert (F2 : first_largest (softmax_of (scores K W x)) k').
    { unfold softmax_of. apply first_largest_mono; [|exact Fk']. intros a c _ _ Hac. unfold Rdiv. apply Rmult_lt_compat_r; [apply Rinv_0_lt_compat, total_exp_pos, NE|now apply exp_increasing]. }
    rewrite (first_largest_unique Fk F2). exact Fk'. }
  destruct G as (ks & -> & F). cbn [bind]. exists ks. auto.
Qed.
Print Assumptions C49_softmax_predict.
Example C49_softmax_predict_case : exists ks, softmax_predict 2 [[1; 2]; [0; 0]] 1 [[5]; [-1]] = Ok (map INR ks) /\ Forall2 (fun x k => first_largest (scores 2 [[1; 2]] x) k) [[5]; [-1]] ks.
Proof.
  apply (C49_softmax_predict 2 [[1; 2]] [0; 0] 1 [[5]; [-1]]); cbn; auto; try lia.
  - intros r [<-|[<-|[]]]; reflexivity.
  - intros r [<-|[]]; reflexivity.
Qed.
Theorem C49_softmax_intercept_refuted : forall K W b b' X, (2 <= K)%nat -> (2 <= length X)%nat -> width (length W) X -> width K W -> length b = K -> length b' = K ->
  softmax_predict_prob K (W ++ [b]) (length W) X = softmax_predict_prob K (W ++ [b']) (length W) X.
Proof. intros K W b b' X HK HX HW WW L L'. destruct (C49_softmax_predict K W b (length W) X) as (-> & _); auto. destruct (C49_softmax_predict K W b' (length W) X) as (-> & _); auto. Qed.
Print Assumptions C49_softmax_intercept_refuted.
(** A single sample cannot be classified. *)
Theorem C49_softmax_one_sample_refuted : forall K W b d x, length x = d -> length W = d -> width K W ->
  softmax_predict K (W ++ [b]) d [x] = Throw InvalidArgument.
Proof.
  intros K W b d x Lx LW WW. unfold softmax_predict, softmax_predict_prob, softmax_boundary. rewrite app_length. assert (L : (d <=? length W + length [b])%nat = true) by (apply Nat.leb_le; lia). rewrite L.
  cbn [mapM]. unfold row_mul. rewrite firstn_length, app_length. assert (L2 : (length x =? Nat.min d (length W + length [b]))%nat = true) by (apply Nat.eqb_eq; cbn; lia). rewrite L2. reflexivity.
Qed.
Print Assumptions C49_softmax_one_sample_refuted.

(** Logistic regression: which combinations of solver and penalty are accepted. *)
Theorem C49_logistic_solver : forall solver penalty,
  (exists k, logistic_solver solver penalty = Ok k) <->
  ((penalty = "l2" \/ penalty = "None") /\ (solver = "sgd" \/ solver = "sag" \/ solver = "lbfgs"))%string \/ (penalty = "l1" /\ solver = "scd")%string.
Proof.
  intros s p. unfold logistic_solver. destruct (String.eqb_spec p "l2") as [->|N1]; [|destruct (String.eqb_spec p "None") as [->|N2]]; cbn [orb].
  - destruct (String.eqb_spec s "sgd") as [->|]; [split; eauto 6|]. destruct (String.eqb_spec s "sag") as [->|]; [split; eauto 6|]. destruct (String.eqb_spec s "lbfgs") as [->|]; [split; eauto 8|].
    split; [intros (k & Q); discriminate|]. intros [(_ & [|[|]])|(Q & _)]; congruence.
  - destruct (String.eqb_spec s "sgd") as [->|]; [split; eauto 6|]. destruct (String.eqb_spec s "sag") as [->|]; [split; eauto 6|]. destruct (String.eqb_spec s "lbfgs") as [->|]; [split; eauto 8|].
    split; [intros (k & Q); discriminate|]. intros [(_ & [|[|]])|(Q & _)]; congruence.
  - destruct (String.eqb_spec p "l1") as [->|N3]; [destruct (String.eqb_spec s "scd") as [->|]; [split; eauto 6|]|].
    + split; [intros (k & Q); discriminate|]. intros [([|] & _)|(_ & Q)]; congruence.
    + split; [intros (k & Q); discriminate|]. intros [([|] & _)|(Q & _)]; congruence.
Qed.
Print Assumptions C49_logistic_solver.
Theorem C49_logistic_rejects : forall P solver penalty perm w0 d X y, (forall k, logistic_solver solver penalty <> Ok k) ->
  logistic_fit P solver penalty perm w0 d X y = Throw InvalidArgument.
Proof.
  intros P s p perm w0 d X y H. unfold logistic_fit. assert (E : logistic_solver s p = Throw InvalidArgument).
  { unfold logistic_solver in *. destruct (_ || _)%bool; [destruct (String.eqb s "sgd"); [now destruct (H UseSGD)|]; destruct (String.eqb s "sag"); [now destruct (H UseSAG)|]; destruct (String.eqb s "lbfgs"); [now destruct (H UseLBFGS)|auto]|].
    destruct (String.eqb p "l1"); [|auto]. destruct (String.eqb s "scd"); [now destruct (H UseSCD)|auto]. }
  rewrite E. reflexivity.
Qed.
Print Assumptions C49_logistic_rejects.
Example C49_logistic_rejects_case : forall P perm w0 d X y, logistic_fit P "scd" "l2" perm w0 d X y = Throw InvalidArgument.
Proof. intros. apply C49_logistic_rejects. intro k. cbn. discriminate. Qed.
(** With the [sgd] solver fitting ends with one coefficient per feature and the intercept, or with [RuntimeError]. *)
Theorem C49_logistic_sgd : forall P perm w0 d X y, width d X -> X <> [] -> length y = length X -> length w0 = n_coef true d ->
  (lp_shuffle P = true -> forall k, is_perm (length X) (perm k)) -> (0 < lp_batch P)%nat -> (0 < lp_step_size P)%nat ->
  (exists w, logistic_fit P "sgd" "l2" perm w0 d X y = Ok (Some w) /\ length w = n_coef true d) \/ logistic_fit P "sgd" "l2" perm w0 d X y = Throw RuntimeError.
Proof.
  intros P perm w0 d X y W N Ly L0 Hp B St. unfold logistic_fit. rewrite with_ones_ext. change (logistic_solver "sgd" "l2") with (@Ok solver_kind UseSGD). cbn [bind].
  destruct (C36_logistic_sgd (lp_lambda P) (lp_alpha P) (lp_gamma P) (lp_step_size P) perm (lp_shuffle P) (lp_batch P) (lp_no_change P) (lp_tol P) (lp_max_iter P) (map (ext true) X) y w0) as [(w & E & L)|E]; auto.
  - split; [destruct X; [congruence|discriminate]|]. split; [rewrite L0, <- ncols_coef; now apply width_ext|now rewrite map_length].
  - now rewrite map_length.
  - left. rewrite E. cbn [bind]. exists w. split; [auto|lia].
  - right. rewrite E. reflexivity.
Qed.
Print Assumptions C49_logistic_sgd.
Example C49_logistic_sgd_case : let P := LogisticParams 0 (1 / 10) 1 1 0 (1 / 100) 2 10 5 false (fun _ _ _ => UB) in
  (exists w, logistic_fit P "sgd" "l2" (fun _ => []) [0; 0] 1 [[1]; [-1]] [0; 1] = Ok (Some w) /\ length w = 2%nat) \/
  logistic_fit P "sgd" "l2" (fun _ => []) [0; 0] 1 [[1]; [-1]] [0; 1] = Throw RuntimeError.
Proof. intro P. apply C49_logistic_sgd; try discriminate; cbn; try lia; auto. intros r [<-|[<-|[]]]; reflexivity. Qed.

Lemma logistic_half z : 1 / 2 < logistic z <-> 0 < z.
Proof.
  unfold logistic. pose proof (exp_pos (- z)) as P. split; intro H.
  - destruct (Rlt_or_le 0 z) as [|L]; auto. exfalso. assert (1 <= exp (- z)). { rewrite <- exp_0. destruct (Req_dec z 0) as [->|]; [rewrite Ropp_0; lra|]. left. apply exp_increasing. lra. }
    assert (1 / (1 + exp (- z)) <= 1 / 2). { unfold Rdiv. rewrite !Rmult_1_l. apply Rinv_le_contravar; lra. } lra.
  - assert (exp (- z) < 1). { rewrite <- exp_0. apply exp_increasing. lra. } unfold Rdiv. rewrite !Rmult_1_l. apply Rinv_lt_contravar; [|lra]. apply Rmult_lt_0_compat; lra.
Qed.
(** The training objective (C31) is the cross-entropy of the probability [logistic z] of label 1 ([z] the score).
    [predict_prob] puts that probability in column 0, and [predict] answers 0 where it exceeds one half ... *)
Theorem C49_logistic_predict : forall w d X, width d X -> length w = n_coef true d ->
  logistic_predict_prob w d X = Ok (map (fun x => [logistic (linear_fun true w x); 1 - logistic (linear_fun true w x)]) X) /\
  logistic_predict w d X = Ok (map (fun x => if Rlt_dec 0 (linear_fun true w x) then 0 else 1) X).
Proof.
  intros w d X W L. unfold logistic_predict_prob, logistic_predict. rewrite C49_prediction by auto. cbn [bind]. unfold sigmoid. rewrite !map_map. split; f_equal; apply map_ext; intro x; rewrite sigmoid1_logistic; [auto|].
  pose proof (logistic_half (linear_fun true w x)) as H. destruct (Rltb (1 / 2) (logistic (linear_fun true w x))) eqn:E; [apply Rltb_true in E|apply Rltb_false in E]; destruct (Rlt_dec 0 (linear_fun true w x)); auto; exfalso; [tauto|apply H in r; lra].
Qed.
Print Assumptions C49_logistic_predict.
(** ... so on every sample whose score is not 0 the predicted label is the one with the larger training loss. *)
Theorem C49_logistic_swapped_refuted : forall lambda w d x, length x = d -> length w = n_coef true d -> linear_fun true w x <> 0 ->
  exists label, logistic_predict w d [x] = Ok [label] /\ (label = 0 \/ label = 1) /\
  exists a b, log_evaluate lambda (with_ones true [x]) [label] w = Ok a /\ log_evaluate lambda (with_ones true [x]) [1 - label] w = Ok b /\ b < a.
Proof.
  intros lambda w d x Lx Lw N. destruct (C49_logistic_predict w d [x]) as (_ & E); [intros z [<-|[]]; auto|auto|]. eexists. split; [exact E|]. split; [destruct (Rlt_dec _ _); auto|].
  assert (HS : forall l : R, shapes (with_ones true [x]) [l] w).
  { intro l. rewrite with_ones_ext. split; [discriminate|]. split; [|reflexivity]. intros z [<-|[]]. rewrite Lw, <- ncols_coef. now apply ext_length. }
  do 2 eexists. split; [apply C31_value, HS|]. split; [apply C31_value, HS|].
  unfold log_loss, over_samples. rewrite with_ones_ext. cbn [map combine fst snd]. rewrite (@ext_fun true d w x) by (auto; now rewrite ncols_coef). set (z := linear_fun true w x) in *.
  apply Rplus_lt_compat_r. cbn [length INR]. unfold total, Rdiv. cbn [fold_right]. rewrite !Rinv_1, !cross_entropy_alt. destruct (Rlt_dec 0 z); lra.
Qed.
Print Assumptions C49_logistic_swapped_refuted.
(** A model with score x - 1: at x = 3 it gives probability more than one half to label 1 and answers 0. *)
Example C49_case : linear_fun true [1; -1] [3] = 2 /\ logistic_predict [1; -1] 1 [[3]; [0]] = Ok [0; 1] /\
  perceptron_predict true [1; -1] 1 [[3]; [0]] = Ok [1; 0] /\ softmax_predict 2 [[1; 2]; [0; 0]] 1 [[5]] = Throw InvalidArgument.
Proof.
  assert (A : linear_fun true [1; -1] [3] = 2) by (unfold linear_fun; cbn; ring). assert (B : linear_fun true [1; -1] [0] = -1) by (unfold linear_fun; cbn; ring).
  split; [exact A|]. split; [|split].
  - destruct (C49_logistic_predict [1; -1] 1 [[3]; [0]]) as (_ & ->); [intros x [<-|[<-|[]]]; reflexivity|reflexivity|]. cbn [map]. rewrite A, B. destruct (Rlt_dec 0 2); [|lra]. destruct (Rlt_dec 0 (-1)); [lra|]. reflexivity.
  - rewrite C49_perceptron_predict; [|intros x [<-|[<-|[]]]; reflexivity|reflexivity]. cbn [map]. rewrite A, B. destruct (Rlt_dec 0 2); [|lra]. destruct (Rlt_dec 0 (-1)); [lra|]. reflexivity.
  - reflexivity.
Qed.

Example C48_linear_residuals_case : exists w, linear_fit true 1 [[0]; [1]; [2]] [1; 3; 5] = Ok (Some w) /\
  total (map (fun p => snd p - linear_fun true w (fst p)) (combine [[0]; [1]; [2]] [1; 3; 5])) = 0.
Proof.
  destruct C48_case as (I & _ & (w & E) & _). exists w. split; [exact E|]. exact (C48_linear_residuals 1 [[0]; [1]; [2]] [1; 3; 5] w line_rows eq_refl I E).
Qed.
Example C49_fitted_prediction_case : exists w p, linear_fit true 1 [[0]; [1]; [2]] [1; 3; 5] = Ok (Some w) /\ predict_label true w 1 [[0]; [1]; [2]] = Ok p /\
  forall v q, length v = 2%nat -> predict_label true v 1 [[0]; [1]; [2]] = Ok q -> sqn (vsub [1; 3; 5] p) <= sqn (vsub [1; 3; 5] q).
Proof.
  destruct C48_case as (I & _ & (w & E) & _). destruct (C49_fitted_prediction true 1 [[0]; [1]; [2]] [1; 3; 5] w line_rows eq_refl I E) as (p & Ep & H). exists w, p.
  split; [exact E|]. split; [exact Ep|exact H].
Qed.
