(** C74: greedy coordinate descent (the lasso, logistic regression with the l1 penalty) approaches the best weights. *)
From Coq Require Import Reals Lra Psatz String.
From Verif Require Import Base Common_Model RDR_Proofs KDReal_Proofs Impurity_Spec Impurity_Proofs Vec Loss_Model Loss_Spec Loss_Proofs Metric_Proofs
  Shuffle_Model Shuffle_Proofs Optim_Model Optim_Spec Optim_Proofs OptimSteps_Proofs OptimRun_Proofs Descent_Spec Descent_Proofs Linear_Model Objects_Model Properties_Linear Properties_Objects
  Scd_Spec Scd_Proofs.
Local Open Scope R_scope.
Local Open Scope list_scope.

(** Any convex loss whose curvature along each axis is at most the step parameter: with k iterations the penalised loss is at
    most that of any other weights plus 2 d C / k, where C bounds the gap at the start and the curvature times the squared distances
    from the weights no worse than the start. *)
Theorem C74_rate : forall (Row Lab : Type) (gradient : list Row -> list Lab -> list R -> outcome (list R)) (F : list R -> R) lambda beta perm shuffle max_iter X y w0 v C,
  0 <= lambda -> 0 < beta -> (0 < length w0)%nat -> length y = length X -> (shuffle = true -> forall k, is_perm (length X) (perm k)) -> (0 < max_iter)%nat ->
  (forall X' y' w, reordered X X' y y' -> length w = length w0 -> exists g, gradient X' y' w = Ok g /\ length g = length w0 /\
     (forall u, length u = length w0 -> F w + dot g (vsub u w) <= F u) /\
     (forall j eta w', moved w j eta w' -> F w' <= F w + nth j g 0 * eta + beta / 2 * (eta * eta))) ->
  length v = length w0 -> 0 < C -> F w0 + lambda * norm1 w0 - (F v + lambda * norm1 v) <= C ->
  (forall w, length w = length w0 -> F w + lambda * norm1 w <= F w0 + lambda * norm1 w0 -> beta * sqn (vsub v w) <= C) ->
  exists w, scd_optimize gradient lambda beta (length w0) perm shuffle max_iter X y w0 = Ok w /\ length w = length w0 /\
    F w + lambda * norm1 w <= F w0 + lambda * norm1 w0 /\
    F w + lambda * norm1 w <= F v + lambda * norm1 v + 2 * INR (length w0) * C / INR max_iter.
Proof.
  intros Row Lab gradient F lambda beta perm shuffle max_iter X y w0 v C HL HB Pd Hlen Hp Pk HF Lv PC Htop Hball. unfold scd_optimize.
  destruct (@scd_rate_loop Row Lab gradient lambda beta HB HL F (length w0) Pd X y perm shuffle Hlen Hp HF v (F w0 + lambda * norm1 w0) C Lv Htop PC Hball (seq 0 max_iter) X y w0 0)
    as (w & E & L & M & H); try lra; auto; [repeat split; auto|rewrite Rmult_0_r; apply Rmult_le_pos; [apply Rmult_le_pos; [lra|apply pos_INR]|lra]|].
  exists w. split; [exact E|]. split; [exact L|]. split; [exact M|]. rewrite seq_length, Rplus_0_l in H.
  assert (P : 0 < INR max_iter) by (apply lt_0_INR; auto). assert (G : F w + lambda * norm1 w - (F v + lambda * norm1 v) <= 2 * INR (length w0) * C / INR max_iter); [|lra].
  apply (Rmult_le_reg_r (INR max_iter)); auto. replace (2 * INR (length w0) * C / INR max_iter * INR max_iter) with (2 * INR (length w0) * C) by (field; lra). exact H.
Qed.
Print Assumptions C74_rate.

Lemma dot_zeros d x : dot x (zeros d) = 0.
Proof. revert d; induction x as [|a x IH]; intros [|d]; try reflexivity. unfold zeros. cbn [repeat]. rewrite dot_cons. fold (zeros d). rewrite IH. ring. Qed.
Lemma mse_at_zero d X y : length y = length X -> mse_loss 0 X y (zeros d) = sqn y / (2 * INR (length X)).
Proof.
  intro L. rewrite mse_loss_glm. unfold glm, over_samples, penalty, mse_c.
  assert (E : total (map (fun p : list R * R => mse_phi (snd p) (dot (fst p) (zeros d))) (combine X y)) = sqn y).
  { unfold sqn. revert y L; induction X as [|x X IH]; intros [|b y] L; cbn in L; try lia; [reflexivity|]. cbn [combine map total fold_right fst snd]. rewrite dot_cons.
    fold (total (map (fun p : list R * R => mse_phi (snd p) (dot (fst p) (zeros d))) (combine X y))). rewrite IH by lia. rewrite dot_zeros. unfold mse_phi. ring. }
  rewrite E. unfold Rdiv. ring.
Qed.
Lemma norm1_zeros d : norm1 (zeros d) = 0.
Proof. unfold norm1, zeros. induction d; cbn; [reflexivity|]. unfold total in *. cbn. rewrite IHd, Rabs_R0. lra. Qed.
Lemma ball lambda top F v w : 0 < lambda -> 0 <= F -> F + lambda * norm1 w <= top -> length v = length w ->
  sqn (vsub v w) <= (norm1 v + top / lambda) * (norm1 v + top / lambda).
Proof.
  intros HL PF H L. eapply Rle_trans; [apply sqn_norm1; auto|]. pose proof (norm1_nonneg v). pose proof (norm1_nonneg w).
  assert (norm1 w <= top / lambda). { apply (Rmult_le_reg_l lambda); auto. replace (lambda * (top / lambda)) with top by (field; lra). lra. }
  nra.
Qed.

(** The lasso trained for [max_iter] iterations, against any coefficients [v]. *)
Theorem C74_lasso : forall max_iter lambda l1_ratio shuffle verbose perm d X y v C, 0 < lambda -> 0 < l1_ratio -> (0 < d)%nat -> (0 < max_iter)%nat ->
  width d X -> X <> [] -> length y = length X -> (shuffle = true -> forall k, is_perm (length X) (perm k)) ->
  (forall j, (j < d)%nat -> column_squares j X / INR (length X) <= l1_ratio) ->
  length v = d -> 0 < C -> sqn y / (2 * INR (length X)) <= C ->
  l1_ratio * (norm1 v + sqn y / (2 * INR (length X)) / lambda) ^ 2 <= C ->
  exists w, lasso_object_fit (lasso_new max_iter lambda l1_ratio shuffle verbose false) perm d X y = Ok w /\ length w = d /\
    lasso_objective lambda X y w <= sqn y / (2 * INR (length X)) /\
    lasso_objective lambda X y w <= lasso_objective lambda X y v + 2 * INR d * C / INR max_iter.
Proof.
  intros max_iter lambda l1_ratio shuffle verbose perm d X y v C HL HB Pd Pk W N Ly Hp Hc Lv PC H0 HR.
  assert (Hn : 0 < INR (length X)) by (apply lt_0_INR; destruct X; [congruence|cbn; lia]).
  assert (Lz : length (zeros d) = d) by apply zeros_length.
  assert (HS : shapes X y (zeros d)) by (split; [auto|]; split; [rewrite Lz; auto|auto]).
  assert (E0 : mse_loss 0 X y (zeros d) + lambda * norm1 (zeros d) = sqn y / (2 * INR (length X))) by (rewrite norm1_zeros, mse_at_zero by auto; ring).
  destruct (C74_rate (list R) R (mse_gradient 0) (mse_loss 0 X y) lambda l1_ratio perm shuffle max_iter X y (zeros d) v C) as (w & E & L & M & G); rewrite ?Lz; auto; try lra.
  - intros X' y' w RO Lw. destruct (@mse_axis 0 l1_ratio X y (zeros d) (Rle_refl 0) HS) with (X' := X') (y' := y') (w := w) as (g & Eg & T); rewrite ?Lz; auto.
    + intros j Hj. rewrite Rplus_0_r. apply Hc; auto.
    + exists g. split; [exact Eg|]. rewrite Lz in T. exact T.
  - rewrite E0. pose proof (mse_loss_nonneg y v (Rle_refl 0) N). pose proof (norm1_nonneg v). assert (0 <= lambda * norm1 v) by (apply Rmult_le_pos; lra). lra.
  - intros w Lw Hw. rewrite E0 in Hw. eapply Rle_trans; [|exact HR]. apply Rmult_le_compat_l; [lra|]. rewrite <- Rsqr_pow2. unfold Rsqr.
    apply (@ball lambda _ (mse_loss 0 X y w)); auto; [apply mse_loss_nonneg; auto; lra|congruence].
  - rewrite Lz in *. exists w. split; [exact E|]. split; [exact L|]. unfold lasso_objective. split; [lra|exact G].
Qed.
Print Assumptions C74_lasso.
Example C74_lasso_case : exists w, lasso_object_fit (lasso_new 400 (1 / 10) 1 false false false) (fun _ => []) 2 [[1; 0]; [-1; 1]] [1; 2] = Ok w /\ length w = 2%nat /\
  lasso_objective (1 / 10) [[1; 0]; [-1; 1]] [1; 2] w <= 5 / 4 /\
  lasso_objective (1 / 10) [[1; 0]; [-1; 1]] [1; 2] w <= lasso_objective (1 / 10) [[1; 0]; [-1; 1]] [1; 2] [1; 3] + 11 / 4.
Proof.
  assert (E : sqn [1; 2] / (2 * INR (length [[1; 0]; [-1; 1]])) = 5 / 4) by (unfold sqn, dot; cbn; lra).
  assert (Nv : norm1 [1; 3] = 4) by (unfold norm1; cbn; rewrite !Rabs_pos_eq by lra; lra).
  destruct (C74_lasso 400 (1 / 10) 1 false false (fun _ => []) 2 [[1; 0]; [-1; 1]] [1; 2] [1; 3] 275) as (w & Ew & L & G1 & G2); try lra; try lia; try reflexivity; try discriminate.
  - intros r [<-|[<-|[]]]; reflexivity.
  - intros [|[|j]] Hj; try lia; unfold column_squares; cbn; lra.
  - rewrite E, Nv. lra.
  - rewrite E in G1. exists w. split; [exact Ew|]. split; [exact L|]. split; [exact G1|]. eapply Rle_trans; [exact G2|]. apply Rplus_le_compat_l.
    change (INR 2) with 2. replace (INR 400) with 400 by (rewrite INR_IZR_INZ; reflexivity). lra.
Qed.

Lemma beyond x : exists n, x < INR n.
Proof.
  exists (Z.to_nat (up x)). destruct (archimed x) as (U & _). rewrite INR_IZR_INZ. eapply Rlt_le_trans; [exact U|]. apply IZR_le. lia.
Qed.
(** Given enough iterations the lasso comes within any distance of the smallest penalised loss, however the samples are reordered. *)
Theorem C74_lasso_limit : forall lambda l1_ratio d X y eps, 0 < lambda -> 0 < l1_ratio -> (0 < d)%nat ->
  width d X -> X <> [] -> length y = length X -> (forall j, (j < d)%nat -> column_squares j X / INR (length X) <= l1_ratio) -> 0 < eps ->
  exists N, forall max_iter shuffle verbose perm, (N <= max_iter)%nat -> (shuffle = true -> forall k, is_perm (length X) (perm k)) ->
    exists w, lasso_object_fit (lasso_new max_iter lambda l1_ratio shuffle verbose false) perm d X y = Ok w /\ length w = d /\
      forall v, length v = d -> lasso_objective lambda X y w <= lasso_objective lambda X y v + eps.
Proof.
  intros lambda l1_ratio d X y eps HL HB Pd W N Ly Hc He.
  assert (Hn : 0 < INR (length X)) by (apply lt_0_INR; destruct X; [congruence|cbn; lia]).
  set (F0 := sqn y / (2 * INR (length X))). assert (P0 : 0 <= F0) by (unfold F0; apply Rmult_le_pos; [apply sqn_nonneg|left; apply Rinv_0_lt_compat; lra]).
  set (C := F0 + l1_ratio * (F0 / lambda + F0 / lambda) ^ 2 + 1).
  assert (PR : 0 <= F0 / lambda) by (apply Rmult_le_pos; [auto|left; apply Rinv_0_lt_compat; auto]).
  assert (PQ : 0 <= l1_ratio * (F0 / lambda + F0 / lambda) ^ 2) by (apply Rmult_le_pos; [lra|apply pow2_ge_0]).
  assert (PC : 0 < C) by (unfold C; lra).
  destruct (beyond (2 * INR d * C / eps)) as (N0 & HN). exists (S N0). intros max_iter shuffle verbose perm HM Hp.
  assert (Good : forall v, length v = d -> lasso_objective lambda X y v <= F0 -> exists w, lasso_object_fit (lasso_new max_iter lambda l1_ratio shuffle verbose false) perm d X y = Ok w /\ length w = d /\
    lasso_objective lambda X y w <= F0 /\ lasso_objective lambda X y w <= lasso_objective lambda X y v + 2 * INR d * C / INR max_iter).
  { intros v Lv Hv. apply C74_lasso; auto; try lia; [fold F0; unfold C; lra|]. fold F0. pose proof (norm1_nonneg v) as Pv.
    assert (norm1 v <= F0 / lambda).
    { unfold lasso_objective in Hv. pose proof (mse_loss_nonneg y v (Rle_refl 0) N). apply (Rmult_le_reg_l lambda); auto. replace (lambda * (F0 / lambda)) with F0 by (field; lra). lra. }
    assert ((norm1 v + F0 / lambda) ^ 2 <= (F0 / lambda + F0 / lambda) ^ 2) by (apply pow_incr; lra).
    unfold C. assert (l1_ratio * (norm1 v + F0 / lambda) ^ 2 <= l1_ratio * (F0 / lambda + F0 / lambda) ^ 2) by (apply Rmult_le_compat_l; lra). lra. }
  assert (Sm : 2 * INR d * C / INR max_iter <= eps).
  { assert (Pm : 0 < INR max_iter) by (apply lt_0_INR; lia). assert (Q : INR N0 <= INR max_iter) by (apply le_INR; lia).
    apply (Rmult_le_reg_r (INR max_iter)); auto. replace (2 * INR d * C / INR max_iter * INR max_iter) with (2 * INR d * C) by (field; lra).
    replace (2 * INR d * C) with (2 * INR d * C / eps * eps) by (field; lra). rewrite (Rmult_comm eps). apply Rmult_le_compat_r; lra. }
  assert (Zz : lasso_objective lambda X y (zeros d) = F0) by (unfold lasso_objective; rewrite norm1_zeros, mse_at_zero by auto; unfold F0; ring).
  destruct (Good (zeros d) (zeros_length d) ltac:(lra)) as (w & E & L & G0 & _). exists w. split; [exact E|]. split; [exact L|]. intros v Lv.
  destruct (Rle_dec (lasso_objective lambda X y v) F0) as [Hv|Hv]; [|lra].
  destruct (Good v Lv Hv) as (w2 & E2 & _ & _ & G). rewrite E in E2. injection E2 as <-. lra.
Qed.
Print Assumptions C74_lasso_limit.
Example C74_lasso_limit_case : exists N, forall max_iter shuffle verbose perm, (N <= max_iter)%nat -> (shuffle = true -> forall k, is_perm 2 (perm k)) ->
  exists w, lasso_object_fit (lasso_new max_iter (1 / 10) 1 shuffle verbose false) perm 2 [[1; 0]; [-1; 1]] [1; 2] = Ok w /\ length w = 2%nat /\
    forall v, length v = 2%nat -> lasso_objective (1 / 10) [[1; 0]; [-1; 1]] [1; 2] w <= lasso_objective (1 / 10) [[1; 0]; [-1; 1]] [1; 2] v + 1 / 1000.
Proof.
  apply (C74_lasso_limit (1 / 10) 1 2 [[1; 0]; [-1; 1]] [1; 2] (1 / 1000)); try lra; try lia; try discriminate; try reflexivity.
  - intros r [<-|[<-|[]]]; reflexivity.
  - intros [|[|j]] Hj; try lia; unfold column_squares; cbn; lra.
Qed.

(** The curvature matters: with the default [l1_ratio] of 1 and one feature of value 2 the penalised loss at least quadruples
    with every iteration, whatever the penalty up to 1/2. *)
Lemma diverge_step lambda w : 0 <= lambda <= 1 / 2 -> 1 / 2 <= Rabs (w - 1 / 2) ->
  exists w', scd_step (mse_gradient 0) lambda 1 1 [[2]] [1] [w] = Ok [w'] /\ 2 * Rabs (w - 1 / 2) <= Rabs (w' - 1 / 2).
Proof.
  intros Hl Hw. assert (HS : shapes [[2]] [1] [w]) by (split; [discriminate|]; split; [intros r [<-|[]]; reflexivity|reflexivity]).
  assert (Eg : mse_gradient 0 [[2]] [1] [w] = Ok [2 * (2 * w - 1)]).
  { rewrite mse_gradient_glm by exact HS. unfold glm_grad, mse_c, mse_dphi. cbn. unfold dot. cbn. do 2 f_equal. field. }
  destruct (@scd_step_spec (list R) R (mse_gradient 0) lambda 1 Rlt_0_1 (proj1 Hl) [[2]] [1] [w] [2 * (2 * w - 1)] Eg eq_refl) as (w' & j & Es & M & _); [cbn; lia|].
  pose proof M as (L & Hj & E & _). cbn [length] in *. assert (j = 0%nat) by lia. subst j. destruct w' as [|a [|? ?]]; try discriminate.
  exists a. split; [exact Es|]. cbn [nth] in E. subst a. unfold eta_at. cbn [nth]. unfold scd_eta, Rltb.
  replace (lambda / 1) with lambda by field. replace (- lambda / 1) with (- lambda) by field. replace (2 * (2 * w - 1) / 1) with (2 * (2 * w - 1)) by field.
  replace (- (2 * (2 * w - 1)) / 1) with (- (2 * (2 * w - 1))) by field.
  destruct (Rabs_cases (w - 1 / 2)) as [(U & K)|(U & K)]; destruct (Rlt_dec lambda (w - 2 * (2 * w - 1))); try lra;
    try destruct (Rlt_dec (w - 2 * (2 * w - 1)) (- lambda)); try lra; rewrite K in *.
  all: match goal with |- _ <= Rabs ?x => destruct (Rabs_cases x) as [(U2 & K2)|(U2 & K2)]; rewrite K2 end; lra.
Qed.
Theorem C74_small_curvature_refuted : forall lambda max_iter verbose perm, 0 <= lambda <= 1 / 2 ->
  exists w, lasso_object_fit (lasso_new max_iter lambda 1 false verbose false) perm 1 [[2]] [1] = Ok w /\
    1 / 2 * 4 ^ max_iter <= lasso_objective lambda [[2]] [1] w.
Proof.
  intros lambda max_iter verbose perm Hl. unfold lasso_object_fit, lasso_new, scd_new, lasso_fit, scd_optimize. cbn [a_max_iter a_l1_ratio a_lambda a_shuffle a_verbose a_intercept c_lambda c_l1_ratio c_shuffle c_max_iter].
  change (zeros (ncols false 1)) with [0].
  assert (G : forall iters w, 1 / 2 <= Rabs (w - 1 / 2) -> exists w', scd_loop (mse_gradient 0) lambda 1 1 perm false iters [[2]] [1] [w] = Ok [w'] /\
     2 ^ length iters * Rabs (w - 1 / 2) <= Rabs (w' - 1 / 2)).
  { induction iters as [|i iters IH]; intros w Hw; [exists w; split; [reflexivity|cbn; lra]|]. cbn [scd_loop reshuffle bind fst snd].
    destruct (diverge_step lambda w Hl Hw) as (w1 & E1 & H1). rewrite E1. cbn [bind]. destruct (IH w1 ltac:(pose proof (Rabs_pos (w - 1 / 2)); lra)) as (w2 & E2 & H2).
    exists w2. split; [exact E2|]. cbn [length pow]. assert (0 < 2 ^ length iters) by (apply pow_lt; lra). nra. }
  destruct (G (seq 0 max_iter) 0) as (w & E & H); [replace (0 - 1 / 2) with (- (1 / 2)) by ring; rewrite Rabs_Ropp, Rabs_pos_eq; lra|].
  exists [w]. split; [exact E|]. rewrite seq_length in H. unfold lasso_objective. pose proof (norm1_nonneg [w]) as Pn.
  assert (V : mse_loss 0 [[2]] [1] [w] = 2 * (Rabs (w - 1 / 2) * Rabs (w - 1 / 2))).
  { rewrite <- Rabs_mult, Rabs_pos_eq by apply Rle_0_sqr. unfold mse_loss, over_samples, penalty, total, dot. cbn. field. }
  rewrite V. replace (0 - 1 / 2) with (- (1 / 2)) in H by ring. rewrite Rabs_Ropp, (Rabs_pos_eq (1 / 2)) in H by lra.
  replace 4 with (2 * 2) by ring. rewrite Rpow_mult_distr. assert (0 < 2 ^ max_iter) by (apply pow_lt; lra). assert (0 <= lambda * norm1 [w]) by (apply Rmult_le_pos; lra). nra.
Qed.
Print Assumptions C74_small_curvature_refuted.
Example C74_small_curvature_case : exists w, lasso_object_fit (lasso_new 10 (1 / 1000) 1 false true false) (fun _ => []) 1 [[2]] [1] = Ok w /\
  524288 <= lasso_objective (1 / 1000) [[2]] [1] w.
Proof. destruct (C74_small_curvature_refuted (1 / 1000) 10 true (fun _ => []) ltac:(lra)) as (w & E & H). exists w. split; [exact E|]. cbn [pow] in H. lra. Qed.

(** Logistic regression with the "l1" penalty (which the code adds to the l2 penalty of the loss, with the same weight). *)
Theorem C74_logistic : forall m sc lambda l1_ratio max_iter shuffle verbose perm w0 d X y v C, let X1 := map (fun r => r ++ [1]) X in
  0 < lambda -> 0 < l1_ratio -> (0 < max_iter)%nat -> width d X -> X <> [] -> length y = length X -> (forall b, In b y -> 0 <= b <= 1) ->
  (shuffle = true -> forall k, is_perm (length X) (perm k)) -> length w0 = S d -> length v = S d ->
  (forall j, (j <= d)%nat -> (column_squares j X1 / 4 + lambda) / INR (length X) <= l1_ratio) ->
  0 < C -> log_objective lambda lambda X1 y w0 <= C ->
  l1_ratio * (norm1 v + log_objective lambda lambda X1 y w0 / lambda) ^ 2 <= C ->
  exists w, logistic_object_fit (logistic_scd m lambda l1_ratio max_iter "scd" "l1" shuffle verbose) sc perm w0 d X y = Ok (Some w) /\ length w = S d /\
    log_objective lambda lambda X1 y w <= log_objective lambda lambda X1 y w0 /\
    log_objective lambda lambda X1 y w <= log_objective lambda lambda X1 y v + 2 * INR (S d) * C / INR max_iter.
Proof.
  intros m sc lambda l1_ratio max_iter shuffle verbose perm w0 d X y v C X1 HL HB Pk W N Ly Hy Hp L0 Lv Hc PC H0 HR.
  assert (Hn : 0 < INR (length X)) by (apply lt_0_INR; destruct X; [congruence|cbn; lia]).
  assert (Lx : length X1 = length X) by apply map_length. assert (N1 : X1 <> []) by (destruct X; [congruence|discriminate]).
  assert (HS : shapes X1 y w0).
  { split; [auto|]. split; [|congruence]. intros r Hr. apply in_map_iff in Hr. destruct Hr as (r0 & <- & Hr). rewrite app_length, (W r0 Hr), L0. cbn; lia. }
  destruct (C74_rate (list R) R (log_gradient lambda) (log_loss lambda X1 y) lambda l1_ratio perm shuffle max_iter X1 y w0 v C) as (w & E & L & M & G); auto; try lra; try lia; try congruence.
  - rewrite Lx; auto.
  - intros X' y' w RO Lw. apply (@log_axis lambda l1_ratio X1 y w0); auto; [lra|]. intros j Hj. rewrite Lx. apply Hc. lia.
  - unfold log_objective in *. pose proof (@log_loss_nonneg lambda X1 y v ltac:(lra) N1 Hy). pose proof (norm1_nonneg v). assert (0 <= lambda * norm1 v) by (apply Rmult_le_pos; lra). lra.
  - intros w Lw Hw. eapply Rle_trans; [|exact HR]. apply Rmult_le_compat_l; [lra|]. rewrite <- Rsqr_pow2. unfold Rsqr.
    apply (@ball lambda _ (log_loss lambda X1 y w)); auto; [apply log_loss_nonneg; auto; lra|congruence].
  - rewrite L0 in *. exists w. rewrite (proj2 (C66_logistic_arguments m sc 0 lambda 0 0 max_iter 0 shuffle verbose perm w0 d X y)). fold X1. rewrite E. cbn [bind].
    split; [reflexivity|]. split; [exact L|]. unfold log_objective. split; [exact M|exact G].
Qed.
Print Assumptions C74_logistic.
Example C74_logistic_case : forall m sc, exists w,
  logistic_object_fit (logistic_scd m (1 / 10) 1 1000 "scd" "l1" false false) sc (fun _ => []) [0; 0] 1 [[1]; [-1]] [1; 0] = Ok (Some w) /\ length w = 2%nat /\
  log_objective (1 / 10) (1 / 10) [[1; 1]; [-1; 1]] [1; 0] w <= log_objective (1 / 10) (1 / 10) [[1; 1]; [-1; 1]] [1; 0] [1; 0] + 4 / 5.
Proof.
  intros m sc.
  assert (L2 : ln 2 <= 1). { rewrite <- (ln_exp 1). left; apply ln_increasing; [lra|pose proof (exp_ineq1 1); lra]. }
  assert (B : log_objective (1 / 10) (1 / 10) [[1; 1]; [-1; 1]] [1; 0] [0; 0] <= 1).
  { assert (Ce : forall b, cross_entropy b 0 = ln 2).
    { intro b. unfold cross_entropy, Loss_Spec.logistic. rewrite Ropp_0, exp_0. replace (1 - 1 / (1 + 1)) with (/ 2) by field. replace (1 / (1 + 1)) with (/ 2) by field. rewrite ln_Rinv by lra. ring. }
    unfold log_objective, log_loss, over_samples, penalty, norm1, total, dot. cbn. rewrite Rabs_R0.
    replace (-1 * 0 + (1 * 0 + 0)) with 0 by ring. replace (1 * 0 + (1 * 0 + 0)) with 0 by ring. rewrite !Ce. lra. }
  assert (B0 : 0 <= log_objective (1 / 10) (1 / 10) [[1; 1]; [-1; 1]] [1; 0] [0; 0]).
  { unfold log_objective. apply Rplus_le_le_0_compat; [apply log_loss_nonneg; [lra|discriminate|intros b [<-|[<-|[]]]; lra]|]. apply Rmult_le_pos; [lra|apply norm1_nonneg]. }
  assert (Nv : norm1 [1; 0] = 1) by (unfold norm1; cbn; rewrite !Rabs_pos_eq by lra; lra).
  destruct (C74_logistic m sc (1 / 10) 1 1000 false false (fun _ => []) [0; 0] 1 [[1]; [-1]] [1; 0] [1; 0] 121) as (w & E & L & _ & G); try lra; try lia; try reflexivity; try discriminate.
  - intros r [<-|[<-|[]]]; reflexivity.
  - intros b [<-|[<-|[]]]; lra.
  - intros [|[|j]] Hj; try lia; unfold column_squares; cbn; lra.
  - cbn [map app]. lra.
  - cbn [map app]. rewrite Nv. set (o := log_objective _ _ _ _ _) in *. assert (0 <= 1 + o / (1 / 10) <= 11) by lra. rewrite <- Rsqr_pow2. unfold Rsqr. nra.
  - exists w. split; [exact E|]. split; [exact L|]. cbn [map app] in G. eapply Rle_trans; [exact G|]. apply Rplus_le_compat_l.
    change (INR 2) with 2. replace (INR 1000) with 1000 by (rewrite INR_IZR_INZ; reflexivity). lra.
Qed.


