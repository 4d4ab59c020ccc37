(** C79: solvers that turn out to be the same solver. *)
From Coq Require Import Reals Lra Psatz String.
From Verif Require Import Base Common_Model Impurity_Spec Impurity_Model Impurity_Proofs Vec Loss_Model Loss_Spec Loss_Proofs Metric_Proofs
  Shuffle_Model Optim_Model Optim_Spec Optim_Proofs OptimSteps_Proofs OptimRun_Proofs Properties_Optim
  Linear_Model Linear_Spec Linear_Proofs Descent_Spec Descent_Proofs Properties_Descent Units_Spec Solvers_Spec Solvers_Proofs.
Local Open Scope R_scope.

(** * Momentum changes nothing: a run with it is the run without, result for result and failure for failure *)
Theorem C79_momentum : forall (Row Lab : Type) (gradient : list Row -> list Lab -> list R -> outcome (list R)) evaluate mu decay perm shuffle batch_size N tol max_iter X y w0,
  optimize (sgd_step gradient evaluate clip_grad (momentum_update mu)) decay perm shuffle batch_size N tol max_iter X y w0 =
  optimize (sgd_step gradient evaluate clip_grad vanilla_update) decay perm shuffle batch_size N tol max_iter X y w0.
Proof.
  intros. apply (@sgd_updates _ _ gradient evaluate 1); intros.
  - rewrite momentum_is_vanilla. f_equal. ring.
  - unfold scaled_rates. destruct (decay e); cbn; auto. f_equal. ring.
Qed.
Print Assumptions C79_momentum.

(** * Nesterov's momentum only multiplies the learning rates by 1 + mu *)
Theorem C79_nesterov : forall (Row Lab : Type) (gradient : list Row -> list Lab -> list R -> outcome (list R)) evaluate mu decay perm shuffle batch_size N tol max_iter X y w0,
  optimize (sgd_step gradient evaluate clip_grad (nesterov_update mu)) decay perm shuffle batch_size N tol max_iter X y w0 =
  optimize (sgd_step gradient evaluate clip_grad vanilla_update) (scaled_rates (1 + mu) decay) perm shuffle batch_size N tol max_iter X y w0.
Proof.
  intros. apply (@sgd_updates _ _ gradient evaluate (1 + mu)); intros; [apply nesterov_is_scaled|reflexivity].
Qed.
Print Assumptions C79_nesterov.

(** * TruncatedGradient without an L1 penalty is SGD *)
Theorem C79_truncated : forall (Row Lab : Type) (gradient : list Row -> list Lab -> list R -> outcome (list R)) evaluate alpha l1_ratio decay perm shuffle batch_size N tol max_iter X y w0,
  alpha = 0 \/ l1_ratio = 0 ->
  seen tg_w (optimize (tg_step gradient evaluate vanilla_update alpha l1_ratio) decay perm shuffle batch_size N tol max_iter X y (tg_init w0 (length w0))) =
  optimize (sgd_step gradient evaluate clip_grad vanilla_update) decay perm shuffle batch_size N tol max_iter X y w0.
Proof.
  intros Row Lab gradient evaluate alpha l1 decay perm shuffle bs N tol m X y w0 H0. apply same_seen.
  apply (@same_weaken _ _ (fun s w => tg_w s = w /\ length w = length w0 /\ tg_cum s = zeros (length w0) /\ tg_max s = 0)); [tauto|].
  apply (@optimize_sim _ _ _ _ _ _ _ _ _ eq) with (n := length X); auto.
  - intro e. apply same_refl.
  - intros s s' lr lr' j Xb yb (A & B & C & D) <- _. apply tg_step_sim; auto.
    + destruct H0 as [-> | ->]; ring.
    + intros w g r w' Lw. unfold vanilla_update, sub. destruct (Nat.eqb_spec (length w) (length (vscale r g))); [|discriminate]. intro E; injection E as <-. now rewrite vsub_length.
Qed.
Print Assumptions C79_truncated.

(** * SAG with a single batch is SGD with every rate divided by the batch size *)
Theorem C79_sag : forall (Row Lab : Type) (gradient : list Row -> list Lab -> list R -> outcome (list R)) evaluate decay decay' perm shuffle batch_size N tol max_iter X y w0,
  (length X / batch_size = 1)%nat -> (forall e, decay' e = scaled_rates (/ INR batch_size) decay e) ->
  seen sg_w (optimize (sag_step gradient evaluate vanilla_update batch_size) decay perm shuffle batch_size N tol max_iter X y (sag_init w0 (length w0) (length X / batch_size))) =
  optimize (sgd_step gradient evaluate clip_grad vanilla_update) decay' perm shuffle batch_size N tol max_iter X y w0.
Proof.
  intros Row Lab gradient evaluate decay decay' perm shuffle bs N tol m X y w0 H1 Hd. apply same_seen.
  apply (@same_weaken _ _ (sag_one (length w0) bs)); [intros a b (E & _); exact E|].
  apply (@optimize_sim _ _ _ _ _ _ _ _ _ (fun a b => b = / INR bs * a)) with (n := length X); auto.
  - intro e. rewrite Hd. apply decay_scaled.
  - intros s s' lr lr' j Xb yb Hs -> Hj. rewrite H1 in Hj. replace j with 0%nat by lia. now apply sag_step_sim.
  - rewrite H1. split; [reflexivity|]. split; [reflexivity|]. exists (zeros (length w0)). split; [reflexivity|]. split; [apply repeat_length|]. cbn [sag_init sg_avg].
    unfold zeros. induction (length w0) as [|k IH]; cbn; [reflexivity|]. f_equal; [lra|exact IH].
Qed.
Print Assumptions C79_sag.

(** * [LogisticRegression]: with one batch, solver "sag" learns what "sgd" learns with [alpha] divided by the batch size *)
Definition with_alpha (a : R) (P : logistic_params) : logistic_params :=
  {| lp_lambda := lp_lambda P; lp_alpha := a; lp_gamma := lp_gamma P; lp_step_size := lp_step_size P; lp_l1_ratio := lp_l1_ratio P; lp_tol := lp_tol P; lp_batch := lp_batch P;
     lp_max_iter := lp_max_iter P; lp_no_change := lp_no_change P; lp_shuffle := lp_shuffle P; lp_lbfgs := lp_lbfgs P |}.
Theorem C79_logistic_sag : forall P penalty perm w0 d X y, (length X / lp_batch P = 1)%nat -> length w0 = S d ->
  logistic_fit P "sag" penalty perm w0 d X y = logistic_fit (with_alpha (lp_alpha P / INR (lp_batch P)) P) "sgd" penalty perm w0 d X y.
Proof.
  intros P penalty perm w0 d X y H1 L. unfold logistic_fit, logistic_solver. destruct (_ || _)%bool; [|destruct (String.eqb penalty "l1"); reflexivity].
  cbn [String.eqb Ascii.eqb Bool.eqb bind lp_lambda lp_alpha lp_gamma lp_step_size lp_tol lp_batch lp_max_iter lp_no_change lp_shuffle with_alpha].
  assert (LX : length (with_ones true X) = length X) by apply map_length. rewrite <- L, <- LX.
  rewrite <- (C79_sag (list R) R (log_gradient (lp_lambda P)) (log_evaluate (lp_lambda P)) (step_decay (lp_alpha P) (lp_gamma P) (lp_step_size P))).
  - now destruct (optimize _ _ _ _ _ _ _ _ _ _ _).
  - congruence.
  - intro e. unfold scaled_rates, step_decay. destruct (lp_step_size P =? 0)%nat; cbn; [reflexivity|]. f_equal. unfold Rdiv. ring.
Qed.
Print Assumptions C79_logistic_sag.

(** So what holds of gradient descent holds of SAG on the whole data, with a rate that may be as many times larger as there are samples - and a
    bound that shrinks as many times more slowly at the same rate. *)
Theorem C79_sag_converges : forall lambda X y w0 lr perm shuffle N tol max_iter s,
  0 <= lambda -> shapes X y w0 -> (shuffle = true -> forall k, is_perm (length X) (perm k)) -> 0 < lr -> lr * mse_curvature lambda X <= INR (length X) ->
  optimize (sag_step (mse_gradient lambda) (mse_evaluate lambda) vanilla_update (length X)) (fun _ => Ok lr) perm shuffle (length X) N tol max_iter X y
    (sag_init w0 (length w0) (length X / length X)) = Ok s ->
  mse_loss lambda X y (sg_w s) <= mse_loss lambda X y w0 /\
  (2 * mse_curvature lambda X * mse_loss lambda X y w0 <= 10 ^ 20 -> forall u, length u = length w0 ->
     mse_loss lambda X y (sg_w s) <= mse_loss lambda X y u + INR (length X) * sqn (vsub w0 u) / (2 * lr * INR (N + 1))).
Proof.
  intros lambda X y w0 lr perm shuffle N tol m s Hl HS Hp P Q H. assert (LX : (0 < length X)%nat) by (destruct HS as (NX & _); destruct X; [congruence|cbn; lia]).
  assert (PX : 0 < INR (length X)) by now apply lt_0_INR.
  pose proof (C79_sag _ _ (mse_gradient lambda) (mse_evaluate lambda) (fun _ => Ok lr) (fun _ => Ok (/ INR (length X) * lr)) perm shuffle (length X) N tol m X y w0 ltac:(apply Nat.div_same; lia) ltac:(reflexivity)) as E.
  rewrite H in E. cbn [seen] in E. symmetry in E.
  assert (PL : 0 < / INR (length X) * lr) by (apply Rmult_lt_0_compat; [now apply Rinv_0_lt_compat|exact P]).
  assert (QL : / INR (length X) * lr * mse_curvature lambda X <= 1). { rewrite Rmult_assoc. rewrite <- (Rinv_l (INR (length X))) by lra. apply Rmult_le_compat_l; [left; now apply Rinv_0_lt_compat|exact Q]. }
  destruct (C59_mse_constant lambda X y w0 _ perm shuffle N tol m (sg_w s) Hl HS Hp PL QL E) as (G1 & G2). split; [exact G1|]. intros HB u Lu. specialize (G2 HB u Lu).
  replace (INR (length X) * sqn (vsub w0 u) / (2 * lr * INR (N + 1))) with (sqn (vsub w0 u) / (2 * (/ INR (length X) * lr) * INR (N + 1))); [exact G2|].
  assert (0 < INR (N + 1)) by (apply lt_0_INR; lia). field. lra.
Qed.
Print Assumptions C79_sag_converges.

(** Two equal samples, one epoch, rate 1: SGD ends at the minimum, SAG with the same settings half-way. *)
Lemma one_epoch c tol m : (0 < m)%nat ->
  optimize (sgd_step (mse_gradient 0) (mse_evaluate 0) clip_grad vanilla_update) (fun _ => Ok c) (fun _ => []) false 2 0 tol m [[1]; [1]] [1; 1] [0] = Ok [c].
Proof.
  intro Hm. destruct m as [|m]; [lia|]. unfold optimize. change (2 =? 0)%nat with false. cbv iota. cbn [seq epochs reshuffle bind fst snd].
  unfold run_epoch. cbn [bind]. change (seq 0 (length [[1]; [1]] / 2)) with [0]%nat. cbn [foldM]. unfold run_batch. cbn [fst snd Nat.mul].
  change (middle_rows [[1]; [1]] 0 2) with (@Ok (list (list R)) [[1]; [1]]). change (middle_rows [1; 1] 0 2) with (@Ok (list R) [1; 1]). cbn [bind].
  assert (S : forall v, shapes [[1]; [1]] [1; 1] [v]) by (intro v; repeat split; try discriminate; intros x [<-|[<-|[]]]; reflexivity).
  assert (G : mse_gradient 0 [[1]; [1]] [1; 1] [0] = Ok [-1]) by (rewrite mse_gradient_glm by apply S; unfold glm_grad, mse_dphi, mse_c, vsum, dot, zeros, vadd, vscale; cbn; do 2 f_equal; field).
  assert (CL : clip_grad [-1] = [-1]). { apply clip_id. unfold sqn, dot, total. cbn [map2 fold_right]. pose proof (pow_R1_Rle 10 20 ltac:(lra)). lra. }
  unfold sgd_step. rewrite G. cbn [bind]. rewrite CL. unfold vanilla_update, vscale. cbn [map]. rewrite sub_Ok by reflexivity. cbn [bind]. unfold vsub. cbn [map2].
  rewrite mse_evaluate_glm by apply S. cbn [bind fst snd]. change (0 <=? _)%nat with true. cbv iota. do 2 f_equal. ring.
Qed.
Theorem C79_same_settings_refuted : forall tol max_iter, (0 < max_iter)%nat ->
  optimize (sgd_step (mse_gradient 0) (mse_evaluate 0) clip_grad vanilla_update) (fun _ => Ok 1) (fun _ => []) false 2 0 tol max_iter [[1]; [1]] [1; 1] [0] = Ok [1] /\
  (exists s, optimize (sag_step (mse_gradient 0) (mse_evaluate 0) vanilla_update 2) (fun _ => Ok 1) (fun _ => []) false 2 0 tol max_iter [[1]; [1]] [1; 1] (sag_init [0] 1 1) = Ok s /\ sg_w s = [1 / 2]) /\
  mse_loss 0 [[1]; [1]] [1; 1] [1] = 0 /\ mse_loss 0 [[1]; [1]] [1; 1] [1 / 2] = 1 / 8.
Proof.
  intros tol m Hm. split; [now apply one_epoch|]. split.
  - pose proof (C79_sag _ _ (mse_gradient 0) (mse_evaluate 0) (fun _ => Ok 1) (fun _ => Ok (/ INR 2 * 1)) (fun _ => []) false 2 0 tol m [[1]; [1]] [1; 1] [0] ltac:(reflexivity) ltac:(reflexivity)) as E.
    rewrite one_epoch in E by exact Hm. change (sag_init [0] (length [0]) (length [[1]; [1]] / 2)) with (sag_init [0] 1 1) in E.
    destruct (optimize _ _ _ _ _ _ _ _ _ _ _) as [s| | |]; try discriminate. cbn [seen] in E. injection E as E. exists s. split; [reflexivity|]. rewrite E. f_equal. cbn. lra.
  - unfold mse_loss, over_samples, penalty, dot, total. cbn. split; lra.
Qed.
Print Assumptions C79_same_settings_refuted.

(** The hypotheses of C79_sag and C79_sag_converges: two samples in one batch of two, rate 1. *)
Example C79_case : (length [[1]; [1]] / 2 = 1)%nat /\ (forall e, (fun _ : nat => @Ok R (/ INR 2 * 1)) e = scaled_rates (/ INR 2) (fun _ => Ok 1) e) /\
  shapes [[1]; [1]] [1; 1] [0] /\ 1 * mse_curvature 0 [[1]; [1]] <= INR (length [[1]; [1]]).
Proof.
  split; [reflexivity|]. split; [reflexivity|]. split; [repeat split; try discriminate; intros x [<-|[<-|[]]]; reflexivity|]. unfold mse_curvature, sum_squares, sqn, dot, total. cbn. lra.
Qed.
Example C79_truncated_case : forall tol, seen tg_w (optimize (tg_step (mse_gradient 0) (mse_evaluate 0) vanilla_update 5 0) (fun _ => Ok 1) (fun _ => []) false 2 0 tol 3 [[1]; [1]] [1; 1] (tg_init [0] 1)) = Ok [1].
Proof. intro tol. rewrite (C79_truncated _ _ _ _ 5 0 _ _ _ _ _ _ _ _ _ [0]) by auto. apply one_epoch. lia. Qed.
Example C79_momentum_case : forall mu tol, optimize (sgd_step (mse_gradient 0) (mse_evaluate 0) clip_grad (momentum_update mu)) (fun _ => Ok 1) (fun _ => []) false 2 0 tol 3 [[1]; [1]] [1; 1] [0] = Ok [1].
Proof. intros mu tol. rewrite C79_momentum. apply one_epoch. lia. Qed.
