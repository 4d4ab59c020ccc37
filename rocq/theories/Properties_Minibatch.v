(** C78: what stochastic gradient descent on mini-batches achieves. *)
From Coq Require Import Reals Lra Psatz String.
From Verif Require Import Base Common_Model KDReal_Proofs Impurity_Model Impurity_Spec Impurity_Proofs Vec Loss_Model Loss_Spec Loss_Proofs
  Shuffle_Model Optim_Model Optim_Spec Optim_Proofs OptimSteps_Proofs OptimRun_Proofs Properties_Optim
  Perceptron_Proofs Linear_Model Linear_Spec Linear_Proofs Descent_Spec Descent_Proofs Travel_Proofs Minibatch_Spec Minibatch_Proofs.
Local Open Scope R_scope.

(** SGD with the vanilla update, batches of [bs] samples. *)
Notation sgd gradient evaluate decay perm shuffle bs N tol max_iter X y w0 :=
  (optimize (sgd_step gradient evaluate clip_grad vanilla_update) decay perm shuffle bs N tol max_iter X y w0).
Notation sgd_run gradient evaluate decay shuffle bs X y w0 K data state loss :=
  (training_run (sgd_step gradient evaluate clip_grad vanilla_update) decay shuffle bs X y w0 K data state loss).

(** The run of [K] epochs that starts at [w0] and records [loss]: weighted with the rates, the recorded losses and half the squared
    distance from [u] at the end are at most half the squared distance at the start and what [u] would have lost; so in some epoch the
    recorded loss was at most [T], what [u] loses in an epoch, plus far / (2 (r1 + ... + rK)). *)
Definition close_to (u w0 : list R) (T : R) (rate : nat -> R) (K : nat) (state : nat -> list R) (loss : nat -> R) : Prop :=
  (forall k, (k <= K)%nat -> length (state k) = length w0 /\ sqn (vsub (state k) u) + 2 * weighted rate loss k <= sqn (vsub w0 u) + 2 * T * sum_rates rate k) /\
  (forall k, (0 < k <= K)%nat -> exists e, (e < k)%nat /\ 0 <= loss e <= T + sqn (vsub w0 u) / (2 * sum_rates rate k)).

Lemma weighted_above rate loss c k : (forall e, (e < k)%nat -> 0 < rate e /\ c < loss e) -> (0 < k)%nat -> c * sum_rates rate k < weighted rate loss k.
Proof.
  induction k as [|k IH]; intros H Hk; [lia|]. rewrite sum_rates_S, weighted_S. destruct (H k ltac:(lia)) as (A & B). destruct k as [|k].
  - unfold sum_rates, weighted. cbn. nra.
  - specialize (IH ltac:(intros; apply H; lia) ltac:(lia)). nra.
Qed.
Lemma rates_pos rate k : (forall e, (e < k)%nat -> 0 < rate e) -> (0 < k)%nat -> 0 < sum_rates rate k.
Proof. intros H Hk. destruct k as [|k]; [lia|]. rewrite sum_rates_S. pose proof (@rates_nonneg rate k ltac:(intros; apply H; lia)). specialize (H k ltac:(lia)). lra. Qed.
Lemma some_epoch (P : nat -> Prop) k : (forall e, P e \/ ~ P e) -> (exists e, (e < k)%nat /\ P e) \/ forall e, (e < k)%nat -> ~ P e.
Proof.
  intro D. induction k as [|k IH]; [right; intros; lia|]. destruct IH as [(e & He & Pe)|IH]; [left; exists e; split; [lia|auto]|]. destruct (D k) as [H|H]; [left; exists k; split; [lia|auto]|].
  right. intros e He. destruct (Nat.eq_dec e k) as [->|]; [auto|apply IH; lia].
Qed.
Lemma close_intro u w0 T rate K state loss : (forall e, (e < K)%nat -> 0 < rate e) -> (forall k, (k < K)%nat -> 0 <= loss k) ->
  (forall k, (k <= K)%nat -> length (state k) = length w0 /\ sqn (vsub (state k) u) + 2 * weighted rate loss k <= sqn (vsub w0 u) + 2 * T * sum_rates rate k) -> close_to u w0 T rate K state loss.
Proof.
  intros Hr Pl H. split; [exact H|]. intros k Hk. set (c := T + sqn (vsub w0 u) / (2 * sum_rates rate k)).
  pose proof (rates_pos rate k ltac:(intros; apply Hr; lia) ltac:(lia)) as PS.
  destruct (some_epoch (fun e => loss e <= c) k) as [(e & He & Le)|HN]; [intro e; destruct (Rle_dec (loss e) c); auto|exists e; split; [exact He|]; split; [apply Pl; lia|exact Le]|].
  exfalso. pose proof (weighted_above rate loss c k ltac:(intros e He; split; [apply Hr; lia|specialize (HN e He); lra]) ltac:(lia)) as W. destruct (H k ltac:(lia)) as (_ & HI). pose proof (sqn_nonneg (vsub (state k) u)).
  assert (E : c * sum_rates rate k = T * sum_rates rate k + sqn (vsub w0 u) / 2) by (unfold c; field; lra). lra.
Qed.

Lemma mse_epoch_bounds lambda bs X y u : 0 <= lambda -> (0 < bs)%nat -> 0 <= mse_epoch lambda bs X y u /\
  forall X' y' bl, reordered X X' y y' -> in_batches bs X' y' bl -> at_u (mse_loss lambda) u bl <= mse_epoch lambda bs X y u.
Proof.
  intros Hl Hb. assert (Hn : 0 < INR bs) by (now apply lt_0_INR). split.
  - unfold mse_epoch. apply Rplus_le_le_0_compat; [|apply Rmult_le_pos; [apply pos_INR|now apply penalty_nonneg]]. apply Rmult_le_pos; [|left; apply Rinv_0_lt_compat; lra]. apply total_nonneg. intros p _. apply pow2_ge_0.
  - intros X' y' bl Hr IB. unfold mse_epoch, Rdiv. eapply Rle_trans; [|apply (@epoch_at (fun b z => (b - z) ^ 2) (/ (2 * INR bs)) (penalty lambda bs u) X y bs X' y' bl u)]; auto; [|intros; apply pow2_ge_0|left; apply Rinv_0_lt_compat; lra].
    unfold at_u. right. f_equal. apply map_ext_in. intros b Hbl. unfold mse_loss. rewrite (proj1 (proj1 IB b Hbl)). reflexivity.
Qed.
Lemma log_epoch_bounds lambda bs X y u : 0 <= lambda -> (0 < bs)%nat -> (forall b, In b y -> 0 <= b <= 1) -> 0 <= log_epoch lambda bs X y u /\
  forall X' y' bl, reordered X X' y y' -> in_batches bs X' y' bl -> at_u (log_loss lambda) u bl <= log_epoch lambda bs X y u.
Proof.
  intros Hl Hb Hlab. assert (Hn : 0 < INR bs) by (now apply lt_0_INR). split.
  - unfold log_epoch. apply Rplus_le_le_0_compat; [|apply Rmult_le_pos; [apply pos_INR|now apply penalty_nonneg]]. apply Rmult_le_pos; [|left; apply Rinv_0_lt_compat; lra]. apply total_nonneg. intros (x, b) Hp. apply log_phi_nonneg. apply Hlab. cbn [snd]. now apply in_combine_r in Hp.
  - intros X' y' bl Hr IB. unfold log_epoch, Rdiv. eapply Rle_trans; [|apply (@epoch_at cross_entropy (/ INR bs) (penalty lambda bs u) X y bs X' y' bl u)]; auto; [|intros; apply log_phi_nonneg; auto|left; apply Rinv_0_lt_compat; lra].
    unfold at_u. right. f_equal. apply map_ext_in. intros b Hbl. unfold log_loss. rewrite (proj1 (proj1 IB b Hbl)). reflexivity.
Qed.
Lemma norms_nonneg X (B : R) : X <> [] -> (forall x, In x X -> sqn x <= B) -> 0 <= B.
Proof. intros N H. destruct X as [|x X]; [congruence|]. specialize (H x ltac:(now left)). pose proof (sqn_nonneg x). lra. Qed.

(** * Mean squared error: samples of squared norm at most [B], rates up to 1 / (B + lambda / bs), any batch size, any order *)
Theorem C78_mse : forall lambda X y w0 bs decay rate perm shuffle N tol max_iter B u w,
  0 <= lambda -> shapes X y w0 -> (0 < bs)%nat -> (shuffle = true -> forall k, is_perm (length X) (perm k)) -> (forall x, In x X -> sqn x <= B) ->
  (forall e, (e < max_iter)%nat -> decay e = Ok (rate e) /\ 0 < rate e /\ rate e * (B + lambda / INR bs) <= 1) -> length u = length w0 ->
  unclipped (B + lambda / INR bs) (sqn (vsub w0 u)) (mse_epoch lambda bs X y u) (sum_rates rate max_iter) ->
  sgd (mse_gradient lambda) (mse_evaluate lambda) decay perm shuffle bs N tol max_iter X y w0 = Ok w ->
  exists E data state loss, (N <= E < max_iter)%nat /\ sgd_run (mse_gradient lambda) (mse_evaluate lambda) decay shuffle bs X y w0 (E + 1) data state loss /\
    w = state (E + 1)%nat /\ close_to u w0 (mse_epoch lambda bs X y u) rate (E + 1) state loss.
Proof.
  intros lambda X y w0 bs decay rate perm shuffle N tol max_iter B u w Hl HS Hb Hp HB Hr Lu HC H. pose proof HS as (H1 & _ & H3).
  destruct (C36_returns _ _ _ _ _ _ _ _ _ _ _ _ _ _ _ H3 Hp H) as (E & data & state & loss & HE & HR & Es & St & _).
  assert (NE : (N <= E)%nat). { destruct (Nat.le_gt_cases N E) as [|Hn]; [auto|exfalso]. destruct (St 0%nat ltac:(lia) ltac:(lia)) as (i & Hi & _). lia. }
  exists E, data, state, loss. split; [lia|]. split; [exact HR|]. split; [exact Es|].
  assert (PL : 0 <= B + lambda / INR bs). { pose proof (norms_nonneg X B H1 HB). assert (0 <= lambda / INR bs) by (apply Rmult_le_pos; [auto|left; apply Rinv_0_lt_compat; now apply lt_0_INR]). lra. }
  destruct (mse_epoch_bounds lambda bs X y u Hl Hb) as (PT & HT).
  destruct (@run_closer _ _ X y w0 bs (mse_loss lambda) _ (mse_batches Hl Hb HS HB) PL u Lu decay rate shuffle _ H3 HT (E + 1)%nat data state loss (sum_rates rate max_iter) (fun e He => Hr e ltac:(lia)) (@rates_mono rate (E + 1) max_iter ltac:(lia) ltac:(intros; now apply Hr)) PT HC HR) as (Q1 & Q2).
  apply close_intro; auto. intros e He. apply Hr. lia.
Qed.
Print Assumptions C78_mse.
(** * Logistic loss, labels between 0 and 1, rates up to 1 / (B / 4 + lambda / bs) *)
Theorem C78_log : forall lambda X y w0 bs decay rate perm shuffle N tol max_iter B u w,
  0 <= lambda -> shapes X y w0 -> (forall b, In b y -> 0 <= b <= 1) -> (0 < bs)%nat -> (shuffle = true -> forall k, is_perm (length X) (perm k)) -> (forall x, In x X -> sqn x <= B) ->
  (forall e, (e < max_iter)%nat -> decay e = Ok (rate e) /\ 0 < rate e /\ rate e * (B / 4 + lambda / INR bs) <= 1) -> length u = length w0 ->
  unclipped (B / 4 + lambda / INR bs) (sqn (vsub w0 u)) (log_epoch lambda bs X y u) (sum_rates rate max_iter) ->
  sgd (log_gradient lambda) (log_evaluate lambda) decay perm shuffle bs N tol max_iter X y w0 = Ok w ->
  exists E data state loss, (N <= E < max_iter)%nat /\ sgd_run (log_gradient lambda) (log_evaluate lambda) decay shuffle bs X y w0 (E + 1) data state loss /\
    w = state (E + 1)%nat /\ close_to u w0 (log_epoch lambda bs X y u) rate (E + 1) state loss.
Proof.
  intros lambda X y w0 bs decay rate perm shuffle N tol max_iter B u w Hl HS Hlab Hb Hp HB Hr Lu HC H. pose proof HS as (H1 & _ & H3).
  destruct (C36_returns _ _ _ _ _ _ _ _ _ _ _ _ _ _ _ H3 Hp H) as (E & data & state & loss & HE & HR & Es & St & _).
  assert (NE : (N <= E)%nat). { destruct (Nat.le_gt_cases N E) as [|Hn]; [auto|exfalso]. destruct (St 0%nat ltac:(lia) ltac:(lia)) as (i & Hi & _). lia. }
  exists E, data, state, loss. split; [lia|]. split; [exact HR|]. split; [exact Es|].
  assert (PL : 0 <= B / 4 + lambda / INR bs). { pose proof (norms_nonneg X B H1 HB). assert (0 <= lambda / INR bs) by (apply Rmult_le_pos; [auto|left; apply Rinv_0_lt_compat; now apply lt_0_INR]). lra. }
  destruct (log_epoch_bounds lambda bs X y u Hl Hb Hlab) as (PT & HT).
  destruct (@run_closer _ _ X y w0 bs (log_loss lambda) _ (log_batches Hl Hb HS Hlab HB) PL u Lu decay rate shuffle _ H3 HT (E + 1)%nat data state loss (sum_rates rate max_iter) (fun e He => Hr e ltac:(lia)) (@rates_mono rate (E + 1) max_iter ltac:(lia) ltac:(intros; now apply Hr)) PT HC HR) as (Q1 & Q2).
  apply close_intro; auto. intros e He. apply Hr. lia.
Qed.
Print Assumptions C78_log.

(** Two samples whose labels an intercept of 1 halves: rate 1/2, one sample at a time. *)
Lemma ten_20 : 1000 <= 10 ^ 20.
Proof. replace (10 ^ 20) with (10 ^ 3 * 10 ^ 17) by ring. pose proof (pow_R1_Rle 10 17 ltac:(lra)). nra. Qed.
Example C78_mse_case : shapes [[1]; [1]] [0; 2] [0] /\ mse_epoch 0 1 [[1]; [1]] [0; 2] [1] = 1 /\ 1 / 2 * (1 + 0 / INR 1) <= 1 /\
  unclipped (1 + 0 / INR 1) (sqn (vsub [0] [1])) (mse_epoch 0 1 [[1]; [1]] [0; 2] [1]) (sum_rates (fun _ => 1 / 2) 5) /\
  exists w, sgd (mse_gradient 0) (mse_evaluate 0) (fun _ => Ok (1 / 2)) (fun _ => []) false 1 0 1 5 [[1]; [1]] [0; 2] [0] = Ok w.
Proof.
  assert (E : mse_epoch 0 1 [[1]; [1]] [0; 2] [1] = 1) by (unfold mse_epoch, over_samples, penalty, dot, total; cbn; field).
  assert (S : forall b v : R, shapes [[1]] [b] [v]) by (intros b v; repeat split; try discriminate; intros x [<-|[]]; reflexivity).
  split; [repeat split; try discriminate; intros x [<-|[<-|[]]]; reflexivity|]. split; [exact E|]. split; [cbn; lra|]. split.
  - rewrite E. unfold unclipped. eapply Rle_trans; [|apply ten_20]. unfold sum_rates, sqn, vsub, dot, total. cbn. lra.
  - assert (St : forall w b j, exists w', sgd_step (mse_gradient 0) (mse_evaluate 0) clip_grad vanilla_update [w] (1 / 2) j [[1]] [b] = Ok ([fst w'], snd w')).
    { intros w b j. unfold sgd_step. rewrite mse_gradient_glm by apply S. unfold glm_grad, vsum, vadd, vscale, zeros. cbn [map map2 fold_right length repeat combine bind]. unfold clip_grad. cbn [map]. unfold vanilla_update, vscale. cbn [map]. rewrite sub_Ok by reflexivity. cbn [bind]. unfold vsub. cbn [map2].
      rewrite mse_evaluate_glm by apply S. cbn [bind]. eexists (_, _). reflexivity. }
    unfold optimize. change (1 =? 0)%nat with false. cbv iota. cbn [seq epochs reshuffle bind fst snd]. unfold run_epoch. cbn [bind]. change (seq 0 (length [[1]; [1]] / 1)) with [0; 1]%nat. cbn [foldM]. unfold run_batch at 1. cbn [fst snd Nat.mul]. change (middle_rows [[1]; [1]] 0 1) with (@Ok (list (list R)) [[1]]). change (middle_rows [0; 2] 0 1) with (@Ok (list R) [0]). cbn [bind].
    destruct (St 0 0 0%nat) as (w1 & ->). cbn [bind fst snd app]. unfold run_batch at 1. cbn [fst snd]. change (middle_rows [[1]; [1]] (1 * 1) 1) with (@Ok (list (list R)) [[1]]). change (middle_rows [0; 2] (1 * 1) 1) with (@Ok (list R) [2]). cbn [bind]. destruct (St (fst w1) 2 1%nat) as (w2 & ->). cbn [bind fst snd app]. eexists. reflexivity.
Qed.

(** * [LogisticRegression] with the [sgd] solver, any batch size: rates alpha gamma^.., samples extended by a 1 *)
Theorem C78_logistic_regression : forall P perm w0 d X y B u w,
  width d X -> X <> [] -> length y = length X -> length w0 = n_coef true d -> length u = n_coef true d -> (forall b, In b y -> 0 <= b <= 1) ->
  (lp_shuffle P = true -> forall k, is_perm (length X) (perm k)) -> (0 < lp_batch P)%nat -> (0 < lp_step_size P)%nat ->
  0 <= lp_lambda P -> 0 < lp_alpha P -> 0 < lp_gamma P <= 1 -> (forall x, In x X -> sqn x + 1 <= B) ->
  lp_alpha P * (B / 4 + lp_lambda P / INR (lp_batch P)) <= 1 ->
  let X1 := map (fun x => x ++ [1]) X in
  let T := log_epoch (lp_lambda P) (lp_batch P) X1 y u in
  unclipped (B / 4 + lp_lambda P / INR (lp_batch P)) (sqn (vsub w0 u)) T (lp_alpha P * INR (lp_max_iter P)) ->
  logistic_fit P "sgd" "l2" perm w0 d X y = Ok (Some w) ->
  exists E data state loss, (lp_no_change P <= E < lp_max_iter P)%nat /\
    sgd_run (log_gradient (lp_lambda P)) (log_evaluate (lp_lambda P)) (step_decay (lp_alpha P) (lp_gamma P) (lp_step_size P)) (lp_shuffle P) (lp_batch P) X1 y w0 (E + 1) data state loss /\
    w = state (E + 1)%nat /\ close_to u w0 T (fun e => lp_alpha P * lp_gamma P ^ ((1 + e) / lp_step_size P)) (E + 1) state loss.
Proof.
  intros P perm w0 d X y B u w W NX Ly L0 Lu Hlab Hp Hb St Hl Ha Hg HB HC X1 T HU H.
  assert (Ex : with_ones true X = X1) by reflexivity. assert (L1 : length X1 = length X) by apply map_length.
  assert (HS : shapes X1 y w0).
  { split; [unfold X1; destruct X; [congruence|discriminate]|]. split; [|congruence]. rewrite <- Ex, with_ones_ext, L0, <- ncols_coef. now apply width_ext. }
  set (rate := fun e => lp_alpha P * lp_gamma P ^ ((1 + e) / lp_step_size P)).
  assert (HB1 : forall x, In x X1 -> sqn x <= B).
  { intros x Hx. apply in_map_iff in Hx. destruct Hx as (x0 & <- & Hx0). replace (sqn (x0 ++ [1])) with (sqn x0 + 1); [auto|]. unfold sqn. clear. induction x0 as [|a x0 IH]; [cbn; ring|]. cbn [app]. rewrite !dot_cons, <- IH. ring. }
  assert (PC : 0 <= B / 4 + lp_lambda P / INR (lp_batch P)). { pose proof (norms_nonneg X1 B (proj1 HS) HB1). assert (0 <= lp_lambda P / INR (lp_batch P)) by (apply Rmult_le_pos; [auto|left; apply Rinv_0_lt_compat; now apply lt_0_INR]). lra. }
  assert (Hr : forall e, step_decay (lp_alpha P) (lp_gamma P) (lp_step_size P) e = Ok (rate e) /\ 0 < rate e /\ rate e <= lp_alpha P).
  { intro e. unfold step_decay. destruct (Nat.eqb_spec (lp_step_size P) 0) as [|_]; [lia|]. split; [reflexivity|]. unfold rate.
    set (q := ((1 + e) / lp_step_size P)%nat). assert (0 < lp_gamma P ^ q) by (apply pow_lt; lra).
    assert (G1 : lp_gamma P ^ q <= 1). { apply Rle_trans with (1 ^ q); [apply pow_incr; lra|rewrite pow1; lra]. } split; [now apply Rmult_lt_0_compat|nra]. }
  assert (SR : sum_rates rate (lp_max_iter P) <= lp_alpha P * INR (lp_max_iter P)).
  { generalize (lp_max_iter P). induction n as [|n IH]; [unfold sum_rates; cbn; lra|]. rewrite sum_rates_S, S_INR. destruct (Hr n) as (_ & _ & Q). lra. }
  assert (Hp1 : lp_shuffle P = true -> forall k, is_perm (length X1) (perm k)) by (now rewrite L1).
  unfold logistic_fit in H. rewrite Ex in H. change (logistic_solver "sgd" "l2") with (@Ok solver_kind UseSGD) in H. cbn [bind] in H.
  match type of H with bind ?o _ = _ => destruct o as [w1| | |] eqn:E; try discriminate end. cbn [bind] in H. injection H as ->.
  refine (C78_log (lp_lambda P) X1 y w0 (lp_batch P) _ rate perm (lp_shuffle P) (lp_no_change P) (lp_tol P) (lp_max_iter P) B u w Hl HS Hlab Hb Hp1 HB1 _ ltac:(congruence) _ E).
  - intros e _. destruct (Hr e) as (A1 & A2 & A3). split; [exact A1|]. split; [exact A2|]. eapply Rle_trans; [|exact HC]. apply Rmult_le_compat_r; auto.
  - unfold unclipped in *. fold T. eapply Rle_trans; [|exact HU]. destruct (log_epoch_bounds (lp_lambda P) (lp_batch P) X1 y u Hl Hb Hlab) as (PT & _). fold T in PT. apply Rplus_le_compat_l. apply Rmult_le_compat_l; [pose proof (pow2_ge_0 (B / 4 + lp_lambda P / INR (lp_batch P))); lra|]. nra.
Qed.
Print Assumptions C78_logistic_regression.

(** Two samples, one at a time, rate 1, from 0: against the weights 0 themselves. *)
Lemma log_two : log_epoch 0 1 [[1; 1]; [-1; 1]] [1; 0] [0; 0] = 2 * ln 2.
Proof.
  assert (L0 : logistic 0 = / 2) by (unfold logistic; rewrite Ropp_0, exp_0; field).
  unfold log_epoch, over_samples, penalty, cross_entropy, dot, total. cbn. replace (1 * 0 + (1 * 0 + 0)) with 0 by ring. replace (-1 * 0 + (1 * 0 + 0)) with 0 by ring. rewrite L0. replace (1 - / 2) with (/ 2) by field. rewrite ln_Rinv by lra. field.
Qed.
Example C78_logistic_regression_case : let P := LogisticParams 0 1 1 1 0 1 1 6 0 false (fun _ _ _ => UB) in
  exists w E data state loss, logistic_fit P "sgd" "l2" (fun _ => []) [0; 0] 1 [[1]; [-1]] [1; 0] = Ok (Some w) /\
    sgd_run (log_gradient 0) (log_evaluate 0) (step_decay 1 1 1) false 1 [[1; 1]; [-1; 1]] [1; 0] [0; 0] (E + 1) data state loss /\ w = state (E + 1)%nat /\ 0 <= loss 0%nat <= 2 * ln 2.
Proof.
  intro P. assert (LN : 0 < ln 2 < 1). { split; [rewrite <- ln_1; apply ln_increasing; lra|]. rewrite <- (ln_exp 1). apply ln_increasing; [lra|]. pose proof (exp_ineq1 1 ltac:(lra)). lra. }
  assert (Hb : forall b, In b [1; 0] -> 0 <= b <= 1) by (intros b [<-|[<-|[]]]; lra).
  assert (HS : shapes [[1; 1]; [-1; 1]] [1; 0] [0; 0]) by (repeat split; try discriminate; intros x [<-|[<-|[]]]; reflexivity).
  assert (HQ : forall x, In x [[1; 1]; [-1; 1]] -> sqn x <= 2) by (intros x [<-|[<-|[]]]; unfold sqn, dot; cbn; lra).
  assert (Ex : exists w, sgd (log_gradient 0) (log_evaluate 0) (step_decay 1 1 1) (fun _ => []) false 1 0 1 6 [[1; 1]; [-1; 1]] [1; 0] [0; 0] = Ok w).
  { destruct (C36_total _ _ _ (sgd_step (log_gradient 0) (log_evaluate 0) clip_grad vanilla_update) (step_decay 1 1 1) (fun _ => []) false 1 0 1 6 [[1; 1]; [-1; 1]] [1; 0] [0; 0] (fun v => length v = 2%nat) eq_refl ltac:(discriminate) ltac:(lia)
      ltac:(intro k; eexists; reflexivity) eq_refl) as [(w & E & _)|(_ & data & state & loss & _ & NS)].
    - intros s lr j Xb yb Ls LX Ly IX _. assert (Sh : forall v, length v = 2%nat -> shapes Xb yb v).
      { intros v Lv. split; [destruct Xb; [cbn in LX; lia|discriminate]|]. split; [|congruence]. rewrite Lv. intros x Hx. apply IX in Hx. destruct Hx as [<-|[<-|[]]]; reflexivity. }
      unfold sgd_step. rewrite log_gradient_glm by auto. cbn [bind]. set (g := glm_grad _ _ _ _ _ _). assert (Lg : length g = length s) by (apply glm_grad_length; auto).
      unfold vanilla_update. rewrite sub_Ok by (rewrite vscale_length, clip_length; auto). cbn [bind]. set (v := vsub _ _).
      assert (Lv : length v = 2%nat) by (unfold v; rewrite vsub_length; auto; rewrite vscale_length, clip_length; auto).
      rewrite log_evaluate_glm by auto. cbn [bind]. eauto.
    - eauto.
    - exfalso. apply (NS 0%nat ltac:(lia)). intros k H1 H2. lia. }
  destruct Ex as (w & Ew). exists w.
  assert (Ef : logistic_fit P "sgd" "l2" (fun _ => []) [0; 0] 1 [[1]; [-1]] [1; 0] = Ok (Some w)).
  { unfold logistic_fit. change (logistic_solver "sgd" "l2") with (@Ok solver_kind UseSGD). cbn [bind]. change (with_ones true [[1]; [-1]]) with [[1; 1]; [-1; 1]]. unfold P. cbn [lp_lambda lp_alpha lp_gamma lp_step_size lp_tol lp_batch lp_max_iter lp_no_change lp_shuffle]. rewrite Ew. reflexivity. }
  destruct (C78_logistic_regression P (fun _ => []) [0; 0] 1 [[1]; [-1]] [1; 0] 2 [0; 0] w) as (E & data & state & loss & _ & HR & Es & _ & C2);
    unfold P; cbn [lp_lambda lp_alpha lp_gamma lp_step_size lp_l1_ratio lp_tol lp_batch lp_max_iter lp_no_change lp_shuffle]; try discriminate; try lia; try lra; try reflexivity.
  - intros r [<-|[<-|[]]]; reflexivity.
  - exact Hb.
  - intros x [<-|[<-|[]]]; unfold sqn, dot; cbn; lra.
  - change (map (fun x => x ++ [1]) [[1]; [-1]]) with [[1; 1]; [-1; 1]]. rewrite log_two. unfold unclipped. eapply Rle_trans; [|apply ten_20]. unfold sqn, vsub, dot, total. cbn. lra.
  - exact Ef.
  - exists E, data, state, loss. split; [exact Ef|]. split; [exact HR|]. split; [exact Es|]. destruct (C2 1%nat ltac:(lia)) as (e & He & Q). assert (e = 0)%nat by lia. subst e.
    change (map (fun x => x ++ [1]) [[1]; [-1]]) with [[1; 1]; [-1; 1]] in Q. cbn [P lp_lambda lp_batch] in Q. rewrite log_two in Q. replace (sqn (vsub [0; 0] [0; 0])) with 0 in Q by (unfold sqn, vsub, dot; cbn; ring). unfold Rdiv in Q. rewrite Rmult_0_l, Rplus_0_r in Q. exact Q.
Qed.

(** * Data that can be fitted exactly *)
Lemma fits_epoch X y u bs : fits X y u -> mse_epoch 0 bs X y u = 0.
Proof.
  intro H. unfold mse_epoch, penalty. replace (over_samples (fun y0 z => (y0 - z) ^ 2) X y u) with 0; [unfold Rdiv; ring|]. symmetry. unfold over_samples.
  rewrite (map_ext_in _ (fun _ => 0)); [rewrite Impurity_Proofs.total_const; ring|]. intros (x, b) Hp. cbn [fst snd]. rewrite (H x b Hp). ring.
Qed.
(** Without penalty, batches of any size: the weights never get further from any exact solution than they were at the start, however
    many epochs are run, and the losses recorded, weighted with the rates, add up to at most half the squared distance. *)
Theorem C78_exact : forall X y w0 bs decay rate perm shuffle N tol max_iter B u w,
  shapes X y w0 -> (0 < bs)%nat -> (shuffle = true -> forall k, is_perm (length X) (perm k)) -> (forall x, In x X -> sqn x <= B) ->
  (forall e, (e < max_iter)%nat -> decay e = Ok (rate e) /\ 0 < rate e /\ rate e * B <= 1) -> length u = length w0 -> fits X y u ->
  2 * B ^ 2 * sqn (vsub w0 u) <= 10 ^ 20 ->
  sgd (mse_gradient 0) (mse_evaluate 0) decay perm shuffle bs N tol max_iter X y w0 = Ok w ->
  sqn (vsub w u) <= sqn (vsub w0 u) /\
  exists E data state loss, (N <= E < max_iter)%nat /\ sgd_run (mse_gradient 0) (mse_evaluate 0) decay shuffle bs X y w0 (E + 1) data state loss /\ w = state (E + 1)%nat /\
    (forall k, (k <= E + 1)%nat -> sqn (vsub (state k) u) + 2 * weighted rate loss k <= sqn (vsub w0 u)) /\
    (forall k, (0 < k <= E + 1)%nat -> exists e, (e < k)%nat /\ 0 <= loss e <= sqn (vsub w0 u) / (2 * sum_rates rate k)).
Proof.
  intros X y w0 bs decay rate perm shuffle N tol max_iter B u w HS Hb Hp HB Hr Lu Hf HC H.
  assert (EB : B + 0 / INR bs = B) by (unfold Rdiv; ring). assert (PT : forall k, (k <= max_iter)%nat -> 0 <= sum_rates rate k) by (intros k Hk; apply rates_nonneg; intros; apply Hr; lia).
  destruct (C78_mse 0 X y w0 bs decay rate perm shuffle N tol max_iter B u w ltac:(lra) HS Hb Hp HB ltac:(rewrite EB; exact Hr) Lu) as (E & data & state & loss & HE & HR & Es & C1 & C2).
  { rewrite EB, fits_epoch by exact Hf. unfold unclipped. eapply Rle_trans; [|exact HC]. right. ring. }
  { exact H. }
  rewrite fits_epoch in C1, C2 by exact Hf.
  assert (PW : forall k, (k <= E + 1)%nat -> 0 <= weighted rate loss k).
  { assert (G : forall e, (e < E + 1)%nat -> 0 <= loss e).
    { intros e He. destruct (@run_closer _ _ X y w0 bs (mse_loss 0) _ (mse_batches (Rle_refl 0) Hb HS HB) ltac:(rewrite EB; exact (norms_nonneg X B (proj1 HS) HB)) u Lu decay rate shuffle _ (proj2 (proj2 HS)) (proj2 (mse_epoch_bounds 0 bs X y u (Rle_refl 0) Hb)) (E + 1)%nat data state loss (sum_rates rate (E + 1)) ltac:(rewrite EB; intros; apply Hr; lia) (Rle_refl _) ltac:(rewrite fits_epoch by exact Hf; lra)
        ltac:(rewrite EB, fits_epoch by exact Hf; unfold unclipped; eapply Rle_trans; [|exact HC]; right; ring) HR) as (Q1 & _). now apply Q1. }
    intros k Hk. unfold weighted. apply total_nonneg. intros e He. apply in_seq in He. apply Rmult_le_pos; [left; apply Hr; lia|apply G; lia]. }
  split.
  - subst w. destruct (C1 (E + 1)%nat ltac:(lia)) as (_ & Q). pose proof (PW (E + 1)%nat ltac:(lia)). lra.
  - exists E, data, state, loss. split; [exact HE|]. split; [exact HR|]. split; [exact Es|]. split.
    + intros k Hk. destruct (C1 k Hk) as (_ & Q). lra.
    + intros k Hk. destruct (C2 k Hk) as (e & He & Q). exists e. split; [exact He|]. lra.
Qed.
Print Assumptions C78_exact.
(** It ends without an exception if [max_iter] allows for the patience times the loss that can be gained, in units of what counts as an
    improvement. *)
Theorem C78_exact_ends : forall X y w0 bs decay rate perm shuffle N tol max_iter B u K,
  shapes X y w0 -> (0 < bs)%nat -> (shuffle = true -> forall k, is_perm (length X) (perm k)) -> (forall x, In x X -> sqn x <= B) ->
  (forall e, decay e = Ok (rate e) /\ 0 < rate e /\ rate e * B <= 1) -> length u = length w0 -> fits X y u ->
  2 * B ^ 2 * sqn (vsub w0 u) <= 10 ^ 20 -> 0 < tol -> sqn (vsub w0 u) / (2 * rate 0%nat) < INR K * (tol * INR bs) -> (N * K < max_iter)%nat ->
  exists w, sgd (mse_gradient 0) (mse_evaluate 0) decay perm shuffle bs N tol max_iter X y w0 = Ok w /\ sqn (vsub w u) <= sqn (vsub w0 u).
Proof.
  intros X y w0 bs decay rate perm shuffle N tol max_iter B u K HS Hb Hp HB Hr Lu Hf HC Ht HF HK. assert (EB : B + 0 / INR bs = B) by (unfold Rdiv; ring). pose proof HS as (H1 & H2 & H3).
  assert (Hs : forall s lr j Xb yb, length s = length w0 -> length Xb = bs -> length yb = bs -> incl Xb X -> incl yb y ->
    exists s' l, sgd_step (mse_gradient 0) (mse_evaluate 0) clip_grad vanilla_update s lr j Xb yb = Ok (s', l) /\ length s' = length w0).
  { intros s lr j Xb yb Ls LX Ly IX Iy. assert (Sh : forall v, length v = length w0 -> shapes Xb yb v).
    { intros v Lv. split; [destruct Xb; [cbn in LX; lia|discriminate]|]. split; [|congruence]. rewrite Lv. intros x Hx. apply H2. auto. }
    unfold sgd_step. rewrite mse_gradient_glm by auto. cbn [bind]. set (g := glm_grad _ _ _ _ _ _). assert (Lg : length g = length s) by (apply glm_grad_length; auto).
    unfold vanilla_update. rewrite sub_Ok by (rewrite vscale_length, clip_length; auto). cbn [bind]. set (v := vsub _ _).
    assert (Lv : length v = length w0) by (unfold v; rewrite vsub_length; auto; rewrite vscale_length, clip_length; auto).
    rewrite mse_evaluate_glm by auto. cbn [bind]. eauto. }
  destruct (C36_total _ _ _ (sgd_step (mse_gradient 0) (mse_evaluate 0) clip_grad vanilla_update) decay perm shuffle bs N tol max_iter X y w0 (fun v => length v = length w0) H3 Hp Hb (fun k => ex_intro _ (rate k) (proj1 (Hr k))) eq_refl Hs) as [(w & E & _)|(_ & data & state & loss & HR & NS)].
  - exists w. split; [exact E|]. exact (proj1 (C78_exact X y w0 bs decay rate perm shuffle N tol max_iter B u w HS Hb Hp HB (fun e _ => Hr e) Lu Hf HC E)).
  - exfalso. destruct (patience NS K HK) as (k & Hk & Lk).
    destruct (@run_closer _ _ X y w0 bs (mse_loss 0) _ (mse_batches (Rle_refl 0) Hb HS HB) ltac:(rewrite EB; exact (norms_nonneg X B H1 HB)) u Lu decay rate shuffle _ (proj2 (proj2 HS)) (proj2 (mse_epoch_bounds 0 bs X y u (Rle_refl 0) Hb)) max_iter data state loss (sum_rates rate max_iter) ltac:(rewrite EB; intros; apply Hr) (Rle_refl _) ltac:(rewrite fits_epoch by exact Hf; lra)
        ltac:(rewrite EB, fits_epoch by exact Hf; unfold unclipped; eapply Rle_trans; [|exact HC]; right; ring) HR) as (Q1 & Q2).
    pose proof (Q1 k ltac:(lia)) as P1. destruct (Q2 1%nat ltac:(lia)) as (_ & P2). rewrite fits_epoch in P2 by exact Hf. pose proof (sqn_nonneg (vsub (state 1%nat) u)) as P3.
    replace (weighted rate loss 1) with (rate 0%nat * loss 0%nat) in P2 by (unfold weighted; cbn; ring). destruct (Hr 0%nat) as (_ & R0 & _).
    assert (P4 : loss 0%nat <= sqn (vsub w0 u) / (2 * rate 0%nat)). { apply (Rmult_le_reg_r (2 * rate 0%nat)); [lra|]. unfold Rdiv. rewrite Rmult_assoc, Rinv_l by lra. lra. }
    lra.
Qed.
Print Assumptions C78_exact_ends.
(** The line y = 2 x + 1 through three points, one sample at a time, rate 1/5, from 0. *)
Example C78_exact_case : exists w, sgd (mse_gradient 0) (mse_evaluate 0) (fun _ => Ok (1 / 5)) (fun _ => []) false 1 2 (1 / 2) 60 [[0; 1]; [1; 1]; [2; 1]] [1; 3; 5] [0; 0] = Ok w /\ sqn (vsub w [2; 1]) <= 5.
Proof.
  assert (S5 : sqn (vsub [0; 0] [2; 1]) = 5) by (unfold sqn, vsub, dot; cbn; ring). enough (G : exists w, sgd (mse_gradient 0) (mse_evaluate 0) (fun _ => Ok (1 / 5)) (fun _ => []) false 1 2 (1 / 2) 60 [[0; 1]; [1; 1]; [2; 1]] [1; 3; 5] [0; 0] = Ok w /\ sqn (vsub w [2; 1]) <= sqn (vsub [0; 0] [2; 1])) by (rewrite S5 in G; exact G).
  apply (C78_exact_ends _ _ _ 1 _ (fun _ => 1 / 5) _ false 2 (1 / 2) 60 5 [2; 1] 26); try lra; try lia; try discriminate; try reflexivity.
  - repeat split; try discriminate. intros x [<-|[<-|[<-|[]]]]; reflexivity.
  - intros x [<-|[<-|[<-|[]]]]; unfold sqn, dot; cbn; lra.
  - intro e. split; [reflexivity|]. lra.
  - intros x b [E|[E|[E|[]]]]; injection E as <- <-; unfold dot; cbn; ring.
  - unfold sqn, vsub, dot. cbn [map2 fold_right]. assert (1000 <= 10 ^ 20). { replace (10 ^ 20) with (10 ^ 3 * 10 ^ 17) by ring. pose proof (pow_R1_Rle 10 17 ltac:(lra)). nra. } cbn; lra.
Qed.

(** * What is recorded is not the loss of the weights: each batch is measured right after its own step. *)
(** Two samples that contradict each other, one at a time, rate 1 = 1 / B: every recorded loss is 0, below what any weights lose on the
    data; the run ends with weights that fit the last sample and lose twice the minimum. *)
Theorem C78_recorded_refuted : forall tol max_iter, 0 < tol -> (2 <= max_iter)%nat ->
  exists data state loss, sgd_run (mse_gradient 0) (mse_evaluate 0) (fun _ => Ok 1) false 1 [[1]; [1]] [0; 2] [0] 2 data state loss /\
    sgd (mse_gradient 0) (mse_evaluate 0) (fun _ => Ok 1) (fun _ => []) false 1 1 tol max_iter [[1]; [1]] [0; 2] [0] = Ok [2] /\ state 2%nat = [2] /\
    loss 0%nat = 0 /\ loss 1%nat = 0 /\ mse_loss 0 [[1]; [1]] [0; 2] [2] = 1 /\ forall v, 1 / 2 <= mse_loss 0 [[1]; [1]] [0; 2] [v] /\ mse_loss 0 [[1]; [1]] [0; 2] [1] = 1 / 2.
Proof.
  intros tol n Ht Hn.
  assert (Cl : forall a, Rabs a <= 10 ^ 10 -> clip_grad [a] = [a]).
  { intros a Ha. unfold clip_grad. cbn [map]. f_equal. revert Ha. generalize (10 ^ 10) as B. intros B Ha. pose proof (Rle_abs a). pose proof (Rle_abs (- a)) as Q. rewrite Rabs_Ropp in Q. rewrite Rmin_left by lra. rewrite Rmax_left; lra. }
  assert (P10 : 2 <= 10 ^ 10). { replace (10 ^ 10) with (10 * 10 ^ 9) by ring. pose proof (pow_R1_Rle 10 9 ltac:(lra)). lra. }
  assert (St : forall w b j, Rabs (w - b) <= 2 -> sgd_step (mse_gradient 0) (mse_evaluate 0) clip_grad vanilla_update [w] 1 j [[1]] [b] = Ok ([b], 0)).
  { intros w b j Hw. assert (S : forall v, shapes [[1]] [b] [v]) by (intro v; repeat split; try discriminate; intros x [<-|[]]; reflexivity).
    assert (G : mse_gradient 0 [[1]] [b] [w] = Ok [w - b]) by (rewrite mse_gradient_glm by apply S; unfold glm_grad, mse_dphi, mse_c, vsum, dot, zeros, vadd, vscale; cbn; do 2 f_equal; field).
    unfold sgd_step. rewrite G. cbn [bind]. rewrite Cl by lra. unfold vanilla_update, vscale. cbn [map]. rewrite sub_Ok by reflexivity. cbn [bind]. unfold vsub. cbn [map2]. replace (w - 1 * (w - b)) with b by ring.
    rewrite mse_evaluate_glm by apply S. cbn [bind]. do 2 f_equal. unfold glm, over_samples, penalty, mse_phi, mse_c, dot, total. cbn. field. }
  assert (A0 : Rabs (0 - 0) <= 2) by (rewrite Rminus_0_r, Rabs_R0; lra). assert (A2 : Rabs (0 - 2) <= 2) by (rewrite Rabs_left; lra). assert (A3 : Rabs (2 - 0) <= 2) by (rewrite Rabs_right; lra).
  exists (fun _ => ([[1]; [1]], [0; 2])), (fun k => match k with O => [0] | _ => [2] end), (fun _ => 0).
  assert (RE : forall iter w, Rabs (w - 0) <= 2 -> run_epoch (sgd_step (mse_gradient 0) (mse_evaluate 0) clip_grad vanilla_update) (fun _ => Ok 1) 1 iter [[1]; [1]] [0; 2] [w] = Ok ([2], 0)).
  { intros iter w Hw. unfold run_epoch. cbn [bind]. change (seq 0 (length [[1]; [1]] / 1)) with [0; 1]%nat. cbn [foldM]. unfold run_batch at 1. cbn [fst snd Nat.mul]. change (middle_rows [[1]; [1]] 0 1) with (@Ok (list (list R)) [[1]]). change (middle_rows [0; 2] 0 1) with (@Ok (list R) [0]). cbn [bind].
    rewrite (St w 0 0%nat Hw). cbn [bind fst snd app]. unfold run_batch at 1. cbn [fst snd]. change (middle_rows [[1]; [1]] (1 * 1) 1) with (@Ok (list (list R)) [[1]]). change (middle_rows [0; 2] (1 * 1) 1) with (@Ok (list R) [2]). cbn [bind]. rewrite (St 0 2 1%nat A2). cbn [bind fst snd app]. do 2 f_equal. unfold Rsum. cbn. ring. }
  split; [|split; [|split; [reflexivity|split; [reflexivity|split; [reflexivity|split]]]]].
  - split; [reflexivity|]. intros e He. split; [apply reordered_refl|]. split; [reflexivity|]. exists 1, [([[1]], [0]); ([[1]], [2])]. split; [reflexivity|]. split.
    + split; [intros b [<-|[<-|[]]]; split; reflexivity|]. split; [exists []; split; [reflexivity|cbn; lia]|exists []; split; [reflexivity|cbn; lia]].
    + assert (Z3 : 0 = 0 + (0 + 0)) by ring. destruct e as [|[|e]]; [| |lia]; match goal with |- epoch_run _ _ _ _ ?a ?b _ => enough (Q : epoch_run (sgd_step (mse_gradient 0) (mse_evaluate 0) clip_grad vanilla_update) 1 0 [([[1]], [0]); ([[1]], [2])] a b (0 + (0 + 0))) by (rewrite <- Z3 in Q; exact Q) end.
      * eapply epoch_batch; [exact (St 0 0 0%nat A0)|]. eapply epoch_batch; [exact (St 0 2 1%nat A2)|apply epoch_end].
      * eapply epoch_batch; [exact (St 2 0 0%nat A3)|]. eapply epoch_batch; [exact (St 0 2 1%nat A2)|apply epoch_end].
  - unfold optimize. change (1 =? 0)%nat with false. cbv iota. destruct n as [|[|n]]; [lia|lia|]. cbn [seq epochs reshuffle bind fst snd]. rewrite (RE 0%nat 0 A0). cbn [bind fst snd not_improved better]. change (1 <=? 0)%nat with false. cbv iota.
    rewrite (RE 1%nat 2 A3). cbn [bind fst snd not_improved]. unfold Rltb. destruct (Rlt_dec (0 - tol * INR 1) 0) as [|Q]; [reflexivity|exfalso; apply Q; cbn; lra].
  - unfold mse_loss, over_samples, penalty, dot, total. cbn. field.
  - intro v. split; [|unfold mse_loss, over_samples, penalty, dot, total; cbn; field].
    unfold mse_loss, over_samples, penalty, dot, total. cbn. pose proof (Rle_0_sqr (v - 1)) as Q. unfold Rsqr in Q. nra.
Qed.
Print Assumptions C78_recorded_refuted.
