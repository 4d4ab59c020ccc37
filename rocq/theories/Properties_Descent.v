(** C59: gradient descent on the whole data converges. *)
From Coq Require Import Reals Lra Psatz String.
From Verif Require Import Base Common_Model Impurity_Spec Impurity_Proofs Vec Loss_Model Loss_Spec Loss_Proofs Metric_Proofs
  Shuffle_Model Optim_Model Optim_Spec Optim_Proofs OptimSteps_Proofs OptimRun_Proofs Properties_Optim
  Linear_Model Linear_Spec Linear_Proofs Descent_Spec Descent_Proofs.
Local Open Scope R_scope.

(** SGD with the vanilla update where every batch is the whole data. *)
Notation full_sgd gradient evaluate decay perm shuffle N tol max_iter X y w0 :=
  (optimize (sgd_step gradient evaluate clip_grad vanilla_update) decay perm shuffle (length X) N tol max_iter X y w0).

Section Generic.
  Variables (gradient : list (list R) -> list R -> list R -> outcome (list R)) (evaluate : list (list R) -> list R -> list R -> outcome R).
  Variables (X : list (list R)) (y : list R) (w0 : list R) (F : list R -> R) (L : R).
  Hypothesis HX : X <> [].
  Hypothesis Hy : length y = length X.
  Hypothesis Hloss : forall X' y' w, reordered X X' y y' -> length w = length w0 ->
    evaluate X' y' w = Ok (F w) /\ exists g, gradient X' y' w = Ok g /\ tangent F L w g.
  Hypothesis HL : 0 <= L.
  Hypothesis HF : forall v, length v = length w0 -> 0 <= F v.
  Variables (decay : nat -> outcome R) (rate : nat -> R) (perm : nat -> list nat) (shuffle : bool) (N : nat) (tol : R) (max_iter : nat).
  Hypothesis Hperm : shuffle = true -> forall k, is_perm (length X) (perm k).
  Hypothesis Hrate : forall e, (e < max_iter)%nat -> decay e = Ok (rate e) /\ 0 < rate e /\ rate e * L <= 1.
  Let step := sgd_step gradient evaluate clip_grad vanilla_update.

  Lemma generic_run K data state loss : (K <= max_iter)%nat -> training_run step decay shuffle (length X) X y w0 K data state loss ->
    (forall e, (e < K)%nat -> loss e = F (state (e + 1)%nat) /\ F (state (e + 1)%nat) <= F (state e)) /\
    (2 * L * F w0 <= 10 ^ 20 -> forall u e, length u = length w0 -> (0 < e <= K)%nat ->
       F (state e) <= F u + sqn (vsub w0 u) / (2 * total (map rate (seq 0 e)))) /\
    forall e, (e <= K)%nat -> length (state e) = length w0.
  Proof.
    intros HK HR. pose proof (full_run HX Hy Hloss HR) as A. destruct HR as (E0 & _).
    assert (Hstep : forall t, (t < K)%nat -> exists g, tangent F L (state t) g /\ state (S t) = vsub (state t) (vscale (rate t) (clip_grad g))).
    { intros t Ht. destruct (A t Ht) as (lr & g & Ed & Tg & Es & _). destruct (Hrate t ltac:(lia)) as (Ed' & _). rewrite Ed' in Ed. injection Ed as <-. eauto. }
    assert (Hlr : forall t, (t < K)%nat -> 0 < rate t /\ rate t * L <= 1) by (intros t Ht; apply Hrate; lia).
    assert (L0 : length (state 0%nat) = length w0) by now rewrite E0.
    split; [|split].
    - intros e He. rewrite Nat.add_1_r. destruct (A e He) as (lr & g & _ & _ & _ & El). split; [exact El|]. exact (run_descent _ _ Hstep Hlr He).
    - intros HB u e Lu He. rewrite <- E0 in HB. pose proof (run_rate HL HF _ _ L0 Hstep Hlr u Lu HB (t := e) ltac:(lia)) as R1. rewrite E0 in R1.
      assert (P : 0 < total (map rate (seq 0 e))).
      { destruct e as [|e]; [lia|]. cbn [seq map]. assert (TC : forall a m, total (a :: m) = a + total m) by reflexivity. rewrite TC.
        assert (0 <= total (map rate (seq 1 e))). { apply total_nonneg. intros x Hx. apply in_seq in Hx. destruct (Hlr x); [lia|lra]. } destruct (Hlr 0%nat); [lia|]. lra. }
      pose proof (sqn_nonneg (vsub (state e) u)) as Q.
      assert (H : (F (state e) - F u) * (2 * total (map rate (seq 0 e))) <= sqn (vsub w0 u)) by lra.
      apply (Rmult_le_compat_r (/ (2 * total (map rate (seq 0 e))))) in H; [|left; apply Rinv_0_lt_compat; lra].
      rewrite Rmult_assoc, Rinv_r, Rmult_1_r in H by lra. unfold Rdiv. lra.
    - intros e He. exact (run_length _ _ L0 Hstep He).
  Qed.
  Lemma generic_returns w : optimize step decay perm shuffle (length X) N tol max_iter X y w0 = Ok w ->
    exists E data state loss, (N <= E < max_iter)%nat /\ training_run step decay shuffle (length X) X y w0 (E + 1) data state loss /\ w = state (E + 1)%nat /\
      (forall e, (e <= E)%nat -> loss e = F (state (e + 1)%nat) /\ F (state (e + 1)%nat) <= F (state e)) /\
      (2 * L * F w0 <= 10 ^ 20 -> forall u e, length u = length w0 -> (0 < e <= E + 1)%nat ->
         F (state e) <= F u + sqn (vsub w0 u) / (2 * total (map rate (seq 0 e)))).
  Proof.
    intro H. destruct (C36_returns _ _ _ _ _ _ _ _ _ _ _ _ _ _ _ Hy Hperm H) as (E & data & state & loss & HE & HR & Es & St & _).
    exists E, data, state, loss. destruct (generic_run (E + 1) data state loss ltac:(lia) HR) as (G1 & G2 & _).
    assert (NE : (N <= E)%nat). { destruct (Nat.le_gt_cases N E) as [|Hn]; [auto|exfalso]. destruct (St 0%nat ltac:(lia) ltac:(lia)) as (i & Hi & _). lia. }
    repeat (split; [solve [auto]|]). split; [|exact G2]. intros e He. apply G1. lia.
  Qed.
  Hypothesis Htot : forall s lr j Xb yb, length s = length w0 -> length Xb = length X -> length yb = length X -> incl Xb X -> incl yb y ->
    exists s' l, step s lr j Xb yb = Ok (s', l) /\ length s' = length w0.
  Hypothesis Hdec : forall k, exists lr, decay k = Ok lr.
  Lemma generic_total B : 0 < tol -> (N * B < max_iter)%nat -> F w0 < INR B * (tol * INR (length X)) ->
    exists w, optimize step decay perm shuffle (length X) N tol max_iter X y w0 = Ok w /\ length w = length w0.
  Proof.
    intros Ht HB HF0. assert (P : (0 < length X)%nat) by (destruct X; [congruence|cbn; lia]).
    destruct (C36_total _ _ _ step decay perm shuffle (length X) N tol max_iter X y w0 (fun v => length v = length w0) Hy Hperm P Hdec eq_refl Htot) as [H|(_ & data & state & loss & HR & NS)]; [exact H|exfalso].
    destruct (generic_run max_iter data state loss (le_n _) HR) as (G1 & _ & GL).
    destruct (patience NS B HB) as (k & Hk & Lk). destruct (G1 k ltac:(lia)) as (Ek & _). destruct (G1 0%nat ltac:(lia)) as (E0 & D0).
    assert (S0 : state 0%nat = w0) by apply HR. rewrite S0 in D0. cbn [plus] in D0, E0. pose proof (HF (state (k + 1)%nat) ltac:(apply GL; lia)) as Pk. rewrite <- Ek in Pk. lra.
  Qed.
End Generic.

(** * Mean squared error *)
(** Learning rates up to the inverse of the curvature.  Every epoch lowers the loss or leaves it (even where the gradient is
    clipped); if clipping cannot happen, after rates r1, ..., re the loss is within |w0 - u|^2 / (2 (r1 + ... + re)) of the
    loss of every u, in particular of the minimum. *)
Theorem C59_mse : forall lambda X y w0 decay rate perm shuffle N tol max_iter w,
  0 <= lambda -> shapes X y w0 -> (shuffle = true -> forall k, is_perm (length X) (perm k)) ->
  (forall e, (e < max_iter)%nat -> decay e = Ok (rate e) /\ 0 < rate e /\ rate e * mse_curvature lambda X <= 1) ->
  full_sgd (mse_gradient lambda) (mse_evaluate lambda) decay perm shuffle N tol max_iter X y w0 = Ok w ->
  exists E data state loss, (N <= E < max_iter)%nat /\
    training_run (sgd_step (mse_gradient lambda) (mse_evaluate lambda) clip_grad vanilla_update) decay shuffle (length X) X y w0 (E + 1) data state loss /\
    w = state (E + 1)%nat /\
    (forall e, (e <= E)%nat -> loss e = mse_loss lambda X y (state (e + 1)%nat) /\ mse_loss lambda X y (state (e + 1)%nat) <= mse_loss lambda X y (state e)) /\
    (2 * mse_curvature lambda X * mse_loss lambda X y w0 <= 10 ^ 20 -> forall u e, length u = length w0 -> (0 < e <= E + 1)%nat ->
       mse_loss lambda X y (state e) <= mse_loss lambda X y u + sqn (vsub w0 u) / (2 * total (map rate (seq 0 e)))).
Proof.
  intros lambda X y w0 decay rate perm shuffle N tol max_iter w Hl HS Hp Hr H. pose proof HS as (H1 & _ & H3).
  exact (generic_returns (mse_gradient lambda) (mse_evaluate lambda) X y w0 (mse_loss lambda X y) (mse_curvature lambda X) H1 H3 (mse_full Hl HS)
    (proj1 (curvature_nonneg Hl H1)) (fun v _ => mse_loss_nonneg y v Hl H1) decay rate perm shuffle N tol max_iter Hp Hr w H).
Qed.
Print Assumptions C59_mse.
Example C59_mse_case : shapes [[1]; [2]] [1; 2] [0] /\ 2 / 5 * mse_curvature 0 [[1]; [2]] <= 1.
Proof.
  split; [repeat split; try discriminate; intros x [<-|[<-|[]]]; reflexivity|]. unfold mse_curvature, sum_squares, sqn, dot, total. cbn. lra.
Qed.

Lemma total_const (c : R) n k : total (map (fun _ => c) (seq k n)) = INR n * c.
Proof.
  revert k. induction n as [|n IH]; intro k; [cbn; lra|]. cbn [seq map]. assert (TC : forall a m, total (a :: m) = a + total m) by reflexivity. rewrite TC, IH, S_INR. ring.
Qed.
(** With a constant rate: what is returned is never worse than the start, and within |w0 - u|^2 / (2 lr (N + 1)) of any u. *)
Theorem C59_mse_constant : forall lambda X y w0 lr perm shuffle N tol max_iter w,
  0 <= lambda -> shapes X y w0 -> (shuffle = true -> forall k, is_perm (length X) (perm k)) -> 0 < lr -> lr * mse_curvature lambda X <= 1 ->
  full_sgd (mse_gradient lambda) (mse_evaluate lambda) (fun _ => Ok lr) perm shuffle N tol max_iter X y w0 = Ok w ->
  mse_loss lambda X y w <= mse_loss lambda X y w0 /\
  (2 * mse_curvature lambda X * mse_loss lambda X y w0 <= 10 ^ 20 -> forall u, length u = length w0 ->
     mse_loss lambda X y w <= mse_loss lambda X y u + sqn (vsub w0 u) / (2 * lr * INR (N + 1))).
Proof.
  intros lambda X y w0 lr perm shuffle N tol max_iter w Hl HS Hp P Q H.
  destruct (C59_mse lambda X y w0 (fun _ => Ok lr) (fun _ => lr) perm shuffle N tol max_iter w Hl HS Hp ltac:(auto) H) as (E & data & state & loss & HE & HR & -> & G1 & G2).
  assert (S0 : state 0%nat = w0) by apply HR. split.
  - assert (M : forall e, (e <= E + 1)%nat -> mse_loss lambda X y (state e) <= mse_loss lambda X y w0).
    { induction e as [|e IH]; intro He; [rewrite S0; lra|]. destruct (G1 e ltac:(lia)) as (_ & D). rewrite Nat.add_1_r in D. specialize (IH ltac:(lia)). lra. }
    apply M. lia.
  - intros HB u Lu. specialize (G2 HB u (E + 1)%nat Lu ltac:(lia)). rewrite total_const in G2. eapply Rle_trans; [exact G2|]. apply Rplus_le_compat_l.
    unfold Rdiv. apply Rmult_le_compat_l; [apply sqn_nonneg|]. assert (I1 : 0 < INR (N + 1)) by (apply lt_0_INR; lia). assert (I2 : INR (N + 1) <= INR (E + 1)) by (apply le_INR; lia).
    apply Rinv_le_contravar; nra.
Qed.
Print Assumptions C59_mse_constant.

Lemma incl_shapes (X Xb : list (list R)) (y yb : list R) w0 v : shapes X y w0 -> length Xb = length X -> length yb = length X -> incl Xb X -> length v = length w0 -> shapes Xb yb v.
Proof.
  intros (H1 & H2 & H3) LX Ly IX Lv. split; [destruct Xb; [destruct X; [congruence|discriminate]|discriminate]|]. split; [|congruence]. rewrite Lv. intros x Hx. apply H2; auto.
Qed.
(** The run ends without an exception if [max_iter] allows for the patience times the loss that can be gained, in units of
    what counts as an improvement. *)
Theorem C59_mse_ends : forall lambda X y w0 decay rate perm shuffle N tol max_iter B,
  0 <= lambda -> shapes X y w0 -> (shuffle = true -> forall k, is_perm (length X) (perm k)) ->
  (forall e, decay e = Ok (rate e) /\ 0 < rate e /\ rate e * mse_curvature lambda X <= 1) ->
  0 < tol -> mse_loss lambda X y w0 < INR B * (tol * INR (length X)) -> (N * B < max_iter)%nat ->
  exists w, full_sgd (mse_gradient lambda) (mse_evaluate lambda) decay perm shuffle N tol max_iter X y w0 = Ok w /\ length w = length w0.
Proof.
  intros lambda X y w0 decay rate perm shuffle N tol max_iter B Hl HS Hp Hr Ht HF HB. pose proof HS as (H1 & _ & H3).
  refine (generic_total (mse_gradient lambda) (mse_evaluate lambda) X y w0 (mse_loss lambda X y) (mse_curvature lambda X) H1 H3 (mse_full Hl HS)
    (proj1 (curvature_nonneg Hl H1)) (fun v _ => mse_loss_nonneg y v Hl H1) decay rate perm shuffle N tol max_iter Hp (fun e _ => Hr e) _ (fun k => ex_intro _ (rate k) (proj1 (Hr k))) B Ht HB HF).
  intros s lr j Xb yb Ls LX Ly IX Iy. assert (Sh : forall v, length v = length w0 -> shapes Xb yb v) by (intros; eapply incl_shapes; eauto).
  unfold sgd_step. rewrite mse_gradient_glm by auto. cbn [bind]. set (g := glm_grad _ _ _ _ _ _). assert (Lg : length g = length s) by (apply glm_grad_length; auto).
  unfold vanilla_update. rewrite sub_Ok by (rewrite vscale_length, clip_length; auto). cbn [bind]. set (v := vsub _ _). 
  assert (Lv : length v = length w0) by (unfold v; rewrite vsub_length; auto; rewrite vscale_length, clip_length; auto).
  rewrite mse_evaluate_glm by auto. cbn [bind]. eauto.
Qed.
Print Assumptions C59_mse_ends.

(** * Logistic loss, labels between 0 and 1 *)
Theorem C59_log : forall lambda X y w0 decay rate perm shuffle N tol max_iter w,
  0 <= lambda -> shapes X y w0 -> (forall b, In b y -> 0 <= b <= 1) -> (shuffle = true -> forall k, is_perm (length X) (perm k)) ->
  (forall e, (e < max_iter)%nat -> decay e = Ok (rate e) /\ 0 < rate e /\ rate e * log_curvature lambda X <= 1) ->
  full_sgd (log_gradient lambda) (log_evaluate lambda) decay perm shuffle N tol max_iter X y w0 = Ok w ->
  exists E data state loss, (N <= E < max_iter)%nat /\
    training_run (sgd_step (log_gradient lambda) (log_evaluate lambda) clip_grad vanilla_update) decay shuffle (length X) X y w0 (E + 1) data state loss /\
    w = state (E + 1)%nat /\
    (forall e, (e <= E)%nat -> loss e = log_loss lambda X y (state (e + 1)%nat) /\ log_loss lambda X y (state (e + 1)%nat) <= log_loss lambda X y (state e)) /\
    (2 * log_curvature lambda X * log_loss lambda X y w0 <= 10 ^ 20 -> forall u e, length u = length w0 -> (0 < e <= E + 1)%nat ->
       log_loss lambda X y (state e) <= log_loss lambda X y u + sqn (vsub w0 u) / (2 * total (map rate (seq 0 e)))).
Proof.
  intros lambda X y w0 decay rate perm shuffle N tol max_iter w Hl HS Hlab Hp Hr H. pose proof HS as (H1 & _ & H3).
  exact (generic_returns (log_gradient lambda) (log_evaluate lambda) X y w0 (log_loss lambda X y) (log_curvature lambda X) H1 H3 (log_full Hl HS)
    (proj2 (curvature_nonneg Hl H1)) (fun v _ => log_loss_nonneg y v Hl H1 Hlab) decay rate perm shuffle N tol max_iter Hp Hr w H).
Qed.
Print Assumptions C59_log.
Theorem C59_log_ends : forall lambda X y w0 decay rate perm shuffle N tol max_iter B,
  0 <= lambda -> shapes X y w0 -> (forall b, In b y -> 0 <= b <= 1) -> (shuffle = true -> forall k, is_perm (length X) (perm k)) ->
  (forall e, decay e = Ok (rate e) /\ 0 < rate e /\ rate e * log_curvature lambda X <= 1) ->
  0 < tol -> log_loss lambda X y w0 < INR B * (tol * INR (length X)) -> (N * B < max_iter)%nat ->
  exists w, full_sgd (log_gradient lambda) (log_evaluate lambda) decay perm shuffle N tol max_iter X y w0 = Ok w /\ length w = length w0.
Proof.
  intros lambda X y w0 decay rate perm shuffle N tol max_iter B Hl HS Hlab Hp Hr Ht HF HB. pose proof HS as (H1 & _ & H3).
  refine (generic_total (log_gradient lambda) (log_evaluate lambda) X y w0 (log_loss lambda X y) (log_curvature lambda X) H1 H3 (log_full Hl HS)
    (proj2 (curvature_nonneg Hl H1)) (fun v _ => log_loss_nonneg y v Hl H1 Hlab) decay rate perm shuffle N tol max_iter Hp (fun e _ => Hr e) _ (fun k => ex_intro _ (rate k) (proj1 (Hr k))) B Ht HB HF).
  intros s lr j Xb yb Ls LX Ly IX Iy. assert (Sh : forall v, length v = length w0 -> shapes Xb yb v) by (intros; eapply incl_shapes; eauto).
  unfold sgd_step. rewrite log_gradient_glm by auto. cbn [bind]. set (g := glm_grad _ _ _ _ _ _). assert (Lg : length g = length s) by (apply glm_grad_length; auto).
  unfold vanilla_update. rewrite sub_Ok by (rewrite vscale_length, clip_length; auto). cbn [bind]. set (v := vsub _ _). 
  assert (Lv : length v = length w0) by (unfold v; rewrite vsub_length; auto; rewrite vscale_length, clip_length; auto).
  rewrite log_evaluate_glm by auto. cbn [bind]. eauto.
Qed.
Print Assumptions C59_log_ends.
Lemma logistic_0 : logistic 0 = / 2.
Proof. unfold logistic. rewrite Ropp_0, exp_0. field. Qed.
Lemma log_two_rows : log_loss 0 [[1]; [-1]] [1; 0] [0] = ln 2.
Proof.
  unfold log_loss, over_samples, penalty, cross_entropy, dot, total. cbn. replace (1 * 0 + 0) with 0 by ring. replace (-1 * 0 + 0) with 0 by ring. rewrite logistic_0. replace (1 - / 2) with (/ 2) by field. rewrite ln_Rinv by lra. field.
Qed.
Lemma ln_2_below : ln 2 < 1.
Proof. rewrite <- (ln_exp 1). apply ln_increasing; [lra|]. pose proof (exp_ineq1 1 ltac:(lra)). lra. Qed.
(** Two rows, one feature, rate 1: at most six epochs, whatever the engine draws. *)
Example C59_log_ends_case : exists w, full_sgd (log_gradient 0) (log_evaluate 0) (fun _ => Ok 1) (fun _ => []) false 5 1 6 [[1]; [-1]] [1; 0] [0] = Ok w /\ length w = 1%nat.
Proof.
  apply (C59_log_ends 0 [[1]; [-1]] [1; 0] [0] (fun _ => Ok 1) (fun _ => 1) (fun _ => []) false 5 1 6 1); try lra; try discriminate; try lia.
  - repeat split; try discriminate; intros x [<-|[<-|[]]]; reflexivity.
  - intros b [<-|[<-|[]]]; lra.
  - intro e. split; [reflexivity|]. split; [lra|]. unfold log_curvature, sum_squares, sqn, dot, total. cbn. lra.
  - rewrite log_two_rows. pose proof ln_2_below. cbn. lra.
Qed.

(** * [LogisticRegression] with the [sgd] solver, one batch and a decay factor up to 1 *)
Theorem C59_logistic_regression : forall P perm w0 d X y B,
  width d X -> X <> [] -> length y = length X -> length w0 = n_coef true d -> (forall b, In b y -> 0 <= b <= 1) ->
  (lp_shuffle P = true -> forall k, is_perm (length X) (perm k)) -> lp_batch P = length X -> (0 < lp_step_size P)%nat ->
  0 <= lp_lambda P -> 0 < lp_alpha P -> 0 < lp_gamma P <= 1 -> lp_alpha P * log_curvature (lp_lambda P) (map (fun x => x ++ [1]) X) <= 1 ->
  0 < lp_tol P -> log_loss (lp_lambda P) (map (fun x => x ++ [1]) X) y w0 < INR B * (lp_tol P * INR (length X)) -> (lp_no_change P * B < lp_max_iter P)%nat ->
  exists w, logistic_fit P "sgd" "l2" perm w0 d X y = Ok (Some w) /\ length w = n_coef true d /\
    log_loss (lp_lambda P) (map (fun x => x ++ [1]) X) y w <= log_loss (lp_lambda P) (map (fun x => x ++ [1]) X) y w0.
Proof.
  intros P perm w0 d X y B W NX Ly L0 Hlab Hp EB St Hl Ha Hg HC Ht HF HB.
  assert (Ex : with_ones true X = map (fun x => x ++ [1]) X) by reflexivity.
  set (X1 := map (fun x => x ++ [1]) X) in *. assert (L1 : length X1 = length X) by apply map_length.
  assert (HS : shapes X1 y w0).
  { split; [unfold X1; destruct X; [congruence|discriminate]|]. split; [|congruence]. rewrite <- Ex, with_ones_ext, L0, <- ncols_coef. now apply width_ext. }
  set (rate := fun e => lp_alpha P * lp_gamma P ^ ((1 + e) / lp_step_size P)).
  assert (Hr : forall e, step_decay (lp_alpha P) (lp_gamma P) (lp_step_size P) e = Ok (rate e) /\ 0 < rate e /\ rate e * log_curvature (lp_lambda P) X1 <= 1).
  { intro e. unfold step_decay. destruct (Nat.eqb_spec (lp_step_size P) 0) as [|_]; [lia|]. split; [reflexivity|]. unfold rate.
    set (q := ((1 + e) / lp_step_size P)%nat). assert (0 < lp_gamma P ^ q) by (apply pow_lt; lra).
    assert (G1 : lp_gamma P ^ q <= 1). { apply Rle_trans with (1 ^ q); [apply pow_incr; lra|rewrite pow1; lra]. }
    split; [now apply Rmult_lt_0_compat|]. pose proof (proj2 (curvature_nonneg Hl (proj1 HS))) as PC. assert (0 <= lp_alpha P * log_curvature (lp_lambda P) X1) by (apply Rmult_le_pos; lra).
    replace (lp_alpha P * lp_gamma P ^ q * log_curvature (lp_lambda P) X1) with (lp_alpha P * log_curvature (lp_lambda P) X1 * lp_gamma P ^ q) by ring. nra. }
  assert (Hp1 : lp_shuffle P = true -> forall k, is_perm (length X1) (perm k)) by (now rewrite L1).
  destruct (C59_log_ends (lp_lambda P) X1 y w0 _ rate perm (lp_shuffle P) (lp_no_change P) (lp_tol P) (lp_max_iter P) B Hl HS Hlab Hp1 Hr Ht ltac:(now rewrite L1) HB) as (w & E & Lw).
  exists w. unfold logistic_fit. rewrite Ex. change (logistic_solver "sgd" "l2") with (@Ok solver_kind UseSGD). cbn [bind].
  rewrite EB, <- L1, E. cbn [bind]. split; [reflexivity|]. split; [congruence|].
  destruct (C59_log _ _ _ _ _ rate _ _ _ _ _ _ Hl HS Hlab Hp1 (fun e _ => Hr e) E) as (E1 & data & state & loss & HE & HR & -> & G1 & _).
  assert (S0 : state 0%nat = w0) by apply HR.
  assert (M : forall e, (e <= E1 + 1)%nat -> log_loss (lp_lambda P) X1 y (state e) <= log_loss (lp_lambda P) X1 y w0).
  { induction e as [|e IH]; intro He; [rewrite S0; lra|]. destruct (G1 e ltac:(lia)) as (_ & D). rewrite Nat.add_1_r in D. specialize (IH ltac:(lia)). lra. }
  apply M. lia.
Qed.
Print Assumptions C59_logistic_regression.
Example C59_logistic_regression_case : let P := LogisticParams 0 1 1 1 0 1 2 6 5 false (fun _ _ _ => UB) in
  exists w, logistic_fit P "sgd" "l2" (fun _ => []) [0; 0] 1 [[1]; [-1]] [1; 0] = Ok (Some w) /\ length w = 2%nat /\
    log_loss 0 [[1; 1]; [-1; 1]] [1; 0] w <= log_loss 0 [[1; 1]; [-1; 1]] [1; 0] [0; 0].
Proof.
  intro P. apply (C59_logistic_regression P (fun _ => []) [0; 0] 1 [[1]; [-1]] [1; 0] 1); unfold P; cbn [lp_lambda lp_alpha lp_gamma lp_step_size lp_l1_ratio lp_tol lp_batch lp_max_iter lp_no_change lp_shuffle];
    try discriminate; try lia; try lra; try reflexivity.
  - intros r [<-|[<-|[]]]; reflexivity.
  - intros b [<-|[<-|[]]]; lra.
  - unfold log_curvature, sum_squares, sqn, dot, total. cbn. lra.
  - replace (log_loss _ _ _ _) with (ln 2); [pose proof ln_2_below; cbn; lra|].
    unfold log_loss, over_samples, penalty, cross_entropy, dot, total. cbn. replace (1 * 0 + (1 * 0 + 0)) with 0 by ring. replace (-1 * 0 + (1 * 0 + 0)) with 0 by ring. rewrite logistic_0. replace (1 - / 2) with (/ 2) by field. rewrite ln_Rinv by lra. field.
Qed.

(** The bound on the rate cannot be dropped: beyond twice the inverse curvature (here 1) every step makes the loss worse. *)
Theorem C59_large_rate_refuted : forall lr a, 2 < lr -> 0 < Rabs a <= 10 ^ 10 ->
  mse_curvature 0 [[1]] = 1 /\ exists w l, sgd_step (mse_gradient 0) (mse_evaluate 0) clip_grad vanilla_update [a] lr 0 [[1]] [0] = Ok (w, l) /\
    mse_loss 0 [[1]] [0] [a] < mse_loss 0 [[1]] [0] w.
Proof.
  intros lr a Hlr Ha. split; [unfold mse_curvature, sum_squares, sqn, dot, total; cbn; field|].
  assert (S : forall v, shapes [[1]] [0] [v]) by (intro v; repeat split; try discriminate; intros x [<-|[]]; reflexivity).
  assert (G : mse_gradient 0 [[1]] [0] [a] = Ok [a]).
  { rewrite mse_gradient_glm by apply S. unfold glm_grad, mse_dphi, mse_c, vsum, dot, zeros, vadd, vscale. cbn. do 2 f_equal. field. }
  assert (C : clip_grad [a] = [a]).
  { unfold clip_grad. cbn [map]. f_equal. revert Ha. generalize (10 ^ 10) as B. intros B Ha. pose proof (Rle_abs a). pose proof (Rle_abs (- a)) as Q. rewrite Rabs_Ropp in Q.
    rewrite Rmin_left by lra. rewrite Rmax_left; lra. }
  unfold sgd_step. rewrite G. cbn [bind]. rewrite C. unfold vanilla_update, vscale. cbn [map]. rewrite sub_Ok by reflexivity. cbn [bind].
  unfold vsub. cbn [map2]. rewrite mse_evaluate_glm by apply S. cbn [bind]. do 2 eexists. split; [reflexivity|].
  unfold mse_loss, over_samples, penalty, dot, total. cbn.
  assert (0 < a * a). { destruct (Req_dec a 0) as [->|N]; [rewrite Rabs_R0 in Ha; lra|]. pose proof (Rsqr_pos_lt a N) as Q. exact Q. }
  replace ((0 - (1 * a + 0)) * ((0 - (1 * a + 0)) * 1)) with (a * a) by ring. replace ((0 - (1 * (a - lr * a) + 0)) * ((0 - (1 * (a - lr * a) + 0)) * 1)) with ((lr - 1) * (lr - 1) * (a * a)) by ring.
  assert (1 < (lr - 1) * (lr - 1)) by nra. assert (a * a < (lr - 1) * (lr - 1) * (a * a)) by nra.
  replace (0 * (a * a + 0) / (2 * 1)) with 0 by field. replace (0 * ((a - lr * a) * (a - lr * a) + 0) / (2 * 1)) with 0 by field. lra.
Qed.
Print Assumptions C59_large_rate_refuted.

(** Two samples on the line y = x, from 0, with rate 2/5: curvature 5/2, loss 5/4.  With tolerance 1 and patience 5, six
    epochs suffice, and the result is within 5/24 of the optimal loss 0. *)
Example C59_example : exists w, full_sgd (mse_gradient 0) (mse_evaluate 0) (fun _ => Ok (2 / 5)) (fun _ => []) false 5 1 6 [[1]; [2]] [1; 2] [0] = Ok w /\
  mse_loss 0 [[1]; [2]] [1; 2] w <= 5 / 24.
Proof.
  assert (S : shapes [[1]; [2]] [1; 2] [0]) by (repeat split; try discriminate; intros x [<-|[<-|[]]]; reflexivity).
  assert (C : mse_curvature 0 [[1]; [2]] = 5 / 2) by (unfold mse_curvature, sum_squares, sqn, dot, total; cbn; field).
  assert (L : mse_loss 0 [[1]; [2]] [1; 2] [0] = 5 / 4) by (unfold mse_loss, over_samples, penalty, dot, total; cbn; field).
  assert (L1 : mse_loss 0 [[1]; [2]] [1; 2] [1] = 0) by (unfold mse_loss, over_samples, penalty, dot, total; cbn; field).
  destruct (C59_mse_ends 0 [[1]; [2]] [1; 2] [0] (fun _ => Ok (2 / 5)) (fun _ => 2 / 5) (fun _ => []) false 5 1 6 1) as (w & E & _);
    [lra|exact S|discriminate|intros; rewrite C; split; [auto|lra]|lra|rewrite L; cbn; lra|lia|].
  exists w. split; [exact E|].
  destruct (C59_mse_constant 0 [[1]; [2]] [1; 2] [0] (2 / 5) (fun _ => []) false 5 1 6 w) as (_ & H); [lra|exact S|discriminate|lra|rewrite C; lra|exact E|].
  rewrite C, L in H. assert (P : 1 <= 10 ^ 20) by (apply pow_R1_Rle; lra). specialize (H ltac:(assert (10 <= 10 ^ 20) by (change (10 ^ 20) with (10 * 10 ^ 19); pose proof (pow_R1_Rle 10 19 ltac:(lra)); lra); lra) [1] eq_refl).
  rewrite L1 in H. eapply Rle_trans; [exact H|]. unfold sqn, vsub, dot, total. cbn. lra.
Qed.

(** * C36: what the exception of the stochastic optimizers means, for any loss *)
(** It is thrown only while the total loss of the epochs goes on falling: for every B the patience allows, some epoch up to
    N * B was better than the first by B times what counts as an improvement. *)
Theorem C36_exception : forall (Row Lab S : Type) (step : S -> R -> nat -> list Row -> list Lab -> outcome (S * R)) decay perm shuffle bs N tol max_iter X y s0 (good : S -> Prop),
  length y = length X -> (shuffle = true -> forall k, is_perm (length X) (perm k)) -> (0 < bs)%nat ->
  (forall k, exists lr, decay k = Ok lr) -> good s0 ->
  (forall s lr j Xb yb, good s -> length Xb = bs -> length yb = bs -> incl Xb X -> incl yb y -> exists s' l, step s lr j Xb yb = Ok (s', l) /\ good s') ->
  optimize step decay perm shuffle bs N tol max_iter X y s0 = Throw RuntimeError ->
  exists data state loss, training_run step decay shuffle bs X y s0 max_iter data state loss /\
    forall B, (N * B < max_iter)%nat -> exists k, (k <= N * B)%nat /\ loss k <= loss 0%nat - INR B * (tol * INR bs).
Proof.
  intros Row Lab S step decay perm shuffle bs N tol max_iter X y s0 good Hy Hp Hb Hd G0 Hs E.
  destruct (C36_total _ _ _ step decay perm shuffle bs N tol max_iter X y s0 good Hy Hp Hb Hd G0 Hs) as [(s & E' & _)|(_ & data & state & loss & HR & NS)]; [congruence|].
  exists data, state, loss. split; [exact HR|]. intros B HB. exact (patience NS B HB).
Qed.
Print Assumptions C36_exception.
