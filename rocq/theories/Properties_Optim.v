(** C34 - C39, C53: shuffling, learning rates, updates and the stochastic optimizers. *)
From Coq Require Import Reals Lra Psatz.
From Verif Require Import Base Common_Model RDR_Proofs KDReal_Proofs Impurity_Spec Impurity_Model Impurity_Proofs Vec Loss_Model Loss_Spec Loss_Proofs
  Shuffle_Model Shuffle_Proofs Optim_Model Optim_Spec Optim_Proofs OptimSteps_Proofs OptimRun_Proofs.
Local Open Scope R_scope.

(** * C53: shuffling *)
Theorem C53_shuffle_pairs : forall A B p (X : list A) (y : list B), is_perm (length X) p -> length y = length X ->
  exists X' y', shuffle_data2 p X y = Ok (X', y') /\ reordered X X' y y' /\
    forall i k, nth_error p i = Some k -> nth_error X' k = nth_error X i /\ nth_error y' k = nth_error y i.
Proof. intros A B p X y P L. exact (shuffle2_spec X y P eq_refl L). Qed.
Print Assumptions C53_shuffle_pairs.
Theorem C53_rows : forall A (p : nat -> list nat) nc (X : list (list A)) axis, axis <> 0%Z -> is_perm (length X) (p (length X)) ->
  exists X', shuffle_data1 p nc X axis = Ok X' /\ Permutation X X'.
Proof.
  intros A p nc X axis Ha P. unfold shuffle_data1. apply Z.eqb_neq in Ha. rewrite Ha.
  destruct (permute_spec X P eq_refl) as (X' & E & L & H). exists X'. split; auto. exact (@perm_fetch _ _ _ X X' P eq_refl L H).
Qed.
Print Assumptions C53_rows.
Theorem C53_columns : forall A (p : nat -> list nat) nc (X : list (list A)), is_perm nc (p nc) -> (forall r, In r X -> length r = nc) ->
  exists X', shuffle_data1 p nc X 0 = Ok X' /\
    Forall2 (fun r r' => Permutation r r' /\ forall j k, nth_error (p nc) j = Some k -> nth_error r' j = nth_error r k) X X'.
Proof.
  intros A p nc X P W. unfold shuffle_data1. cbn [Z.eqb]. unfold permute_cols. revert W; induction X as [|r X IH]; intro W; cbn [mapM].
  - exists []. split; auto.
  - assert (R : forall q, (forall k, In k q -> (k < length r)%nat) -> exists r', mapM (vget r) q = Ok r' /\ map Some r' = map (nth_error r) q).
    { induction q as [|k q IHq]; intro Hq; cbn [mapM]; [exists []; auto|]. destruct (nth_error r k) as [a|] eqn:Ea.
      - unfold vget at 1. rewrite Ea. cbn [bind]. destruct IHq as (r' & -> & E'). { intros; apply Hq; cbn; auto. }
        cbn [bind]. exists (a :: r'). split; auto. cbn. rewrite Ea, E'. auto.
      - apply nth_error_None in Ea. specialize (Hq k (or_introl eq_refl)). lia. }
    destruct (R (p nc)) as (r' & E & E').
    { intros k Hk. apply (Permutation_in _ P), in_seq in Hk. rewrite (W r) by now left. lia. }
    rewrite E. cbn [bind]. destruct IH as (X' & EX & F). { intros; apply W; now right. }
    rewrite EX. cbn [bind]. exists (r' :: X'). split; auto. constructor; auto. split.
    + pose proof (Permutation_map (nth_error r) P) as Q. rewrite <- E', <- (W r) in Q by now left. rewrite map_nth_error_seq in Q.
      apply Permutation_map_inv in Q. destruct Q as (l & Hl & Q). apply map_Some_inj in Hl. subst; auto.
    + intros j k Hj. pose proof (f_equal (fun l => nth_error l j) E') as Q. cbn in Q. rewrite !nth_error_map, Hj in Q. cbn in Q.
      destruct (nth_error r' j); cbn in Q; congruence.
Qed.
Print Assumptions C53_columns.
(** An axis other than 0 and 1 is not rejected: it means rows. *)
Theorem C53_axis_refuted : forall A (p : nat -> list nat) nc (X : list (list A)) axis, axis <> 0%Z ->
  shuffle_data1 p nc X axis = shuffle_data1 p nc X 1.
Proof. intros A p nc X axis H. unfold shuffle_data1. apply Z.eqb_neq in H. rewrite H. reflexivity. Qed.
Print Assumptions C53_axis_refuted.
Example C53_example : shuffle_data2 [2; 0; 1]%nat [10; 11; 12]%Z [true; false; false] = Ok ([11; 12; 10]%Z, [false; false; true]).
Proof. reflexivity. Qed.
Example C53_perm : is_perm 3 [2; 0; 1]%nat.
Proof. unfold is_perm. cbn. apply Permutation_sym. apply (Permutation_trans (perm_skip _ (perm_swap _ _ _))). apply (perm_trans (perm_swap 2 0 [1])%nat). reflexivity. Qed.

(** * C34: learning rates *)
Theorem C34_step_decay : forall base gamma step epoch, (0 < step)%nat ->
  exists r, step_decay base gamma step epoch = Ok r /\ step_rate base gamma step (epoch + 1) r.
Proof. intros; apply step_decay_rate; auto. Qed.
Print Assumptions C34_step_decay.
Example C34_step_decay_case := C34_step_decay 1 (1 / 10) 2 5 ltac:(lia).
Theorem C34_step_decay_decreasing : forall base gamma step epoch epoch', (0 < step)%nat -> 0 <= base -> 0 <= gamma <= 1 -> (epoch <= epoch')%nat ->
  exists r r', step_decay base gamma step epoch = Ok r /\ step_decay base gamma step epoch' = Ok r' /\ 0 <= r' <= r.
Proof.
  intros base gamma step e e' P B G L. destruct (@step_decay_rate base gamma step e P) as (r & E & S). destruct (@step_decay_rate base gamma step e' P) as (r' & E' & S').
  exists r, r'. split; auto. split; auto. split.
  - destruct S' as (q & _ & ->). apply Rmult_le_pos; auto. apply pow_le; tauto.
  - apply (@step_rate_mono base gamma step (e + 1) (e' + 1) r r' B G); auto. lia.
Qed.
Print Assumptions C34_step_decay_decreasing.
Example C34_step_decay_decreasing_case := C34_step_decay_decreasing 1 (1 / 10) 2 5 9 ltac:(lia) ltac:(lra) ltac:(lra) ltac:(lia).
(** The documented rate is that of the epoch itself: the code agrees with it exactly when the next epoch brings no drop. *)
Theorem C34_step_decay_refuted : forall base gamma step epoch r r', (0 < step)%nat -> 0 < base -> 0 < gamma < 1 ->
  step_decay base gamma step epoch = Ok r -> step_rate base gamma step epoch r' -> (r <> r' <-> Nat.divide step (epoch + 1)).
Proof.
  intros base gamma step e r r' P B G E (q' & Hq' & ->). destruct (@step_decay_rate base gamma step e P) as (r0 & E0 & (q & Hq & ->)).
  rewrite E in E0. injection E0 as ->. split.
  - intro D. assert (q = q' \/ q = S q') as [->| ->] by nia; [easy|]. exists (S q'). lia.
  - intros (c & Hc). assert (q = c) by nia. assert (S q' = c) by nia. subst q c. cbn [pow].
    assert (0 < gamma ^ q') by (apply pow_lt; lra). intro Q. apply Rmult_eq_reg_l in Q; nra.
Qed.
Print Assumptions C34_step_decay_refuted.
Theorem C34_step_decay_zero : forall base gamma epoch, step_decay base gamma 0 epoch = UB.
Proof. reflexivity. Qed.
Print Assumptions C34_step_decay_zero.
(** The exponential schedule is the documented one for [- gamma]: with gamma > 0 it grows. *)
Theorem C34_exponential_sign : forall base gamma epoch, exponential_decay base gamma epoch = Ok (exponential_rate base (- gamma) epoch).
Proof. intros. unfold exponential_decay, exponential_rate. rewrite Ropp_involutive. auto. Qed.
Print Assumptions C34_exponential_sign.
Theorem C34_exponential_refuted : forall base gamma epoch epoch' r r', 0 < base -> 0 < gamma -> (epoch < epoch')%nat ->
  exponential_decay base gamma epoch = Ok r -> exponential_decay base gamma epoch' = Ok r' -> r < r' /\ exponential_rate base gamma epoch' < r'.
Proof.
  intros base gamma e e' r r' B G L E E'. injection E as <-. injection E' as <-. apply lt_INR in L. pose proof (pos_INR e). split.
  - apply Rmult_lt_compat_l; auto. apply exp_increasing. nra.
  - unfold exponential_rate. apply Rmult_lt_compat_l; auto. apply exp_increasing. nra.
Qed.
Print Assumptions C34_exponential_refuted.
(** With 0.1 ^ floor(epoch / 2): the first drop comes one epoch early. *)
Example C34_example : step_decay 1 (1 / 10) 2 1 = Ok (1 * (1 / 10 * 1)) /\ step_rate 1 (1 / 10) 2 1 (1 * 1).
Proof. split; [reflexivity|]. exists 0%nat. cbn. split; [lia|lra]. Qed.

(** * C35: updates *)
Theorem C35_vanilla : forall W g lr, length g = length W ->
  exists W', vanilla_update W g lr = Ok W' /\ length W' = length W /\ forall i, nth i W' 0 = nth i W 0 - lr * nth i g 0.
Proof.
  intros W g lr L. unfold vanilla_update. exists (vsub W (vscale lr g)).
  assert (L' : length W = length (vscale lr g)) by (rewrite vscale_length; auto).
  split; [apply sub_Ok; auto|]. split; [apply vsub_length; auto|]. intro i. rewrite nth_vsub, nth_vscale; auto.
Qed.
Print Assumptions C35_vanilla.
Example C35_vanilla_case := C35_vanilla [1; 2] [10; 20] (1 / 10) eq_refl.
Theorem C35_vanilla_shape : forall W g lr, length g <> length W -> vanilla_update W g lr = UB.
Proof.
  intros W g lr L. unfold vanilla_update, sub. rewrite vscale_length. destruct (Nat.eqb_spec (length W) (length g)); congruence.
Qed.
Print Assumptions C35_vanilla_shape.
Example C35_vanilla_shape_case := C35_vanilla_shape [1; 2] [10] (1 / 10) ltac:(discriminate).
(** Whatever the history of gradients and rates, momentum computes what the vanilla update computes ... *)
Theorem C35_momentum_forgets : forall mu steps W,
  foldM (fun w s => momentum_update mu w (fst s) (snd s)) steps W = foldM (fun w s => vanilla_update w (fst s) (snd s)) steps W.
Proof.
  intros mu steps. induction steps as [|s steps IH]; intro W; cbn [foldM]; auto. rewrite momentum_is_vanilla.
  destruct (vanilla_update W (fst s) (snd s)); auto. cbn [bind]. auto.
Qed.
Print Assumptions C35_momentum_forgets.
(** ... which is not gradient descent with momentum: two steps differ as soon as the first moved a weight. *)
Theorem C35_momentum_refuted : forall mu W g1 lr1 g2 lr2 i W', length g1 = length W -> length g2 = length W ->
  mu * (lr1 * nth i g1 0) <> 0 ->
  foldM (fun w s => momentum_update mu w (fst s) (snd s)) [(g1, lr1); (g2, lr2)] W = Ok W' ->
  W' <> heavy_ball mu W (zeros (length W)) [(g1, lr1); (g2, lr2)].
Proof.
  intros mu W g1 lr1 g2 lr2 i W' L1 L2 D E H. rewrite C35_momentum_forgets in E. cbn [foldM fst snd] in E.
  unfold vanilla_update in E. rewrite sub_Ok in E by (rewrite vscale_length; auto). cbn [bind] in E.
  rewrite sub_Ok in E by (rewrite vsub_length, ?vscale_length; auto; rewrite vscale_length; auto). cbn [bind] in E. injection E as <-.
  apply (f_equal (fun v => nth i v 0)) in H. cbn [heavy_ball] in H.
  assert (Z : vscale mu (zeros (length W)) = zeros (length W)) by (apply map_zeros; ring). rewrite Z in H.
  rewrite OptimSteps_Proofs.vadd_zeros in H by (rewrite vscale_length; auto).
  assert (La : length W = length (vscale lr1 g1)) by (rewrite vscale_length; auto).
  assert (Lb : length (vscale mu (vscale lr1 g1)) = length (vscale lr2 g2)) by (rewrite !vscale_length; congruence).
  assert (Lc : length (vsub W (vscale lr1 g1)) = length W) by (apply vsub_length; auto).
  rewrite !nth_vsub in H; rewrite ?vadd_length, ?Lc, ?vscale_length; auto.
  rewrite nth_vadd, !nth_vscale in H by auto. apply D. lra.
Qed.
Print Assumptions C35_momentum_refuted.
Theorem C35_nesterov_refuted : forall mu W g lr, nesterov_update mu W g lr = vanilla_update W g ((1 + mu) * lr).
Proof. apply nesterov_is_scaled. Qed.
Print Assumptions C35_nesterov_refuted.
Example C35_example : vanilla_update [1; 2] [10; 20] (1 / 10) = Ok [1 - 1 / 10 * 10; 2 - 1 / 10 * 20] /\
  heavy_ball (1 / 2) [0] [0] [([1], 1); ([1], 1)] = [0 - (1 / 2 * 0 + 1 * 1) - (1 / 2 * (1 / 2 * 0 + 1 * 1) + 1 * 1)].
Proof. split; reflexivity. Qed.

(** * C36: epochs, batches and the stopping rule, for SGD, SAG and TruncatedGradient alike *)
Theorem C36_returns : forall (Row Lab S : Type) (step : S -> R -> nat -> list Row -> list Lab -> outcome (S * R)) decay perm shuffle bs N tol max_iter X y s0 s,
  length y = length X -> (shuffle = true -> forall k, is_perm (length X) (perm k)) ->
  optimize step decay perm shuffle bs N tol max_iter X y s0 = Ok s ->
  exists E data state loss, (E < max_iter)%nat /\
    training_run step decay shuffle bs X y s0 (E + 1) data state loss /\ s = state (E + 1)%nat /\
    stops (tol * INR bs) loss N E /\ forall e, (e < E)%nat -> ~ stops (tol * INR bs) loss N e.
Proof.
  intros Row Lab S step decay perm shuffle bs N tol max_iter X y s0 s L P H. unfold optimize in H. destruct (Nat.eqb_spec bs 0) as [|B]; [discriminate|].
  assert (B' : (0 < bs)%nat) by lia.
  destruct (epochs_Ok perm B' L P _ (loop_init step decay shuffle N tol B' X y s0 L) H)
    as (E & data & state & loss & HE & T & Es & St & NS).
  exists E, data, state, loss. rewrite Nat.add_1_r. repeat (split; auto). lia.
Qed.
Print Assumptions C36_returns.
Theorem C36_total : forall (Row Lab S : Type) (step : S -> R -> nat -> list Row -> list Lab -> outcome (S * R)) decay perm shuffle bs N tol max_iter X y s0 (good : S -> Prop),
  length y = length X -> (shuffle = true -> forall k, is_perm (length X) (perm k)) -> (0 < bs)%nat ->
  (forall k, exists lr, decay k = Ok lr) -> good s0 ->
  (forall s lr j Xb yb, good s -> length Xb = bs -> length yb = bs -> incl Xb X -> incl yb y -> exists s' l, step s lr j Xb yb = Ok (s', l) /\ good s') ->
  (exists s, optimize step decay perm shuffle bs N tol max_iter X y s0 = Ok s /\ good s) \/
  (optimize step decay perm shuffle bs N tol max_iter X y s0 = Throw RuntimeError /\
   exists data state loss, training_run step decay shuffle bs X y s0 max_iter data state loss /\
     forall e, (e < max_iter)%nat -> ~ stops (tol * INR bs) loss N e).
Proof.
  intros Row Lab S step decay perm shuffle bs N tol max_iter X y s0 good L P B D G0 Hs. unfold optimize. destruct (Nat.eqb_spec bs 0) as [|_]; [lia|].
  exact (epochs_total perm B L P good D Hs max_iter (loop_init step decay shuffle N tol B X y s0 L) G0).
Qed.
Print Assumptions C36_total.

(** One batch of SGD with the vanilla update: every entry of the gradient at the old weights is cut off at 10^10 in
    absolute value, the new weights go down it by the learning rate, and the loss recorded is that of the new weights. *)
Theorem C36_batch : forall (Row Lab : Type) (gradient : list Row -> list Lab -> list R -> outcome (list R)) evaluate w lr j Xb yb w' loss,
  sgd_step gradient evaluate clip_grad vanilla_update w lr j Xb yb = Ok (w', loss) ->
  exists g, gradient Xb yb w = Ok g /\ length g = length w /\ length w' = length w /\ evaluate Xb yb w' = Ok loss /\
    forall i, (i < length w)%nat -> exists c, nth i w' 0 = nth i w 0 - lr * c /\
      (Rabs (nth i g 0) <= 10 ^ 10 -> c = nth i g 0) /\ (10 ^ 10 < nth i g 0 -> c = 10 ^ 10) /\ (nth i g 0 < - 10 ^ 10 -> c = - 10 ^ 10).
Proof.
  intros Row Lab gradient evaluate w lr j Xb yb w' loss H. unfold sgd_step in H. destruct (gradient Xb yb w) as [g| | |] eqn:Eg; try discriminate. cbn [bind] in H. unfold vanilla_update, sub in H.
  destruct (Nat.eqb_spec (length w) (length (vscale lr (clip_grad g)))) as [L|]; [|discriminate]. cbn [bind] in H. rewrite vscale_length in L. unfold clip_grad in L. rewrite map_length in L. destruct (evaluate Xb yb _) as [l| | |] eqn:El; try discriminate. cbn [bind] in H. injection H as <- <-.
  exists g. split; [auto|]. split; [auto|]. assert (Lc : length (vscale lr (clip_grad g)) = length w) by (unfold clip_grad; rewrite vscale_length, map_length; auto). split; [rewrite vsub_length; auto|]. split; [auto|]. intros i Hi.
  exists (Rmax (Rmin (nth i g 0) (10 ^ 10)) (- 10 ^ 10)). split.
  - rewrite nth_vsub by auto. rewrite nth_vscale. do 2 f_equal. unfold clip_grad. rewrite (nth_indep _ 0 (Rmax (Rmin 0 (10 ^ 10)) (- 10 ^ 10))) by (rewrite map_length; lia). now rewrite (map_nth (fun a => Rmax (Rmin a (10 ^ 10)) (- 10 ^ 10))).
  - assert (P : 0 < 10 ^ 10) by (apply pow_lt; lra). revert P. generalize (10 ^ 10) as B. intros B P. generalize (nth i g 0) as a. intro a. split; [|split]; intro H.
    + pose proof (Rle_abs a). pose proof (Rle_abs (- a)) as H1. rewrite Rabs_Ropp in H1. rewrite Rmin_left by lra. rewrite Rmax_left; lra.
    + rewrite Rmin_right by lra. rewrite Rmax_left; lra.
    + rewrite Rmin_left by lra. rewrite Rmax_right; lra.
Qed.
Print Assumptions C36_batch.
(** Logistic regression by SGD with the vanilla update and step decay: never undefined behaviour. *)
Theorem C36_logistic_sgd : forall lambda base gamma step perm shuffle bs N tol max_iter X y w,
  shapes X y w -> (shuffle = true -> forall k, is_perm (length X) (perm k)) -> (0 < bs)%nat -> (0 < step)%nat ->
  (exists w', optimize (sgd_step (log_gradient lambda) (log_evaluate lambda) clip_grad vanilla_update) (step_decay base gamma step) perm shuffle bs N tol max_iter X y w = Ok w'
     /\ length w' = length w) \/
  optimize (sgd_step (log_gradient lambda) (log_evaluate lambda) clip_grad vanilla_update) (step_decay base gamma step) perm shuffle bs N tol max_iter X y w = Throw RuntimeError.
Proof.
  intros lambda base gamma step perm shuffle bs N tol max_iter X y w (H1 & H2 & H3) P B St.
  destruct (@C36_total _ _ _ (sgd_step (log_gradient lambda) (log_evaluate lambda) clip_grad vanilla_update) (step_decay base gamma step) perm shuffle bs N tol max_iter X y w
    (fun v => length v = length w)) as [H|(H & _)]; auto.
  - intro k. destruct (@step_decay_rate base gamma step k St) as (r & E & _). eauto.
  - intros s lr j Xb yb G LX Ly IX Iy.
    assert (Sh : forall v, length v = length w -> shapes Xb yb v).
    { intros v Lv. split; [destruct Xb; [cbn in LX; lia|discriminate]|]. split; [|congruence]. rewrite Lv. intros x Hx. apply H2; auto. }
    unfold sgd_step. rewrite log_gradient_glm by auto. cbn [bind]. set (g := glm_grad _ _ _ _ _ _).
    assert (Lg : length g = length s) by (apply glm_grad_length; auto).
    unfold vanilla_update. rewrite sub_Ok by (unfold clip_grad; rewrite vscale_length, map_length; auto). cbn [bind].
    set (v := vsub _ _). assert (Lv : length v = length w).
    { unfold v. rewrite vsub_length; auto. unfold clip_grad; rewrite vscale_length, map_length; auto. }
    rewrite log_evaluate_glm by auto. cbn [bind]. eauto.
Qed.
Print Assumptions C36_logistic_sgd.
(** Fewer samples than a batch: the start point is "the optimum", whatever the data. *)
Theorem C36_few_samples_refuted : forall (Row Lab S : Type) (step : S -> R -> nat -> list Row -> list Lab -> outcome (S * R)) decay perm shuffle bs N tol max_iter X y s,
  0 < tol -> (forall k, exists lr, decay k = Ok lr) -> (length X < bs)%nat -> length y = length X ->
  (shuffle = true -> forall k, is_perm (length X) (perm k)) -> (N < max_iter)%nat ->
  optimize step decay perm shuffle bs N tol max_iter X y s = Ok s.
Proof. intros; apply few_samples; auto. Qed.
Print Assumptions C36_few_samples_refuted.
(** Without shuffling the samples after the last full batch have no influence. *)
Theorem C36_tail_ignored : forall (Row Lab S : Type) (step : S -> R -> nat -> list Row -> list Lab -> outcome (S * R)) decay perm bs N tol max_iter q A T T' B U U' s,
  length A = (q * bs)%nat -> length B = (q * bs)%nat -> length T = length T' -> length U = length U' -> (length T < bs)%nat ->
  optimize step decay perm false bs N tol max_iter (A ++ T) (B ++ U) s = optimize step decay perm false bs N tol max_iter (A ++ T') (B ++ U') s.
Proof. intros; eapply tail_ignored; eauto. Qed.
Print Assumptions C36_tail_ignored.
Theorem C36_zero_batch : forall (Row Lab S : Type) (step : S -> R -> nat -> list Row -> list Lab -> outcome (S * R)) decay perm shuffle N tol max_iter X y s,
  optimize step decay perm shuffle 0 N tol max_iter X y s = UB.
Proof. reflexivity. Qed.
Print Assumptions C36_zero_batch.
(** Losses 5, 3, 3, 3 with margin 1: epochs 2 and 3 are stalled, so patience 2 stops at epoch 3 and not before. *)
Example C36_example : let loss := fun k => match k with O => 5 | _ => 3 end in
  stops 1 loss 2 3 /\ ~ stops 1 loss 2 2 /\ ~ stops 1 loss 2 1 /\ ~ stops 1 loss 2 0.
Proof.
  cbv zeta. split; [|split; [|split]].
  - intros k H H'. exists 1%nat. destruct k as [|[|k]]; try lia. split; [lia|lra].
  - intro H. destruct (H 1%nat ltac:(lia) ltac:(lia)) as (i & Hi & L). destruct i; [lra|lia].
  - intro H. destruct (H 1%nat ltac:(lia) ltac:(lia)) as (i & Hi & L). destruct i; [lra|lia].
  - intro H. destruct (H 0%nat ltac:(lia) ltac:(lia)) as (i & Hi & L). lia.
Qed.
(** One batch of two samples, patience 1: the second epoch is no better than the first. *)
Example C36_run : optimize (fun (s : nat) lr j (X : list nat) (y : list nat) => Ok ((s + fold_right plus 0%nat X)%nat, 1)) (fun _ => Ok 1) (fun _ => []) false 2 1 (1 / 2) 5
  [3; 4; 5]%nat [0; 0; 0]%nat 0%nat = Ok 14%nat.
Proof.
  unfold optimize. cbn. unfold not_improved. cbn.
  assert (E : Rltb (0 + 1 - 1 / 2 * (1 + 1)) (0 + 1) = true) by (apply Rltb_true; lra). rewrite E. reflexivity.
Qed.

(** * C37: the gradient table of SAG *)
Theorem C37_table : forall Row Lab (gradient : list Row -> list Lab -> list R -> outcome (list R)) evaluate update bs w d nb log s, (0 < bs)%nat ->
  sag_trace gradient evaluate update bs (sag_init w d nb) log s ->
  length (sg_hist s) = nb /\ length (sg_avg s) = d /\
  (forall i, nth i (sg_avg s) 0 = total (map (fun h => nth i h 0) (sg_hist s)) / INR bs) /\
  (forall j, (j < nb)%nat -> nth_error (sg_hist s) j = Some (latest log j (zeros d))).
Proof.
  intros Row Lab gradient evaluate update bs w d nb log s B T. destruct (@sag_trace_inv _ _ gradient evaluate update bs B w d nb log s T) as (L & La & A & H).
  repeat (split; auto). intro i. rewrite <- A. field. apply not_0_INR; lia.
Qed.
Print Assumptions C37_table.
(** Every state a run of SAG ends in has such a history. *)
Theorem C37_run : forall Row Lab (gradient : list Row -> list Lab -> list R -> outcome (list R)) evaluate update decay perm shuffle bs N tol max_iter X y w d s,
  optimize (sag_step gradient evaluate update bs) decay perm shuffle bs N tol max_iter X y (sag_init w d (length X / bs)) = Ok s ->
  exists log, sag_trace gradient evaluate update bs (sag_init w d (length X / bs)) log s /\ forall j g, In (j, g) log -> (j < length X / bs)%nat.
Proof.
  intros Row Lab gradient evaluate update decay perm shuffle bs N tol max_iter X y w d s H.
  refine (@optimize_I Row Lab _ (sag_step gradient evaluate update bs) decay perm shuffle bs N tol
    (fun s => exists log, sag_trace gradient evaluate update bs (sag_init w d (length X / bs)) log s /\ forall j g, In (j, g) log -> (j < length X / bs)%nat) (length X) _ max_iter X y _ s eq_refl _ H).
  - intros s1 lr j Xb yb s2 l (log & T & Hj) Lj E. destruct (sag_step_inv _ _ _ _ _ _ _ _ _ E) as (g & old & Eg & _).
    exists ((j, clip_grad g) :: log). split; [econstructor; eauto|]. intros j' g' [Q|Q]; [congruence|eauto].
  - exists []. split; [constructor|easy].
Qed.
Print Assumptions C37_run.
(** The weights follow the updated average, and the loss is that of the new weights. *)
Theorem C37_step : forall Row Lab (gradient : list Row -> list Lab -> list R -> outcome (list R)) evaluate update bs s lr j X y s' l,
  sag_step gradient evaluate update bs s lr j X y = Ok (s', l) ->
  update (sg_w s) (sg_avg s') lr = Ok (sg_w s') /\ evaluate X y (sg_w s') = Ok l.
Proof. intros Row Lab gradient evaluate update bs s lr j X y s' l E. destruct (sag_step_inv _ _ _ _ _ _ _ _ _ E) as (g & old & _ & _ & _ & _ & _ & _ & H). exact H. Qed.
Print Assumptions C37_step.
(** It is not the average of the table: that would divide by the number of batches. *)
Theorem C37_average_refuted : forall Row Lab (gradient : list Row -> list Lab -> list R -> outcome (list R)) evaluate update bs w d nb log s i, (0 < bs)%nat -> (0 < nb)%nat ->
  sag_trace gradient evaluate update bs (sag_init w d nb) log s ->
  let table_mean := total (map (fun h => nth i h 0) (sg_hist s)) / INR (length (sg_hist s)) in
  nth i (sg_avg s) 0 = table_mean <-> nb = bs \/ table_mean = 0.
Proof.
  intros Row Lab gradient evaluate update bs w d nb log s i B P T table_mean.
  destruct (C37_table _ _ gradient evaluate update bs w d nb log s B T) as (L & _ & A & _). unfold table_mean. rewrite A, L.
  assert (Pb : 0 < INR bs) by (apply lt_0_INR; auto). assert (Pn : 0 < INR nb) by (apply lt_0_INR; auto).
  set (t := total _). split.
  - intro E. destruct (Req_dec t 0) as [->|D]; [right; field; lra|left]. apply INR_eq.
    assert (t * INR nb = t * INR bs). { apply (Rmult_eq_reg_r (/ (INR nb * INR bs))); [|apply Rinv_neq_0_compat; nra].
      replace (t * INR nb * / (INR nb * INR bs)) with (t / INR bs) by (field; lra). rewrite E. field; lra. }
    apply (Rmult_eq_reg_l t); auto.
  - intros [->|E]; auto. assert (t = 0). { apply (Rmult_eq_reg_r (/ INR nb)); [|apply Rinv_neq_0_compat; lra]. unfold Rdiv in E. rewrite E; ring. }
    rewrite H. field; lra.
Qed.
Print Assumptions C37_average_refuted.
(** One batch of two samples with constant gradient 8: the "average" of the single stored gradient is 4. *)
Example C37_example : exists s, sag_trace (fun (_ : list nat) (_ : list nat) _ => Ok [8]) (fun _ _ _ => Ok 0) vanilla_update 2 (sag_init [0] 1 1) [(0%nat, [8])] s /\
  nth 0 (sg_avg s) 0 = 4 /\ sg_hist s = [[8]].
Proof.
  assert (C : clip_grad [8] = [8]) by (unfold clip_grad, Rmax, Rmin; cbn [map]; destruct (Rle_dec 8 (10 ^ 10)); [destruct (Rle_dec 8 (- 10 ^ 10)); [lra|auto]|lra]).
  eexists. split.
  - replace [(0%nat, [8])] with [(0%nat, clip_grad [8])] by now rewrite C. eapply (@sag_more nat nat (fun _ _ _ => Ok [8]) (fun _ _ _ => Ok 0) vanilla_update 2 _ [] _ 1 0%nat [1; 2]%nat [0; 0]%nat); [constructor|reflexivity|].
    unfold sag_step. cbn [bind]. rewrite C. reflexivity.
  - cbn. split; [lra|auto].
Qed.

(** * C38: truncated gradient *)
Theorem C38_truncate : forall w cum M, (length w <= length cum)%nat -> (forall c, In c cum -> c = 0) -> 0 <= M ->
  exists v, truncate w cum M = Ok (v, zeros (length cum)) /\ length v = length w /\
  forall j, let a := nth j w 0 in let b := nth j v 0 in
    soft_threshold M a b /\ 0 <= b * a /\ Rabs a - M <= Rabs b <= Rabs a /\ (Rabs a <= M -> b = 0) /\ (M < Rabs a -> Rabs b = Rabs a - M).
Proof.
  intros w cum M L Z P. unfold truncate. apply Nat.leb_le in L as L'. rewrite L'. eexists; split; [reflexivity|].
  assert (E : map2 (truncate1 M) w cum = map (fun a => truncate1 M a 0) w).
  { clear L'. revert cum L Z. induction w as [|a w IH]; intros [|c cum] L Z; cbn in *; auto; try lia. rewrite (Z c) by auto. f_equal. apply IH; auto; lia. }
  rewrite E. split; [apply map_length|]. intro j. rewrite nth_map0; [apply truncate1_spec; auto|].
  unfold truncate1. rewrite !Rltb_irrefl; auto.
Qed.
Print Assumptions C38_truncate.
Example C38_truncate_case := C38_truncate [3; -3; 1] [0; 0; 0] 2 (le_n 3) ltac:(intros c [<-|[<-|[<-|[]]]]; reflexivity) ltac:(lra).
(** The states a run goes through: learning rates of the steps so far, most recent first. *)
Inductive tg_trace {Row Lab} (gradient : list Row -> list Lab -> list R -> outcome (list R)) evaluate update (alpha l1_ratio : R) (init : tg_state) : list R -> tg_state -> Prop :=
| tg_start : tg_trace gradient evaluate update alpha l1_ratio init [] init
| tg_more lrs s lr j X y s' l : tg_trace gradient evaluate update alpha l1_ratio init lrs s ->
    tg_step gradient evaluate update alpha l1_ratio s lr j X y = Ok (s', l) -> tg_trace gradient evaluate update alpha l1_ratio init (lr :: lrs) s'.
Theorem C38_budget : forall Row Lab (gradient : list Row -> list Lab -> list R -> outcome (list R)) evaluate update alpha l1_ratio w d lrs s,
  tg_trace gradient evaluate update alpha l1_ratio (tg_init w d) lrs s ->
  tg_max s = total (map (fun lr => l1_ratio * lr * alpha) lrs) /\ tg_cum s = zeros d.
Proof.
  intros Row Lab gradient evaluate update alpha l1_ratio w d lrs s T. induction T as [|lrs s lr j X y s' l T (IH & IC) E]; [auto|].
  unfold tg_step in E. destruct (gradient X y (tg_w s)); try discriminate. cbn [bind] in E. destruct (update _ _ _); try discriminate. cbn [bind] in E.
  unfold truncate in E. destruct (_ <=? _)%nat; try discriminate. cbn [bind fst snd] in E. destruct (evaluate _ _ _); try discriminate. cbn [bind] in E.
  injection E as <- _. cbn. fold (total (map (fun lr => l1_ratio * lr * alpha) lrs)). rewrite IH, IC, zeros_length. split; [lra|auto].
Qed.
Print Assumptions C38_budget.
(** A step is the update followed by soft thresholding at the accumulated budget. *)
Theorem C38_step : forall Row Lab (gradient : list Row -> list Lab -> list R -> outcome (list R)) evaluate update alpha l1_ratio w d lrs s lr j X y s' l,
  0 <= alpha -> 0 <= l1_ratio -> 0 <= lr -> (forall r, In r lrs -> 0 <= r) ->
  tg_trace gradient evaluate update alpha l1_ratio (tg_init w d) lrs s ->
  tg_step gradient evaluate update alpha l1_ratio s lr j X y = Ok (s', l) ->
  exists g v, gradient X y (tg_w s) = Ok g /\ update (tg_w s) (clip_grad g) lr = Ok v /\ length (tg_w s') = length v /\
    forall i, soft_threshold (total (map (fun lr => l1_ratio * lr * alpha) (lr :: lrs))) (nth i v 0) (nth i (tg_w s') 0).
Proof.
  intros Row Lab gradient evaluate update alpha l1_ratio w d lrs s lr j X y s' l Ha Hr Hlr Hlrs T E.
  destruct (C38_budget _ _ gradient evaluate update alpha l1_ratio w d lrs s T) as (Em & Ec).
  unfold tg_step in E. destruct (gradient X y (tg_w s)) as [g| | |]; try discriminate. cbn [bind] in E.
  destruct (update _ _ _) as [v| | |] eqn:Eu; try discriminate. cbn [bind] in E.
  assert (P : 0 <= total (map (fun lr => l1_ratio * lr * alpha) lrs)).
  { clear -Ha Hr Hlrs. induction lrs as [|r lrs IH]; [cbn; lra|]. cbn [map total fold_right]. fold (total (map (fun lr => l1_ratio * lr * alpha) lrs)).
    assert (0 <= l1_ratio * r * alpha) by (repeat apply Rmult_le_pos; auto; apply Hlrs; now left).
    specialize (IH (fun q Hq => Hlrs q (or_intror Hq))). lra. }
  destruct (Nat.le_gt_cases (length v) (length (tg_cum s))) as [L|L].
  - destruct (C38_truncate v (tg_cum s) (tg_max s + l1_ratio * lr * alpha)) as (v' & Et & Lv & H); auto.
    + rewrite Ec. intros c Hc. apply repeat_spec in Hc; auto.
    + rewrite Em. assert (0 <= l1_ratio * lr * alpha) by (repeat apply Rmult_le_pos; auto). lra.
    + rewrite Et in E. cbn [bind fst snd] in E. destruct (evaluate _ _ _); try discriminate. cbn [bind] in E. injection E as <- _.
      exists g, v. cbn [tg_w]. split; auto. split; auto. split; auto. intro i. specialize (H i). cbv zeta in H. destruct H as (H & _).
      cbn [map total fold_right]. fold (total (map (fun lr => l1_ratio * lr * alpha) lrs)). rewrite <- Em, Rplus_comm. exact H.
  - unfold truncate in E. apply Nat.leb_gt in L. rewrite L in E. discriminate.
Qed.
Print Assumptions C38_step.
Theorem C38_run : forall Row Lab (gradient : list Row -> list Lab -> list R -> outcome (list R)) evaluate update alpha l1_ratio decay perm shuffle bs N tol max_iter X y w d s,
  optimize (tg_step gradient evaluate update alpha l1_ratio) decay perm shuffle bs N tol max_iter X y (tg_init w d) = Ok s ->
  exists lrs, tg_trace gradient evaluate update alpha l1_ratio (tg_init w d) lrs s.
Proof.
  intros Row Lab gradient evaluate update alpha l1_ratio decay perm shuffle bs N tol max_iter X y w d s H.
  refine (@optimize_I Row Lab _ (tg_step gradient evaluate update alpha l1_ratio) decay perm shuffle bs N tol
    (fun s => exists lrs, tg_trace gradient evaluate update alpha l1_ratio (tg_init w d) lrs s) (length X) _ max_iter X y _ s eq_refl _ H).
  - intros s1 lr j Xb yb s2 l (lrs & T) _ E. exists (lr :: lrs). econstructor; eauto.
  - exists []. constructor.
Qed.
Print Assumptions C38_run.
(** The budget is spent again at every step: k steps without any gradient and with budget c each shrink a weight by
    c k(k+1)/2, not by the k c that were accumulated. *)
Theorem C38_cumulative_refuted : forall alpha l1_ratio lr w k, let c := l1_ratio * lr * alpha in 0 <= c -> c * (INR k * (INR k + 1) / 2) < w ->
  foldM (fun s j => let! r := tg_step (fun (_ _ : list nat) v => Ok (zeros (length v))) (fun _ _ _ => Ok 0) vanilla_update alpha l1_ratio s lr j [] [] in Ok (fst r)) (seq 0 k) (tg_init [w] 1)
  = Ok {| tg_w := [w - c * (INR k * (INR k + 1) / 2)]; tg_cum := [0]; tg_max := INR k * c |}.
Proof.
  intros alpha l1_ratio lr w k c Hc. induction k as [|k IH]; intro Hw.
  - cbn. unfold tg_init. do 3 f_equal; cbn; f_equal; lra.
  - rewrite seq_S, foldM_app. pose proof (pos_INR k) as Pk. rewrite S_INR in Hw.
    assert (Hw' : c * (INR k * (INR k + 1) / 2) < w) by nra.
    rewrite (IH Hw'). cbn [bind foldM]. unfold tg_step. cbn [bind tg_w tg_max tg_cum length zeros repeat].
    assert (C : clip_grad [0] = [0]) by (unfold clip_grad, Rmax, Rmin; cbn [map]; destruct (Rle_dec 0 (10 ^ 10)); [destruct (Rle_dec 0 (- 10 ^ 10)); [lra|auto]|lra]).
    unfold zeros; cbn [repeat]. rewrite C. unfold vanilla_update, sub, truncate. cbn [vscale map vsub map2 length Nat.eqb bind Nat.leb fst snd].
    unfold truncate1.
    assert (E : Rltb 0 (w - c * (INR k * (INR k + 1) / 2) - lr * 0) = true) by (apply Rltb_true; lra). rewrite E.
    unfold Rmax. fold c. destruct (Rle_dec 0 _) as [Le|Le]; [|exfalso; apply Le; nra].
    unfold zeros; cbn [repeat]. rewrite S_INR. f_equal. f_equal; [f_equal; lra|lra].
Qed.
Print Assumptions C38_cumulative_refuted.
Example C38_example : truncate [3; -3; 1] [0; 0; 0] 2 = Ok ([1; -1; 0], [0; 0; 0]).
Proof.
  unfold truncate. cbn [length Nat.leb map2 zeros repeat]. unfold truncate1.
  assert (E1 : Rltb 0 3 = true) by (apply Rltb_true; lra). assert (E2 : Rltb 0 (-3) = false) by (apply Rltb_false; lra).
  assert (E3 : Rltb (-3) 0 = true) by (apply Rltb_true; lra). assert (E4 : Rltb 0 1 = true) by (apply Rltb_true; lra).
  rewrite E1, E2, E3, E4. unfold Rmax, Rmin. do 3 f_equal; [destruct (Rle_dec _ _); lra|]. f_equal; [destruct (Rle_dec _ _); lra|]. f_equal; destruct (Rle_dec _ _); lra.
Qed.

(** * C39: coordinate descent *)
Theorem C39_step : forall Row Lab (gradient : list Row -> list Lab -> list R -> outcome (list R)) lambda beta X y w g, 0 < beta -> 0 <= lambda ->
  gradient X y w = Ok g -> length g = length w -> (0 < length w)%nat ->
  exists w' j eta, scd_step gradient lambda beta (length w) X y w = Ok w' /\ moved w j eta w' /\
    (forall u, u <> eta -> model_change lambda beta (nth j w 0) (nth j g 0) eta < model_change lambda beta (nth j w 0) (nth j g 0) u) /\
    (forall i u, (i < length w)%nat -> model_change lambda beta (nth j w 0) (nth j g 0) eta <= model_change lambda beta (nth i w 0) (nth i g 0) u) /\
    model_change lambda beta (nth j w 0) (nth j g 0) eta <= 0.
Proof.
  intros Row Lab gradient lambda beta X y w g B L Eg Lg P.
  destruct (scd_step_spec gradient B L X y w Eg Lg P) as (w' & j & E & M & Bst). exists w', j, (eta_at lambda beta w g j).
  split; auto. split; auto. split; [intros; apply eta_best; auto|]. split.
  - intros i u Hi. specialize (Bst i Hi). rewrite !descent_change in Bst. pose proof (eta_best_le B L w g i u). lra.
  - pose proof (eta_best_le B L w g j 0) as H. unfold model_change in H at 2. rewrite Rplus_0_r in H. lra.
Qed.
Print Assumptions C39_step.
Example C39_step_case := C39_step nat nat (fun _ _ _ => Ok [-3; 1]) 1 1 [] [] [0; 0] [-3; 1] ltac:(lra) ltac:(lra) eq_refl eq_refl ltac:(cbn; lia).
Theorem C39_no_features : forall Row Lab (gradient : list Row -> list Lab -> list R -> outcome (list R)) lambda beta X y, gradient X y [] = Ok [] -> scd_step gradient lambda beta 0 X y [] = UB.
Proof. intros Row Lab gradient lambda beta X y E. unfold scd_step. rewrite E. reflexivity. Qed.
Print Assumptions C39_no_features.
Example C39_no_features_case := C39_no_features nat nat (fun _ _ _ => Ok []) 1 1 [] [] eq_refl.
(** If the quadratic model with curvature beta bounds the loss along coordinates, no run ever increases the penalised
    objective, and it always returns. *)
Theorem C39_monotone : forall Row Lab (gradient : list Row -> list Lab -> list R -> outcome (list R)) lambda beta (F : list R -> R) X y w perm shuffle max_iter,
  0 < beta -> 0 <= lambda -> (0 < length w)%nat -> length y = length X -> (shuffle = true -> forall k, is_perm (length X) (perm k)) ->
  (forall X' y' v, reordered X X' y y' -> length v = length w -> exists g, gradient X' y' v = Ok g /\ length g = length w /\
     forall j eta v', moved v j eta v' -> F v' <= F v + nth j g 0 * eta + beta / 2 * (eta * eta)) ->
  exists w', scd_optimize gradient lambda beta (length w) perm shuffle max_iter X y w = Ok w' /\ length w' = length w /\
    F w' + lambda * norm1 w' <= F w + lambda * norm1 w.
Proof.
  intros Row Lab gradient lambda beta F X y w perm shuffle max_iter B L P Ly Hp HF. unfold scd_optimize.
  apply (scd_loop_spec gradient B L F perm P Ly Hp HF); auto. repeat split; auto.
Qed.
Print Assumptions C39_monotone.
(** Lasso: for features in [-1, 1] the default curvature 1 (plus that of an l2 penalty) is large enough. *)
Theorem C39_lasso : forall l2 lambda beta X y w perm shuffle max_iter, 0 <= l2 -> 0 <= lambda -> 1 + l2 / INR (length X) <= beta ->
  shapes X y w -> (0 < length w)%nat -> (forall x j, In x X -> Rabs (nth j x 0) <= 1) -> (shuffle = true -> forall k, is_perm (length X) (perm k)) ->
  exists w', scd_optimize (mse_gradient l2) lambda beta (length w) perm shuffle max_iter X y w = Ok w' /\ length w' = length w /\
    mse_loss l2 X y w' + lambda * norm1 w' <= mse_loss l2 X y w + lambda * norm1 w.
Proof.
  intros l2 lambda beta X y w perm shuffle max_iter H2 HL HB HS P Bx Hp. pose proof HS as (S1 & S2 & S3).
  assert (Hn : 0 < INR (length X)) by (apply lt_0_INR; destruct X; [congruence|cbn; lia]).
  assert (B : 0 < beta). { assert (0 <= l2 / INR (length X)) by (apply Rmult_le_pos; auto; left; apply Rinv_0_lt_compat; auto). lra. }
  apply C39_monotone; auto. intros X' y' v RO Lv.
  destruct (reordered_incl (le_n 1) S3 RO) as (IX & _). pose proof RO as (L1 & L2 & Pm).
  assert (HS' : forall u, length u = length w -> shapes X' y' u).
  { intros u Lu. split; [destruct X'; [destruct X; [congruence|discriminate]|discriminate]|]. split; [rewrite Lu; intros x Hx; apply S2; auto|congruence]. }
  assert (Eq : forall u, mse_loss l2 X y u = glm mse_phi (mse_c X') l2 X' y' u).
  { intro u. unfold mse_loss, glm, mse_c. rewrite L1. f_equal. unfold Rdiv. f_equal. apply over_samples_perm; auto. }
  exists (glm_grad mse_dphi (mse_c X') l2 X' y' v). split; [apply mse_gradient_glm; auto|].
  split; [rewrite glm_grad_length; auto|]. intros j eta v' M. rewrite !Eq.
  pose proof (@mse_quadratic l2 X' y' v j eta v' (HS' v Lv) M (fun x Hx => Bx x j (IX x Hx)) H2) as Q. rewrite L1 in Q.
  assert (0 <= eta * eta) by nra. nra.
Qed.
Print Assumptions C39_lasso.
Example C39_lasso_case : exists w', scd_optimize (mse_gradient 0) (1 / 10) 1 2 (fun _ => []) false 7 [[1; 0]; [-1; 1]] [1; 2] [0; 0] = Ok w' /\ length w' = 2%nat /\
  mse_loss 0 [[1; 0]; [-1; 1]] [1; 2] w' + 1 / 10 * norm1 w' <= mse_loss 0 [[1; 0]; [-1; 1]] [1; 2] [0; 0] + 1 / 10 * norm1 [0; 0].
Proof.
  apply (C39_lasso 0 (1 / 10) 1 [[1; 0]; [-1; 1]] [1; 2] [0; 0] (fun _ => []) false 7); try lra; try (cbn; lia); try discriminate.
  - split; [easy|]. split; [|auto]. intros x [<-|[<-|[]]]; auto.
  - intros x j [<-|[<-|[]]]; destruct j as [|[|[|j]]]; cbn; try rewrite Rabs_R0; try rewrite Rabs_R1; try lra; rewrite Rabs_left; lra.
Qed.
(** A step that changes nothing has reached the minimum, if the loss is convex. *)
Theorem C39_fixed_point_optimal : forall Row Lab (gradient : list Row -> list Lab -> list R -> outcome (list R)) lambda beta (F : list R -> R) X y w g v, 0 < beta -> 0 <= lambda ->
  gradient X y w = Ok g -> length g = length w -> (0 < length w)%nat -> length v = length w -> F w + dot g (vsub v w) <= F v ->
  scd_step gradient lambda beta (length w) X y w = Ok w -> F w + lambda * norm1 w <= F v + lambda * norm1 v.
Proof.
  intros Row Lab gradient lambda beta F X y w g v B L Eg Lg P Lv HF E.
  destruct (scd_step_spec gradient B L X y w Eg Lg P) as (w' & j & E' & M & Bst). rewrite E in E'. injection E' as <-.
  assert (Ej : eta_at lambda beta w g j = 0). { destruct M as (_ & _ & M & _). lra. }
  assert (Z : descent_at lambda beta w g j = 0). { unfold descent_at. rewrite Ej. unfold scd_descent. rewrite Rplus_0_r. lra. }
  assert (All : forall i, (i < length w)%nat -> eta_at lambda beta w g i = 0).
  { intros i Hi. specialize (Bst i Hi). pose proof (scd_descent_lower (nth i w 0) (nth i g 0) B L) as H. fold (eta_at lambda beta w g i) in H. fold (descent_at lambda beta w g i) in H.
    destruct (Req_dec (eta_at lambda beta w g i) 0) as [|D]; auto. assert (0 < eta_at lambda beta w g i * eta_at lambda beta w g i) by nra. nra. }
  pose proof (@norm1_subgradient lambda w g v Lg Lv) as H.
  assert (0 <= dot g (vsub v w) + lambda * norm1 v - lambda * norm1 w); [|lra]. apply H. intros i t.
  destruct (Nat.lt_ge_cases i (length w)) as [Hi|Hi].
  - apply (@scd_eta_zero lambda beta (nth i w 0) (nth i g 0) B L (All i Hi)).
  - rewrite !nth_overflow by lia. rewrite Rplus_0_l, Rabs_R0. pose proof (Rabs_pos t). nra.
Qed.
Print Assumptions C39_fixed_point_optimal.
(** From (0, 0) with gradient (-3, 1), beta = 1, lambda = 1: the first coordinate moves to 2. *)
Example C39_example : scd_step (fun (_ _ : list nat) w => Ok [-3; 1]) 1 1 2 [] [] [0; 0] = Ok [2; 0].
Proof.
  unfold scd_step. cbn [bind seq foldM]. unfold scd_pick at 1. cbn [vget nth_error bind fst].
  assert (E1 : scd_eta 1 1 0 (-3) = 2). { unfold scd_eta. replace (Rltb (1 / 1) (0 - -3 / 1)) with true; [lra|]. symmetry; apply Rltb_true; lra. }
  assert (E2 : scd_eta 1 1 0 1 = 0). { unfold scd_eta. replace (Rltb (1 / 1) (0 - 1 / 1)) with false; [|symmetry; apply Rltb_false; lra]. replace (Rltb (0 - 1 / 1) (- (1) / 1)) with false; [lra|]. symmetry; apply Rltb_false; lra. }
  rewrite E1. assert (D1 : scd_descent 1 1 0 (-3) 2 = 2) by (unfold scd_descent; rewrite Rplus_0_l, Rabs_R0, Rabs_right; lra).
  rewrite D1. replace (Rltb (-1) 2) with true by (symmetry; apply Rltb_true; lra). cbn [bind]. unfold scd_pick. cbn [vget nth_error bind fst].
  rewrite E2. assert (D2 : scd_descent 1 1 0 1 0 = 0) by (unfold scd_descent; rewrite Rplus_0_l, Rabs_R0; lra).
  rewrite D2. replace (Rltb 2 0) with false by (symmetry; apply Rltb_false; lra). cbn. do 2 f_equal; lra.
Qed.

(** The theorems on concrete runs: shuffles of three samples, a descent whose loss does not change (two epochs, patience 1), and
    the same run with the SAG and the truncated-gradient steps. *)
Example C53_shuffle_pairs_case := C53_shuffle_pairs Z bool [2; 0; 1]%nat [10; 11; 12]%Z [true; false; false] C53_perm eq_refl.
Example C53_rows_case := C53_rows Z (fun _ => [2; 0; 1]%nat) 1 [[10]; [11]; [12]]%Z 1 ltac:(discriminate) C53_perm.
Example C53_columns_case := C53_columns Z (fun _ => [2; 0; 1]%nat) 3 [[10; 11; 12]; [13; 14; 15]]%Z C53_perm ltac:(intros r [<-|[<-|[]]]; reflexivity).
Example C36_returns_case := C36_returns _ _ _ _ _ _ false _ _ _ _ [3; 4; 5]%nat [0; 0; 0]%nat _ _ eq_refl ltac:(discriminate) C36_run.
Example C36_total_case := C36_total nat nat nat (fun (s : nat) lr j (X : list nat) (y : list nat) => Ok ((s + fold_right plus 0%nat X)%nat, 1)) (fun _ => Ok 1) (fun _ => [2; 0; 1]%nat) true 2 1 (1 / 2) 5
  [3; 4; 5]%nat [0; 0; 0]%nat 0%nat (fun _ => True) eq_refl (fun _ _ => C53_perm) ltac:(lia) ltac:(intros k; exists 1; reflexivity) I
  ltac:(intros; eexists; eexists; split; [reflexivity|exact I]).
Example C36_batch_case := C36_batch nat nat (fun _ _ _ => Ok [3]) (fun _ _ _ => Ok 7) [5] (1 / 10) 0 [1%nat] [1%nat] _ _ eq_refl.
Example C36_logistic_sgd_case := C36_logistic_sgd 1 (1 / 10) (1 / 2) 3 (fun _ => [2; 0; 1]%nat) true 2 5 (1 / 1000) 100 [[1; 2]; [0; 1]; [3; 1]] [1; 0; 1] [0; 0]
  ltac:(split; [discriminate|split; [intros r [<-|[<-|[<-|[]]]]; reflexivity|reflexivity]]) (fun _ _ => C53_perm) ltac:(lia) ltac:(lia).
Example C36_tail_ignored_case := C36_tail_ignored nat nat nat (fun (s : nat) lr j (X : list nat) (y : list nat) => Ok ((s + fold_right plus 0%nat X)%nat, 1)) (fun _ => Ok 1) (fun _ => []) 2 1 (1 / 2) 5
  1 [3; 4]%nat [5]%nat [9]%nat [0; 0]%nat [0]%nat [1]%nat 0%nat eq_refl eq_refl eq_refl eq_refl ltac:(cbn; lia).
Lemma clip8 : clip_grad [8] = [8].
Proof. unfold clip_grad, Rmax, Rmin; cbn [map]; destruct (Rle_dec 8 (10 ^ 10)); [destruct (Rle_dec 8 (- 10 ^ 10)); [lra|auto]|lra]. Qed.
Example C37_run_case : exists s log, optimize (sag_step (fun (_ _ : list nat) _ => Ok [8]) (fun _ _ _ => Ok 1) vanilla_update 2) (fun _ => Ok 1) (fun _ => []) false 2 1 (1 / 2) 2
  [3; 4; 5]%nat [0; 0; 0]%nat (sag_init [0] 1 1) = Ok s /\
  sag_trace (fun (_ _ : list nat) _ => Ok [8]) (fun _ _ _ => Ok 1) vanilla_update 2 (sag_init [0] 1 1) log s /\ length (sg_hist s) = 1%nat.
Proof.
  assert (E : exists s, optimize (sag_step (fun (_ _ : list nat) _ => Ok [8]) (fun _ _ _ => Ok 1) vanilla_update 2) (fun _ => Ok 1) (fun _ => []) false 2 1 (1 / 2) 2
    [3; 4; 5]%nat [0; 0; 0]%nat (sag_init [0] 1 1) = Ok s).
  { unfold optimize. eexists. cbn -[clip_grad]. rewrite !clip8. cbn -[clip_grad]. rewrite ?clip8. unfold not_improved. cbn -[clip_grad].
    assert (E : Rltb (0 + 1 - 1 / 2 * (1 + 1)) (0 + 1) = true) by (apply Rltb_true; lra). rewrite E. reflexivity. }
  destruct E as (s & E). destruct (C37_run _ _ _ _ _ _ _ _ _ _ _ _ _ _ _ 1%nat _ E) as (log & T & _). exists s, log. split; [exact E|]. split; [exact T|].
  exact (proj1 (C37_table _ _ _ _ _ 2 _ _ _ _ _ ltac:(lia) T)).
Qed.
Example C37_step_case := C37_step nat nat (fun _ _ _ => Ok [8]) (fun _ _ _ => Ok 1) vanilla_update 2 (sag_init [0] 1 1) 1 0 [] [] _ _ eq_refl.
Example C38_run_case : exists s lrs, optimize (tg_step (fun (_ _ : list nat) _ => Ok [8]) (fun _ _ _ => Ok 1) vanilla_update 1 (1 / 2)) (fun _ => Ok 1) (fun _ => []) false 2 1 (1 / 2) 2
  [3; 4; 5]%nat [0; 0; 0]%nat (tg_init [0] 1) = Ok s /\
  tg_trace (fun (_ _ : list nat) _ => Ok [8]) (fun _ _ _ => Ok 1) vanilla_update 1 (1 / 2) (tg_init [0] 1) lrs s /\ tg_max s = total (map (fun lr => 1 / 2 * lr * 1) lrs).
Proof.
  assert (E : exists s, optimize (tg_step (fun (_ _ : list nat) _ => Ok [8]) (fun _ _ _ => Ok 1) vanilla_update 1 (1 / 2)) (fun _ => Ok 1) (fun _ => []) false 2 1 (1 / 2) 2
    [3; 4; 5]%nat [0; 0; 0]%nat (tg_init [0] 1) = Ok s).
  { unfold optimize. eexists. cbn -[clip_grad]. rewrite !clip8. cbn -[clip_grad]. rewrite ?clip8. unfold not_improved. cbn -[clip_grad].
    assert (E : Rltb (0 + 1 - 1 / 2 * (1 + 1)) (0 + 1) = true) by (apply Rltb_true; lra). rewrite E. reflexivity. }
  destruct E as (s & E). destruct (C38_run _ _ _ _ _ _ _ _ _ _ _ _ _ _ _ _ _ _ _ E) as (lrs & T). exists s, lrs. split; [exact E|]. split; [exact T|].
  exact (proj1 (C38_budget _ _ _ _ _ _ _ _ _ _ _ T)).
Qed.
Example C38_step_case := C38_step nat nat (fun _ _ _ => Ok [8]) (fun _ _ _ => Ok 1) vanilla_update 1 (1 / 2) [0] 1 [] (tg_init [0] 1) 1 0 [] [] _ _
  ltac:(lra) ltac:(lra) ltac:(lra) ltac:(intros r []) (tg_start _ _ _ _ _ _) eq_refl.
(** One variable, loss (x - 3)^2 / 2: coordinate descent from 0 never increases loss plus penalty; at 2 a step changes nothing. *)
Example C39_monotone_case := C39_monotone nat nat (fun _ _ w => Ok (map (fun a => a - 3) w)) 1 1 (fun w => (nth 0 w 0 - 3) ^ 2 / 2) [] [] [0] (fun _ => []) false 7
  ltac:(lra) ltac:(lra) ltac:(cbn; lia) eq_refl ltac:(discriminate)
  ltac:(intros X' y' v _ Hv; exists (map (fun a => a - 3) v); split; [reflexivity|]; split; [rewrite map_length; exact Hv|];
        intros j eta v' (L & Hj & Hm & _); rewrite Hv in Hj; cbn in Hj; destruct j; [|lia]; destruct v as [|a [|]]; try discriminate; cbn in *; rewrite Hm; lra).
Example C39_fixed_point_optimal_case : forall v, (2 - 3) ^ 2 / 2 + 1 * norm1 [2] <= (v - 3) ^ 2 / 2 + 1 * norm1 [v].
Proof.
  intros v. refine (C39_fixed_point_optimal nat nat (fun _ _ w => Ok (map (fun a => a - 3) w)) 1 1 (fun w => (nth 0 w 0 - 3) ^ 2 / 2) [] [] [2] [2 - 3] [v]
    ltac:(lra) ltac:(lra) eq_refl eq_refl ltac:(cbn; lia) eq_refl _ _).
  - pose proof (Rle_0_sqr (v - 2)) as Q. unfold Rsqr in Q. change ((2 - 3) ^ 2 / 2 + ((2 - 3) * (v - 2) + 0) <= (v - 3) ^ 2 / 2). lra.
  - unfold scd_step. cbn [length map bind seq foldM]. unfold scd_pick. cbn [vget nth_error bind fst].
    assert (E1 : scd_eta 1 1 2 (2 - 3) = 0). { unfold scd_eta. replace (Rltb (1 / 1) (2 - (2 - 3) / 1)) with true; [lra|]. symmetry; apply Rltb_true; lra. }
    rewrite E1. assert (D1 : scd_descent 1 1 2 (2 - 3) 0 = 0) by (unfold scd_descent; rewrite Rplus_0_r; lra).
    rewrite D1. replace (Rltb (-1) 0) with true by (symmetry; apply Rltb_true; lra). cbn. do 2 f_equal; lra.
Qed.
