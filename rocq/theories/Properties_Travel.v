(** C73: what training with gradient descent reaches under the learning rates the classes fix. *)
From Coq Require Import Reals Lra Psatz String.
From Verif Require Import Base Common_Model KDReal_Proofs Impurity_Spec Impurity_Proofs Vec Loss_Model Loss_Spec Loss_Proofs LossHinge_Proofs Metric_Proofs
  Shuffle_Model Optim_Model Optim_Spec Optim_Proofs Descent_Proofs Linear_Model Linear_Spec Objects_Model Properties_Optim Properties_Linear Properties_Objects Properties_Descent
  Travel_Spec Travel_Proofs Perceptron_Proofs.
Local Open Scope R_scope.
Local Open Scope list_scope.

Lemma zero_bs {Row Lab S} (step : S -> R -> nat -> list Row -> list Lab -> outcome (S * R)) decay perm shuffle bs N tol max_iter X y s0 s : optimize step decay perm shuffle bs N tol max_iter X y s0 = Ok s -> (0 < bs)%nat.
Proof. intro H. destruct bs; [discriminate|lia]. Qed.
(** SGD with any loss: if entry [i] of a batch's gradient is never larger than the sum of the costs of its samples, a
    training moves weight [i] by at most the sum of the learning rates times the cost of all the samples. *)
Theorem C73_travel : forall (Row Lab : Type) (gradient : list Row -> list Lab -> list R -> outcome (list R)) evaluate (cost : Row * Lab -> R) i
  decay rate perm shuffle bs N tol max_iter X y w0 w,
  length y = length X -> (shuffle = true -> forall k, is_perm (length X) (perm k)) ->
  (forall e, (e < max_iter)%nat -> decay e = Ok (rate e) /\ 0 <= rate e) -> (forall p, 0 <= cost p) ->
  (forall Xb yb v g, incl (combine Xb yb) (combine X y) -> length Xb = bs -> length yb = bs -> length v = length w0 -> gradient Xb yb v = Ok g -> Rabs (nth i g 0) <= total (map cost (combine Xb yb))) ->
  optimize (sgd_step gradient evaluate clip_grad vanilla_update) decay perm shuffle bs N tol max_iter X y w0 = Ok w ->
  length w = length w0 /\ Rabs (nth i w 0 - nth i w0 0) <= total (map rate (seq 0 max_iter)) * total (map cost (combine X y)).
Proof.
  intros Row Lab gradient evaluate cost i decay rate perm shuffle bs N tol max_iter X y w0 w Ly Hp Hr Hc HG H.
  destruct (C36_returns _ _ _ _ decay perm shuffle bs N tol max_iter X y w0 w Ly Hp H) as (E & data & state & loss & HE & HR & -> & _).
  destruct (@run_travel _ _ gradient evaluate i (length w0) cost Hc decay rate shuffle bs X y w0 eq_refl (zero_bs _ _ _ _ _ _ _ _ _ _ _ _ H) (fun Xb yb v g L1 L2 I Lv => HG Xb yb v g I L1 L2 Lv) (E + 1)%nat data state loss) as (L & T).
  - intros e He. apply Hr. lia.
  - exact HR.
  - split; [exact L|]. eapply Rle_trans; [exact T|]. apply Rmult_le_compat_r; [apply total_nonneg; auto|].
    replace max_iter with ((E + 1) + (max_iter - (E + 1)))%nat by lia. rewrite (seq_app (E + 1) (max_iter - (E + 1))), map_app, total_app.
    match goal with |- _ <= _ + ?t => assert (0 <= t); [|lra] end.
    apply total_nonneg. intros e He. apply in_seq in He. destruct (Hr e ltac:(lia)). auto.
Qed.
Print Assumptions C73_travel.
(** The rates the models use (the base rate, halved every ten epochs) add up to less than 19 times the base rate, however
    many epochs are run. *)
Theorem C73_rates : forall alpha K, 0 <= alpha ->
  (forall e, (e < K)%nat -> exists r, step_decay alpha (1 / 2) 10 e = Ok r /\ r = alpha * (1 / 2) ^ ((1 + e) / 10)) /\
  total (map (fun e => alpha * (1 / 2) ^ ((1 + e) / 10)) (seq 0 K)) <= 19 * alpha.
Proof.
  intros alpha K Ha. split; [intros; eexists; split; reflexivity|]. rewrite total_times. pose proof (rates_below K). nra.
Qed.
Print Assumptions C73_rates.

Lemma half_rate alpha e : 0 <= alpha -> 0 <= alpha * (1 / 2) ^ ((1 + e) / 10).
Proof. intro H. apply Rmult_le_pos; [auto|]. apply pow_le. lra. Qed.
Lemma sub_shapes (X Xb : list (list R)) (y yb : list R) d bs v : width d X -> (0 < bs)%nat -> length Xb = bs -> length yb = bs -> incl (combine Xb yb) (combine X y) -> length v = d -> shapes Xb yb v.
Proof.
  intros HX B L1 L2 I Lv. split; [destruct Xb; [cbn in L1; lia|discriminate]|]. split; [|congruence]. rewrite Lv. intros x Hx. apply HX. apply (@combine_fst_incl Xb X yb y); auto. congruence.
Qed.

Lemma perceptron_entry d X y bs j : width d X -> (0 < bs)%nat -> forall Xb yb v g, length Xb = bs -> length yb = bs -> incl (combine Xb yb) (combine X y) -> length v = d ->
  hinge_gradient (zeros d) 0 0 Xb yb v = Ok g -> Rabs (nth j g 0) <= total (map (fun p => Rabs (snd p * nth j (fst p) 0)) (combine Xb yb)).
Proof.
  intros HX B Xb yb v g L1 L2 I Lv Eg. pose proof (sub_shapes _ _ _ _ _ _ _ HX B L1 L2 I Lv) as HS. rewrite hinge_gradient_glm in Eg by (auto; rewrite zeros_length; auto). injection Eg as <-.
  rewrite <- (eq_trans (glm_grad_length (hinge_dphi 0) 1 0 HS) Lv), zeros_vadd. rewrite (total_ext _ (fun p => 1 * (fun q : R * R => Rabs (fst q * snd q)) (snd p, nth j (fst p) 0)) (combine Xb yb)) by (intros; cbn [fst snd]; ring).
  apply (@glm_entry (hinge_dphi 0) 1 Xb yb v j (fun q : R * R => Rabs (fst q * snd q)) HS); [lra| |intros; apply Rabs_pos].
  intros p Hin. cbn [fst snd]. rewrite Rabs_mult. apply Rmult_le_compat_r; [apply Rabs_pos|]. unfold hinge_dphi. destruct (Rltb _ _); [rewrite Rabs_R0; apply Rabs_pos|rewrite Rabs_Ropp; lra].
Qed.
(** A perceptron without penalty, in zeroed memory: no weight ever moves by more than 19 alpha times the sum of the
    absolute values of its feature, whatever the number of epochs. *)
Theorem C73_perceptron_travel : forall alpha tol bs max_iter N penalty intercept shuffle verbose perm X y w0 w j,
  0 <= alpha -> width (length w0) X -> length y = length X -> (shuffle = true -> forall k, is_perm (length X) (perm k)) ->
  perceptron_object_fit (perceptron_new alpha 0 tol bs max_iter N penalty intercept shuffle verbose) (zeros (length w0)) w0 perm X y = Ok w ->
  length w = length w0 /\ Rabs (nth j w 0 - nth j w0 0) <= 19 * alpha * total (map (fun p => Rabs (snd p * nth j (fst p) 0)) (combine X y)).
Proof.
  intros alpha tol bs max_iter N penalty intercept shuffle verbose perm X y w0 w j Ha HX Ly Hp H. rewrite C66_perceptron_arguments in H. pose proof (zero_bs _ _ _ _ _ _ _ _ _ _ _ _ H) as B.
  destruct (C73_travel _ _ _ _ (fun p => Rabs (snd p * nth j (fst p) 0)) j _ (fun e => alpha * (1 / 2) ^ ((1 + e) / 10)) perm shuffle bs N tol max_iter X y w0 w Ly Hp
    (fun e _ => conj eq_refl (half_rate alpha e Ha)) (fun p => Rabs_pos _) (fun Xb yb v g I L1 L2 => perceptron_entry _ X y bs j HX B Xb yb v g L1 L2 I) H) as (L & T).
  split; [exact L|]. eapply Rle_trans; [exact T|]. apply Rmult_le_compat_r; [apply total_nonneg; intros; apply Rabs_pos|]. apply C73_rates; auto.
Qed.
Print Assumptions C73_perceptron_travel.
Lemma map_fst_pairs {A B} (l : list A) : forall (k : list B), length k = length l -> map fst (combine l k) = l.
Proof. induction l as [|a l IH]; intros [|b k] L; cbn in L; try discriminate; cbn; [reflexivity|]. f_equal. apply IH. lia. Qed.
(** Logistic regression by SGD without penalty, labels between 0 and 1 (the last weight is the intercept; its feature is 1):
    no weight moves by more than 19 alpha / batch_size times the sum of the absolute values of its feature. *)
Theorem C73_logistic_travel : forall m sc alpha tol bs max_iter N penalty shuffle verbose perm X y w0 w d j,
  0 <= alpha -> width d X -> length w0 = S d -> length y = length X -> (forall b, In b y -> 0 <= b <= 1) -> (shuffle = true -> forall k, is_perm (length X) (perm k)) ->
  penalty = "l2"%string \/ penalty = "None"%string ->
  logistic_object_fit (logistic_gradient m alpha 0 tol bs max_iter N "sgd" penalty shuffle verbose) sc perm w0 d X y = Ok (Some w) ->
  length w = length w0 /\ Rabs (nth j w 0 - nth j w0 0) <= 19 * alpha / INR bs * total (map (fun x => Rabs (nth j (x ++ [1]) 0)) X).
Proof.
  intros m sc alpha tol bs max_iter N penalty shuffle verbose perm X y w0 w d j Ha HX Lw Ly Hb Hp Hpen H. rewrite (proj1 (C66_logistic_arguments m sc alpha 0 tol bs max_iter N shuffle verbose perm w0 d X y) penalty Hpen) in H.
  destruct (optimize _ _ _ _ _ _ _ _ _ _ _) as [w1| | |] eqn:E; try discriminate. cbn [bind] in H. injection H as ->. set (X' := map (fun r => r ++ [1]) X) in *.
  pose proof (zero_bs _ _ _ _ _ _ _ _ _ _ _ _ E) as B. assert (PB : 0 < INR bs) by (apply lt_0_INR; auto). assert (LX' : length X' = length X) by apply map_length.
  assert (HX' : width (length w0) X') by (intros x Hx; apply in_map_iff in Hx; destruct Hx as (r & <- & Hr); rewrite app_length, (HX r Hr), Lw; cbn; lia).
  assert (G : forall Xb yb v g, incl (combine Xb yb) (combine X' y) -> length Xb = bs -> length yb = bs -> length v = length w0 -> log_gradient 0 Xb yb v = Ok g ->
    Rabs (nth j g 0) <= total (map (fun p => / INR bs * Rabs (nth j (fst p) 0)) (combine Xb yb))).
  { intros Xb yb v g I L1 L2 Lv Eg. pose proof (sub_shapes _ _ _ _ _ _ _ HX' B L1 L2 I Lv) as HS. rewrite log_gradient_glm in Eg by auto. injection Eg as <-. rewrite L1.
    rewrite (total_ext _ (fun p => / INR bs * (fun q : R * R => Rabs (snd q)) (snd p, nth j (fst p) 0)) (combine Xb yb)) by reflexivity.
    apply (@glm_entry log_dphi (/ INR bs) Xb yb v j (fun q : R * R => Rabs (snd q)) HS); [left; apply Rinv_0_lt_compat; auto| |intros; apply Rabs_pos].
    intros (x, b) Hin. cbn [fst snd]. rewrite <- (Rmult_1_l (Rabs (nth j x 0))) at 2. apply Rmult_le_compat_r; [apply Rabs_pos|]. unfold log_dphi. pose proof (logistic_bounds (dot x v)).
    assert (0 <= b <= 1) by (apply Hb; exact (in_combine_r _ _ _ _ (I _ Hin))). apply Rabs_le. lra. }
  destruct (C73_travel _ _ _ _ (fun p => / INR bs * Rabs (nth j (fst p) 0)) j _ (fun e => alpha * (1 / 2) ^ ((1 + e) / 10)) perm shuffle bs N tol max_iter X' y w0 w ltac:(congruence) ltac:(rewrite LX'; exact Hp)
    (fun e _ => conj eq_refl (half_rate alpha e Ha)) ltac:(intro p; apply Rmult_le_pos; [left; apply Rinv_0_lt_compat; auto|apply Rabs_pos]) G E) as (L & T).
  split; [exact L|]. eapply Rle_trans; [exact T|]. rewrite (total_times (/ INR bs)). unfold Rdiv. rewrite (Rmult_assoc (19 * alpha)).
  assert (EQ : total (map (fun p => Rabs (nth j (fst p) 0)) (combine X' y)) = total (map (fun x => Rabs (nth j (x ++ [1]) 0)) X)).
  { f_equal. rewrite <- (map_map fst (fun x => Rabs (nth j x 0))). rewrite map_fst_pairs by congruence. unfold X'. now rewrite map_map. }
  rewrite EQ. apply Rmult_le_compat_r; [apply Rmult_le_pos; [left; apply Rinv_0_lt_compat; auto|apply total_nonneg; intros; apply Rabs_pos]|]. apply C73_rates; auto.
Qed.
Print Assumptions C73_logistic_travel.
Example C73_logistic_travel_case : forall m sc, logistic_object_fit (logistic_gradient m 1 0 0 2 1 0 "sgd" "None" false false) sc (fun _ => []) [1; 0] 1 [[0]; [0]] [0; 1] = Ok (Some [1 - 0 / 2; 0]).
Proof. intros. apply zero_fit. lra. Qed.

(** Samples labelled 0 -- the label [predict] gives to the other class -- teach a perceptron nothing. *)
Theorem C73_zero_labels_refuted : forall alpha tol bs max_iter N penalty intercept shuffle verbose perm X w0 w,
  0 <= alpha -> width (length w0) X -> (shuffle = true -> forall k, is_perm (length X) (perm k)) ->
  perceptron_object_fit (perceptron_new alpha 0 tol bs max_iter N penalty intercept shuffle verbose) (zeros (length w0)) w0 perm X (map (fun _ => 0%R) X) = Ok w -> w = w0.
Proof.
  intros alpha tol bs max_iter N penalty intercept shuffle verbose perm X w0 w Ha HX Hp H.
  assert (G : forall j, length w = length w0 /\ nth j w 0 = nth j w0 0).
  { intro j. destruct (C73_perceptron_travel alpha tol bs max_iter N penalty intercept shuffle verbose perm X _ w0 w j Ha HX ltac:(apply map_length) Hp H) as (L & T). split; [exact L|].
    rewrite total_zero in T; [|intros (x, b) Hin; apply in_combine_r, in_map_iff in Hin; destruct Hin as (? & <- & _); cbn [fst snd]; rewrite Rmult_0_l; apply Rabs_R0].
    rewrite Rmult_0_r in T. pose proof (Rabs_pos (nth j w 0 - nth j w0 0)). assert (E : Rabs (nth j w 0 - nth j w0 0) = 0) by lra. destruct (Req_dec (nth j w 0 - nth j w0 0) 0) as [Q|Q]; [lra|]. exfalso. exact (Rabs_no_R0 _ Q E). }
  apply (nth_ext _ _ 0 0); [apply (G 0%nat)|]. intros j _. apply G.
Qed.
Print Assumptions C73_zero_labels_refuted.
Example C73_zero_labels_case : perceptron_object_fit (perceptron_new 1 0 1 1 3 1 "None" false false false) [0] [1 / 2] (fun _ => []) [[1]] [0] = Ok [1 / 2] /\ perceptron_predict false [1 / 2] 1 [[1]] = Ok [1].
Proof.
  assert (W1 : width 1 [[1]]) by (intros x [<-|[]]; reflexivity). split.
  - assert (ST : forall lr j, sgd_step (hinge_gradient [0] 0 0) (hinge_evaluate 0 0) clip_grad vanilla_update [1 / 2] lr j [[1]] [0] = Ok ([1 / 2], 0)).
    { intros lr j. assert (HS : shapes [[1]] [0] [1 / 2]) by (repeat split; [discriminate|exact W1]). unfold sgd_step. rewrite (hinge_gradient_glm 0 0 [0] HS eq_refl). cbn [bind].
      assert (EG : vadd [0] (glm_grad (hinge_dphi 0) 1 0 [[1]] [0] [1 / 2]) = zeros 1).
      { unfold glm_grad, hinge_dphi, dot, total. cbn. replace ((if Rltb 0 ((1 * (1 / 2) + 0) * 0) then 0 else - 0)) with 0 by (destruct (Rltb _ _); ring). f_equal. field. }
      rewrite EG, clip_zero. unfold vanilla_update, sub. cbn [length Nat.eqb vscale zeros repeat map bind vsub map2]. replace (1 / 2 - lr * 0) with (1 / 2) by ring. rewrite (hinge_evaluate_glm 0 0 HS). cbn [bind]. do 2 f_equal.
      unfold glm, over_samples, penalty, hinge_phi, dot, total. cbn. rewrite Rmax_left by lra. field. }
    rewrite C66_perceptron_arguments. unfold optimize. cbn -[sgd_step]. rewrite !ST. cbn -[sgd_step]. rewrite ?ST. cbn -[sgd_step]. 
    repeat (match goal with |- context [Rltb ?a ?b] => destruct (Rltb a b) eqn:? end; cbn -[sgd_step]; rewrite ?ST; cbn -[sgd_step]); try reflexivity;
      repeat match goal with H : Rltb _ _ = true |- _ => apply Rltb_true in H | H : Rltb _ _ = false |- _ => apply Rltb_false in H end; lra.
  - rewrite (C49_perceptron_predict false 1 [1 / 2] [[1]] W1 eq_refl). cbn [map]. destruct (Rlt_dec 0 (linear_fun false [1 / 2] [1])) as [D|D]; [reflexivity|]. exfalso. unfold linear_fun, dot, total in D. cbn in D. lra.
Qed.

(** One sample, linearly separable, at a small learning rate: however many epochs are allowed, the trained perceptron gets
    it wrong if it got it wrong by 1 at the start; and there are trainings that end normally. *)
Theorem C73_decay_refuted : margin 1 [1] [[1]] [1] /\
  (forall alpha tol bs max_iter N penalty intercept shuffle verbose perm w, 0 <= alpha < 1 / 19 -> (shuffle = true -> forall k, is_perm 1 (perm k)) ->
     perceptron_object_fit (perceptron_new alpha 0 tol bs max_iter N penalty intercept shuffle verbose) [0] [-1] perm [[1]] [1] = Ok w -> perceptron_predict false w 1 [[1]] = Ok [0]) /\
  exists w, perceptron_object_fit (perceptron_new (1 / 1000) 0 (1 / 100) 1 (Z.to_nat 2000) 5 "None" false false false) [0] [-1] (fun _ => []) [[1]] [1] = Ok w.
Proof.
  assert (W1 : width 1 [[1]]) by (intros x [<-|[]]; reflexivity). split; [|split].
  - intros x b [E|[]]. injection E as <- <-. unfold dot, total. cbn. lra.
  - intros alpha tol bs max_iter N penalty intercept shuffle verbose perm w Ha Hp H. destruct (C73_perceptron_travel alpha tol bs max_iter N penalty intercept shuffle verbose perm [[1]] [1] [-1] w 0 ltac:(lra) W1 eq_refl Hp H) as (L & T).
    destruct w as [|a [|? ?]]; try discriminate. cbn [combine map fst snd nth] in T. unfold total in T. cbn [fold_right] in T. rewrite Rmult_1_l, Rabs_R1 in T.
    rewrite (C49_perceptron_predict false 1 [a] [[1]] W1 eq_refl). cbn [map]. assert (Q := Rle_abs (a - -1)). destruct (Rlt_dec 0 (linear_fun false [a] [1])) as [D|D]; [|reflexivity]. exfalso. unfold linear_fun, dot, total in D. cbn in D. lra.
  - destruct (C49_perceptron [0] [-1] 0 (1 / 1000) (1 / 2) 10 (fun _ => []) false 1 5 (1 / 100) (Z.to_nat 2000) 1 [[1]] [1] W1 ltac:(discriminate) eq_refl ltac:(discriminate) ltac:(lia) ltac:(lia) eq_refl eq_refl) as [(w & E & _)|E]; [exists w; exact E|exfalso].
    assert (ST : forall s lr j Xb yb, length s = 1%nat -> length Xb = 1%nat -> length yb = 1%nat -> incl Xb [[1]] -> incl yb [1] ->
      exists s' l, sgd_step (hinge_gradient [0] 0 0) (hinge_evaluate 0 0) clip_grad vanilla_update s lr j Xb yb = Ok (s', l) /\ length s' = 1%nat).
    { intros s lr j Xb yb Ls L1 L2 I1 I2. assert (HS : forall v, length v = 1%nat -> shapes Xb yb v).
      { intros v Lv. split; [destruct Xb; [discriminate|discriminate]|]. split; [rewrite Lv; intros x Hx; apply W1; auto|lia]. }
      unfold sgd_step. rewrite (hinge_gradient_glm 0 0 [0] (HS s Ls)) by (cbn; lia). cbn [bind]. unfold vanilla_update.
      assert (Lc : length (clip_grad (vadd [0] (glm_grad (hinge_dphi 0) 1 0 Xb yb s))) = 1%nat). { unfold clip_grad. rewrite map_length, vadd_length; [reflexivity|]. rewrite (glm_grad_length _ _ _ (HS s Ls)). cbn. lia. }
      rewrite sub_ok by (rewrite vscale_length; lia). cbn [bind]. set (w' := vsub _ _). assert (Lw' : length w' = 1%nat) by (unfold w'; rewrite vsub_length; rewrite ?vscale_length; lia).
      rewrite (hinge_evaluate_glm 0 0 (HS w' Lw')). cbn [bind]. eauto. }
    destruct (C36_exception _ _ _ (sgd_step (hinge_gradient [0] 0 0) (hinge_evaluate 0 0) clip_grad vanilla_update) (step_decay (1 / 1000) (1 / 2) 10) (fun _ => []) false 1 5 (1 / 100) (Z.to_nat 2000) [[1]] [1] [-1] (fun v => length v = 1%nat) eq_refl ltac:(discriminate) ltac:(lia) (fun k => ex_intro _ _ eq_refl) eq_refl ST E) as (data & state & loss & HR & HB).
    destruct (HB 101%nat ltac:(lia)) as (k & Hk & Lk).
    assert (ST' : forall s lr j Xb yb s' l, length s = 1%nat -> length Xb = 1%nat -> length yb = 1%nat -> incl Xb [[1]] -> incl yb [1] ->
      sgd_step (hinge_gradient [0] 0 0) (hinge_evaluate 0 0) clip_grad vanilla_update s lr j Xb yb = Ok (s', l) -> l = Rmax 0 (- nth 0 s' 0) /\ length s' = 1%nat).
    { intros s lr j Xb yb s' l Ls L1 L2 I1 I2 Es. destruct (ST s lr j Xb yb Ls L1 L2 I1 I2) as (s2 & l2 & E2 & L3). rewrite Es in E2. injection E2 as <- <-. split; [|exact L3].
      destruct (C36_batch _ _ _ _ _ _ _ _ _ _ _ Es) as (_ & _ & _ & _ & Ev & _). destruct Xb as [|x [|? ?]]; try discriminate. destruct yb as [|b [|? ?]]; try discriminate.
      assert (x = [1]) by (destruct (I1 x ltac:(now left)) as [<-|[]]; reflexivity). assert (b = 1) by (destruct (I2 b ltac:(now left)) as [<-|[]]; reflexivity). subst x b.
      destruct s' as [|a [|? ?]]; try discriminate. unfold hinge_evaluate in Ev. cbn in Ev. injection Ev as <-. cbn [nth]. unfold dot, total. cbn. match goal with |- _ + _ * 0 = _ => rewrite Rmult_0_r, Rplus_0_r, Rplus_0_l end. f_equal. ring. }
    assert (HL : forall e, (e < Z.to_nat 2000)%nat -> length (state e) = 1%nat -> loss e = Rmax 0 (- nth 0 (state (S e)) 0) /\ length (state (S e)) = 1%nat).
    { intros e He Ls. pose proof HR as (S0 & HR'). destruct (HR' e He) as (_ & Dd & lr & bl & Ed & IB & ER). specialize (Dd eq_refl). rewrite Dd in IB. cbn [fst snd] in IB.
      destruct (in_batches_samples IB) as (rest & Er & Ez). rewrite (Ez ltac:(reflexivity)), app_nil_r in Er. destruct IB as (Hb1 & (rX & EX & LX) & _).
      destruct bl as [|(Xb, yb) bl]; [discriminate|]. destruct (epoch_cons_inv ER) as (s1 & l & L' & H8 & H9 & ->). destruct (Hb1 (Xb, yb) ltac:(now left)) as (B1 & B2). cbn [fst snd] in B1, B2.
      assert (bl = []).
      { destruct bl as [|(Xc, yc) bl]; [reflexivity|]. destruct (Hb1 (Xc, yc) ltac:(right; now left)) as (B3 & _). cbn [fst] in B3. apply (f_equal (@length _)) in EX. cbn [map concat fst] in EX. rewrite !app_length in EX. cbn in EX. cbn in B1, B3. lia. }
      subst bl. destruct (epoch_nil_inv H9) as (-> & ->). rewrite Rplus_0_r. apply (ST' (state e) lr 0%nat Xb yb s1 l Ls B1 B2); [| |exact H8].
      - intros x Hx. cbn in Er. rewrite app_nil_r in Er. apply (@combine_fst_incl Xb [[1]] yb [1]); auto; [congruence|]. cbn. rewrite <- Er. apply incl_refl.
      - cbn in Er. rewrite app_nil_r in Er. destruct Xb as [|x [|? ?]]; try discriminate. destruct yb as [|b [|? ?]]; try discriminate. cbn in Er. injection Er as <- <-. apply incl_refl. }
    assert (LS : forall e, (e <= Z.to_nat 2000)%nat -> length (state e) = 1%nat) by (induction e as [|e IH]; intro He; [rewrite (proj1 HR); reflexivity|apply HL; [lia|apply IH; lia]]).
    destruct (HL k ltac:(lia) (LS k ltac:(lia))) as (Ek & _). destruct (HL 0%nat ltac:(lia) (LS 0%nat ltac:(lia))) as (E0 & _). pose proof (Rmax_l 0 (- nth 0 (state (S k)) 0)) as Pk. rewrite <- Ek in Pk.
    assert (L0 : loss 0%nat <= 1001 / 1000).
    { assert (HR1 : training_run (sgd_step (hinge_gradient [0] 0 0) (hinge_evaluate 0 0) clip_grad vanilla_update) (step_decay (1 / 1000) (1 / 2) 10) false 1 [[1]] [1] [-1] 1 data state loss) by (split; [apply HR|intros e He; apply HR; lia]).
      destruct (@run_travel _ _ _ _ 0 1 (fun p => Rabs (snd p * nth 0 (fst p) 0)) (fun p => Rabs_pos _) (step_decay (1 / 1000) (1 / 2) 10) (fun e => 1 / 1000 * (1 / 2) ^ ((1 + e) / 10)) false 1 [[1]] [1] [-1] eq_refl ltac:(lia)
        (perceptron_entry 1 [[1]] [1] 1 0 W1 ltac:(lia)) 1%nat data state loss ltac:(intros e He; split; [reflexivity|apply half_rate; lra]) HR1) as (_ & T).
      cbn [seq map combine fst snd nth] in T. change ((1 + 0) / 10)%nat with 0%nat in T. unfold total in T. cbn [fold_right pow] in T. rewrite Rmult_1_l, Rabs_R1 in T. pose proof (Rle_abs (- (nth 0 (state 1%nat) 0 - -1))) as Q. rewrite Rabs_Ropp in Q.
      rewrite E0. apply Rmax_lub; lra. }
    change (INR 1) with 1 in Lk. replace (INR 101) with 101 in Lk by (rewrite INR_IZR_INZ; reflexivity). lra.
Qed.
Print Assumptions C73_decay_refuted.

(** The perceptron theorem.  Samples separated by [u] with margin [m] and no longer than [radius], labels -1 and 1, whole
    batches, no penalty, zeroed memory, gradients too small to be clipped.  As soon as the learning rates, in units of the
    largest one, add up to more than bs |u|^2 radius^2 / m^2 + 2 |u| |w0| / (alpha m), every sample is on its side. *)
Theorem C73_separates : forall decay rate alpha shuffle bs X y w0 u m radius K data state loss,
  width (length w0) X -> length u = length w0 -> length y = length X -> (forall b, In b y -> b = 1 \/ b = -1) ->
  (0 < bs)%nat -> (length X mod bs = 0)%nat -> 0 < m -> margin m u X y -> 0 <= radius -> (forall x, In x X -> sqn x <= radius * radius) -> INR bs * radius <= 10 ^ 10 ->
  0 < alpha -> (forall e, (e < K)%nat -> decay e = Ok (rate e) /\ 0 < rate e <= alpha) ->
  training_run (sgd_step (hinge_gradient (zeros (length w0)) 0 0) (hinge_evaluate 0 0) clip_grad vanilla_update) decay shuffle bs X y w0 K data state loss ->
  INR bs * sqn u * (radius * radius) / (m * m) + 2 * sqrt (sqn u) * sqrt (sqn w0) / (alpha * m) < total (map rate (seq 0 K)) / alpha ->
  separates (state K) X y.
Proof.
  intros decay rate alpha shuffle bs X y w0 u m radius K data state loss HX Hu Hy HL Hbs Hdiv Hm HM Hr HR HC Ha Hrate HRun HE.
  destruct (@run_separates (length w0) X y HX HL bs radius Hbs Hr HR HC w0 u m alpha decay rate shuffle Hy Hdiv eq_refl Hu Hm HM Ha K data state loss Hrate HRun HE) as (k & Hk & Lk & Sk).
  destruct (@run_separated (length w0) X y HX bs Hbs w0 u decay shuffle Hy Hdiv eq_refl Hu K data state loss k HRun ltac:(lia) Lk Sk K ltac:(lia) ltac:(lia)) as (E & _). rewrite E. exact Sk.
Qed.
Print Assumptions C73_separates.

Lemma fit_learns decay rate alpha perm shuffle bs N tol max_iter X y w0 u m radius K :
  X <> [] -> width (length w0) X -> length u = length w0 -> length y = length X -> (forall b, In b y -> b = 1 \/ b = -1) -> (shuffle = true -> forall k, is_perm (length X) (perm k)) ->
  (0 < bs)%nat -> (length X mod bs = 0)%nat -> 0 < m -> margin m u X y -> 0 <= radius -> (forall x, In x X -> sqn x <= radius * radius) -> INR bs * radius <= 10 ^ 10 ->
  0 < alpha -> (forall e, decay e = Ok (rate e) /\ 0 < rate e <= alpha) -> 0 < tol -> (K <= N + 1)%nat -> (K + N <= max_iter)%nat ->
  INR bs * sqn u * (radius * radius) / (m * m) + 2 * sqrt (sqn u) * sqrt (sqn w0) / (alpha * m) < total (map rate (seq 0 K)) / alpha ->
  exists w, optimize (sgd_step (hinge_gradient (zeros (length w0)) 0 0) (hinge_evaluate 0 0) clip_grad vanilla_update) decay perm shuffle bs N tol max_iter X y w0 = Ok w /\ length w = length w0 /\ separates w X y.
Proof.
  intros NX HX Hu Hy HL Hp Hbs Hdiv Hm HM Hr HR HC Ha Hrate Ht HK HN HE.
  assert (SEP : forall T data state loss, (K <= T)%nat -> training_run (sgd_step (hinge_gradient (zeros (length w0)) 0 0) (hinge_evaluate 0 0) clip_grad vanilla_update) decay shuffle bs X y w0 T data state loss ->
    exists k, (k < K)%nat /\ separates (state k) X y /\ forall e, (k <= e)%nat -> (e <= T)%nat -> state e = state k /\ ((e < T)%nat -> loss e = 0)).
  { intros T data state loss HT HRun. assert (HRun' : training_run (pstep (length w0)) decay shuffle bs X y w0 K data state loss) by (split; [apply HRun|intros e He; apply HRun; lia]).
    destruct (@run_separates (length w0) X y HX HL bs radius Hbs Hr HR HC w0 u m alpha decay rate shuffle Hy Hdiv eq_refl Hu Hm HM Ha K data state loss ltac:(intros; apply Hrate) HRun' HE) as (k & Hk & Lk & Sk).
    exists k. split; [exact Hk|]. split; [exact Sk|]. exact (@run_separated (length w0) X y HX bs Hbs w0 u decay shuffle Hy Hdiv eq_refl Hu T data state loss k HRun ltac:(lia) Lk Sk). }
  destruct (C36_total _ _ _ (sgd_step (hinge_gradient (zeros (length w0)) 0 0) (hinge_evaluate 0 0) clip_grad vanilla_update) decay perm shuffle bs N tol max_iter X y w0 (fun v => length v = length w0) Hy Hp Hbs) as [(w & E & L)|(_ & data & state & loss & HRun & NS)].
  - intro k. exists (rate k). apply Hrate.
  - reflexivity.
  - intros s lr j Xb yb Ls L1 L2 I1 I2. assert (HS : forall v, length v = length w0 -> shapes Xb yb v).
    { intros v Lv. split; [destruct Xb; [cbn in L1; lia|discriminate]|]. split; [rewrite Lv; intros x Hx; auto|lia]. }
    unfold sgd_step. rewrite (hinge_gradient_glm 0 0 (zeros (length w0)) (HS s Ls)) by (rewrite zeros_length; lia). cbn [bind]. unfold vanilla_update.
    assert (Lc : length (clip_grad (vadd (zeros (length w0)) (glm_grad (hinge_dphi 0) 1 0 Xb yb s))) = length w0).
    { unfold clip_grad. rewrite map_length, vadd_length; rewrite zeros_length; [reflexivity|]. rewrite (glm_grad_length _ _ _ (HS s Ls)). lia. }
    rewrite sub_ok by (rewrite vscale_length; lia). cbn [bind]. set (w' := vsub _ _). assert (Lw' : length w' = length w0) by (unfold w'; rewrite vsub_length; rewrite ?vscale_length; lia).
    rewrite (hinge_evaluate_glm 0 0 (HS w' Lw')). cbn [bind]. eauto.
  - exists w. split; [exact E|]. split; [exact L|]. destruct (C36_returns _ _ _ _ _ _ _ _ _ _ _ _ _ _ _ Hy Hp E) as (T & data & state & loss & HT & HRun & -> & St & _).
    assert (NT : (N <= T)%nat). { destruct (Nat.le_gt_cases N T) as [Q|Q]; [exact Q|]. destruct (St 0%nat ltac:(lia) ltac:(lia)) as (i & Hi & _). lia. }
    destruct (SEP (T + 1)%nat data state loss ltac:(lia) HRun) as (k & Hk & Sk & G). destruct (G (T + 1)%nat ltac:(lia) (le_n _)) as (E1 & _). rewrite E1. exact Sk.
  - exfalso. destruct (SEP max_iter data state loss ltac:(lia) HRun) as (k & Hk & Sk & G). apply (NS (k + N)%nat ltac:(lia)). intros e He1 He2. exists k. split; [lia|].
    rewrite (proj2 (G k ltac:(lia) ltac:(lia)) ltac:(lia)), (proj2 (G e ltac:(lia) ltac:(lia)) ltac:(lia)). assert (0 < INR bs) by (apply lt_0_INR; auto). assert (0 < tol * INR bs) by (apply Rmult_lt_0_compat; auto). lra.
Qed.
(** [Perceptron::fit] on such samples: if its patience [N] and [max_iter] leave room for [K] epochs whose rates add up to
    enough, it returns (no exception), and [predict] reproduces the labels (1 for 1, 0 for -1). *)
Theorem C73_learns : forall alpha tol bs max_iter N penalty shuffle verbose perm X y w0 u m radius K,
  X <> [] -> width (length w0) X -> length u = length w0 -> length y = length X -> (forall b, In b y -> b = 1 \/ b = -1) -> (shuffle = true -> forall k, is_perm (length X) (perm k)) ->
  (0 < bs)%nat -> (length X mod bs = 0)%nat -> 0 < m -> margin m u X y -> 0 <= radius -> (forall x, In x X -> sqn x <= radius * radius) -> INR bs * radius <= 10 ^ 10 ->
  0 < alpha -> 0 < tol -> (K <= N + 1)%nat -> (K + N <= max_iter)%nat ->
  INR bs * sqn u * (radius * radius) / (m * m) + 2 * sqrt (sqn u) * sqrt (sqn w0) / (alpha * m) < total (map (fun e => (1 / 2) ^ ((1 + e) / 10)) (seq 0 K)) ->
  exists w, perceptron_object_fit (perceptron_new alpha 0 tol bs max_iter N penalty false shuffle verbose) (zeros (length w0)) w0 perm X y = Ok w /\
    separates w X y /\ perceptron_predict false w (length w0) X = Ok (map (fun b => if Req_EM_T b 1 then 1 else 0) y).
Proof.
  intros alpha tol bs max_iter N penalty shuffle verbose perm X y w0 u m radius K NX HX Hu Hy HL Hp Hbs Hdiv Hm HM Hr HR HC Ha Ht HK HN HE. rewrite C66_perceptron_arguments.
  destruct (fit_learns (fun epoch => Ok (alpha * (1 / 2) ^ ((1 + epoch) / 10))) (fun epoch => alpha * (1 / 2) ^ ((1 + epoch) / 10)) alpha perm shuffle bs N tol max_iter X y w0 u m radius K) as (w & E & L & S); auto.
  - intro e. split; [reflexivity|]. assert (0 < (1 / 2) ^ ((1 + e) / 10) <= 1). { split; [apply pow_lt; lra|]. rewrite <- (pow1 ((1 + e) / 10)) at 2. apply pow_incr. lra. } split; [apply Rmult_lt_0_compat; lra|]. nra.
  - rewrite total_times. replace (alpha * total (map (fun e => (1 / 2) ^ ((1 + e) / 10)) (seq 0 K)) / alpha) with (total (map (fun e => (1 / 2) ^ ((1 + e) / 10)) (seq 0 K))) by (field; lra). exact HE.
  - exists w. split; [exact E|]. split; [exact S|]. rewrite C49_perceptron_predict by (auto; rewrite L; reflexivity). f_equal. clear - S HL Hy. revert y Hy HL S. induction X as [|x X IH]; intros [|b y] Hy HL S; cbn in Hy; try discriminate; [reflexivity|].
    cbn [map]. f_equal; [|apply IH; [lia|intros; apply HL; now right|intros x' b' H; apply S; now right]]. specialize (S x b ltac:(now left)). unfold linear_fun.
    destruct (HL b ltac:(now left)) as [-> | ->]; destruct (Rlt_dec 0 (dot x w)); destruct (Req_EM_T _ 1); try reflexivity; lra.
Qed.
Print Assumptions C73_learns.
(** Two samples on either side, weights that start on the wrong side. *)
Lemma two_points : [[1]; [-1]] <> ([] : list (list R)) /\ width 1 [[1]; [-1]] /\ (forall b, In b [1; -1] -> b = 1 \/ b = -1) /\ margin 1 [1] [[1]; [-1]] [1; -1] /\ (forall x, In x [[1]; [-1]] -> sqn x <= 1 * 1) /\ INR 2 * 1 <= 10 ^ 10 /\
  INR 2 * sqn [1] * (1 * 1) / (1 * 1) + 2 * sqrt (sqn [1]) * sqrt (sqn [-1 / 8]) / (1 * 1) < 3.
Proof.
  split; [discriminate|]. split; [intros x [<-|[<-|[]]]; reflexivity|]. split; [intros b [<-|[<-|[]]]; auto|]. split; [intros x b [E|[E|[]]]; injection E as <- <-; unfold dot, total; cbn; lra|].
  split; [intros x [<-|[<-|[]]]; unfold sqn, dot, total; cbn; lra|]. split; [cbn; lra|]. replace (sqn [1]) with (1 * 1) by (unfold sqn, dot, total; cbn; lra). replace (sqn [-1 / 8]) with (1 / 8 * (1 / 8)) by (unfold sqn, dot, total; cbn; lra).
  rewrite !sqrt_square by lra. cbn. lra.
Qed.
Example C73_learns_case : exists w, perceptron_object_fit (perceptron_new 1 0 (1 / 10) 2 8 5 "None" false false false) [0] [-1 / 8] (fun _ => []) [[1]; [-1]] [1; -1] = Ok w /\ separates w [[1]; [-1]] [1; -1].
Proof.
  destruct two_points as (T1 & T2 & T3 & T4 & T5 & T6 & T7).
  destruct (C73_learns 1 (1 / 10) 2 8 5 "None" false false (fun _ => []) [[1]; [-1]] [1; -1] [-1 / 8] [1] 1 1 3 T1 T2 eq_refl eq_refl T3 ltac:(discriminate) ltac:(lia) eq_refl ltac:(lra) T4 ltac:(lra) T5 T6 ltac:(lra) ltac:(lra) ltac:(lia) ltac:(lia)) as (w & E & S & _); [|eauto].
  eapply Rlt_le_trans; [exact T7|]. unfold total. cbn. lra.
Qed.
(** With a constant learning rate (decay factor 1) any separable data are learnt, given enough patience. *)
Theorem C73_constant_rate : forall alpha step tol bs max_iter N shuffle perm X y w0 u m radius,
  X <> [] -> width (length w0) X -> length u = length w0 -> length y = length X -> (forall b, In b y -> b = 1 \/ b = -1) -> (shuffle = true -> forall k, is_perm (length X) (perm k)) ->
  (0 < bs)%nat -> (length X mod bs = 0)%nat -> 0 < m -> margin m u X y -> 0 <= radius -> (forall x, In x X -> sqn x <= radius * radius) -> INR bs * radius <= 10 ^ 10 ->
  0 < alpha -> (0 < step)%nat -> 0 < tol -> INR bs * sqn u * (radius * radius) / (m * m) + 2 * sqrt (sqn u) * sqrt (sqn w0) / (alpha * m) < INR N -> (2 * N <= max_iter)%nat ->
  exists w, perceptron_fit (zeros (length w0)) w0 0 alpha 1 step perm shuffle bs N tol max_iter X y = Ok w /\ separates w X y.
Proof.
  intros alpha step tol bs max_iter N shuffle perm X y w0 u m radius NX HX Hu Hy HL Hp Hbs Hdiv Hm HM Hr HR HC Ha St Ht HE HN.
  destruct (fit_learns (step_decay alpha 1 step) (fun _ => alpha) alpha perm shuffle bs N tol max_iter X y w0 u m radius N) as (w & E & L & S); auto; try lia; [| |exists w; split; [exact E|exact S]].
  - intro e. unfold step_decay. destruct (Nat.eqb_spec step 0); [lia|]. rewrite pow1, Rmult_1_r. split; [reflexivity|lra].
  - rewrite Properties_Descent.total_const. replace (INR N * alpha / alpha) with (INR N) by (field; lra). exact HE.
Qed.
Print Assumptions C73_constant_rate.
Example C73_constant_rate_case : exists w, perceptron_fit [0] [-1 / 8] 0 1 1 10 (fun _ => []) false 2 3 (1 / 10) 6 [[1]; [-1]] [1; -1] = Ok w /\ separates w [[1]; [-1]] [1; -1].
Proof.
  destruct two_points as (T1 & T2 & T3 & T4 & T5 & T6 & T7).
  apply (C73_constant_rate 1 10 (1 / 10) 2 6 3 false (fun _ => []) [[1]; [-1]] [1; -1] [-1 / 8] [1] 1 1 T1 T2 eq_refl eq_refl T3 ltac:(discriminate) ltac:(lia) eq_refl ltac:(lra) T4 ltac:(lra) T5 T6 ltac:(lra) ltac:(lia) ltac:(lra)); [|lia].
  replace (INR 3) with 3 by (cbn; lra). exact T7.
Qed.
