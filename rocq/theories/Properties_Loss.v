(** Properties C30-C33: the loss functions and their gradients. *)
From Coq Require Import Reals Lra.
From Verif Require Import Base Common_Model RDR_Proofs KDReal_Proofs Impurity_Model Impurity_Spec Impurity_Proofs Vec MathFun_Model
  Loss_Model Loss_Spec Loss_Proofs LossHinge_Proofs LossSoftmax_Proofs.
Local Open Scope R_scope.

(** * C30: mean squared error *)
(** The value is (1/2n) sum (y_i - x_i.w)^2 + lambda |w|^2 / 2n. *)
Theorem C30_value : forall lambda X y W, shapes X y W -> mse_evaluate lambda X y W = Ok (mse_loss lambda X y W).
Proof.
  intros lambda X y W H. rewrite (mse_evaluate_glm lambda H). reflexivity.
Qed.
Print Assumptions C30_value.

(** The vector returned holds the partial derivatives of the value returned. *)
Theorem C30_gradient : forall lambda X y W, shapes X y W ->
  exists g, mse_gradient lambda X y W = Ok g /\ is_gradient (mse_evaluate lambda X y) W g.
Proof.
  intros lambda X y W H. eexists. split; [now apply mse_gradient_glm|].
  eapply glm_is_gradient; [exact mse_phi_derivable|assumption|]. intros V HV. apply mse_evaluate_glm.
  destruct H as (H1 & H2 & H3). repeat split; auto. now rewrite HV.
Qed.
Print Assumptions C30_gradient.

(** The loss lies above its tangents, so parameters with a zero gradient are a global minimum. *)
Theorem C30_minimum : forall lambda X y W V a b g, 0 <= lambda -> shapes X y W -> length V = length W ->
  mse_evaluate lambda X y W = Ok a -> mse_gradient lambda X y W = Ok g -> mse_evaluate lambda X y V = Ok b ->
  a + dot g (vsub V W) <= b.
Proof.
  intros lambda X y W V a b g Hl HS HV Ha Hg Hb.
  assert (HS' : shapes X y V) by (destruct HS as (H1 & H2 & H3); repeat split; auto; now rewrite HV).
  rewrite (mse_evaluate_glm lambda HS) in Ha. rewrite (mse_evaluate_glm lambda HS') in Hb. rewrite (mse_gradient_glm lambda HS) in Hg.
  injection Ha as <-. injection Hb as <-. injection Hg as <-. apply glm_below; auto.
  - unfold mse_c. left. apply Rinv_0_lt_compat. pose proof (lt_0_INR (length X)). destruct HS as (H1 & _). destruct X; [congruence|]. simpl in *. specialize (H ltac:(lia)). lra.
  - intros b x z _. unfold mse_phi, mse_dphi. pose proof (Rle_0_sqr (z - x)). unfold Rsqr in *. simpl. nra.
Qed.
Print Assumptions C30_minimum.

(** * C31: logistic loss *)
Theorem C31_value : forall lambda X y W, shapes X y W -> log_evaluate lambda X y W = Ok (log_loss lambda X y W).
Proof. intros lambda X y W H. rewrite (log_evaluate_glm lambda H). reflexivity. Qed.
Print Assumptions C31_value.

Theorem C31_gradient : forall lambda X y W, shapes X y W ->
  exists g, log_gradient lambda X y W = Ok g /\ is_gradient (log_evaluate lambda X y) W g.
Proof.
  intros lambda X y W H. eexists. split; [now apply log_gradient_glm|].
  eapply glm_is_gradient; [exact log_phi_derivable|assumption|]. intros V HV. apply log_evaluate_glm.
  destruct H as (H1 & H2 & H3). repeat split; auto. now rewrite HV.
Qed.
Print Assumptions C31_gradient.

Theorem C31_minimum : forall lambda X y W V a b g, 0 <= lambda -> shapes X y W -> length V = length W ->
  log_evaluate lambda X y W = Ok a -> log_gradient lambda X y W = Ok g -> log_evaluate lambda X y V = Ok b ->
  a + dot g (vsub V W) <= b.
Proof.
  intros lambda X y W V a b g Hl HS HV Ha Hg Hb.
  assert (HS' : shapes X y V) by (destruct HS as (H1 & H2 & H3); repeat split; auto; now rewrite HV).
  rewrite (log_evaluate_glm lambda HS) in Ha. rewrite (log_evaluate_glm lambda HS') in Hb. rewrite (log_gradient_glm lambda HS) in Hg.
  injection Ha as <-. injection Hb as <-. injection Hg as <-. apply glm_below; auto.
  - left. apply Rinv_0_lt_compat, lt_0_INR. destruct HS as (H1 & _). destruct X; [congruence|simpl; lia].
  - intros; apply log_phi_convex.
Qed.
Print Assumptions C31_minimum.

(** * C32: softmax loss *)
(** The value: mean negative log-likelihood plus lambda/2n times the sum over the features of the *squared row sum*
    of W (which is what the sum of all entries of W^T W comes to). *)
Theorem C32_value : forall K lambda X y W, shapes_mat K X y W ->
  softmax_evaluate K lambda X y W =
  Ok (softmax_data_loss K X y W + lambda * total (map (fun w => total w ^ 2) W) / (2 * INR (length X))).
Proof.
  intros K lambda X y W H. rewrite (softmax_evaluate_ok lambda H), (data_loss_spec H). f_equal. f_equal.
  destruct H as (H1 & _ & _ & H4 & _). rewrite gram_sum_rows by assumption.
  rewrite (total_ext (fun w => total w ^ 2) (fun w => total w * total w)) by (intros; ring). field.
  apply not_0_INR. destruct X; [congruence|discriminate].
Qed.
Print Assumptions C32_value.

(** Without a penalty, or with a single class, the gradient returned is that of the value returned. *)
Theorem C32_gradient : forall K lambda X y W, shapes_mat K X y W -> lambda = 0 \/ K = 1%nat ->
  exists g, softmax_gradient K lambda X y W = Ok g /\ is_gradient_mat (softmax_evaluate K lambda X y) W g.
Proof.
  intros K lambda X y W HS Hl. eexists. split; [now apply softmax_gradient_ok|]. split; [now rewrite map_length, combine_length, seq_length, Nat.min_id|].
  intros j w gj Hw Hg. destruct (softmax_gradient_row lambda j HS Hw) as (g & E1 & _ & E2). rewrite (softmax_gradient_ok lambda HS) in E1. injection E1 as <-.
  rewrite Hg in E2. injection E2 as ->. pose proof HS as (H1 & H2 & H3 & H4 & H5 & H6).
  assert (HwK : length w = K) by (apply H4; eapply nth_error_In; eauto).
  assert (HG : length (sm_grad_row K lambda X y W j w) = length w).
  { unfold sm_grad_row. rewrite vadd_length; rewrite ?vscale_length, vsum_length; auto; apply width_scaled; intros r Hr; apply in_map_iff in Hr;
      destruct Hr as (p & <- & _); rewrite residual_length; now apply zrow_length. }
  split; [assumption|]. intros k a b Ha Hb. destruct (softmax_evaluate_derivable lambda j k HS Hw Ha) as (f & Hf & Hd). exists f. split; [assumption|].
  assert (Hk : (k < K)%nat) by (rewrite <- HwK; apply nth_error_Some; congruence).
  assert (Eb : b = nth k (sm_grad_row K lambda X y W j w) 0) by (symmetry; now apply nth_error_nth).
  rewrite sm_grad_entry in Eb by assumption. subst b. eapply derivable_val; [exact Hd|]. f_equal. destruct Hl as [-> | ->]; [lra|].
  f_equal. destruct w as [|w0 [|w1 w]]; simpl in HwK; try lia. destruct k; [simpl; lra|lia].
Qed.
Print Assumptions C32_gradient.

(** Parameters with a zero gradient minimise the unpenalised loss. *)
Theorem C32_minimum : forall K X y W V a b g, shapes_mat K X y W -> width K V -> length V = length W ->
  softmax_evaluate K 0 X y W = Ok a -> softmax_gradient K 0 X y W = Ok g -> softmax_evaluate K 0 X y V = Ok b ->
  a + total (map2 (fun gj p => dot gj (vsub (fst p) (snd p))) g (combine V W)) <= b.
Proof.
  intros K X y W V a b g HS HV HL Ha Hg Hb.
  assert (HS' : shapes_mat K X y V) by (destruct HS as (H1 & H2 & H3 & H4 & H5 & H6); repeat split; auto; now rewrite HL).
  rewrite (softmax_evaluate_ok 0 HS) in Ha. rewrite (softmax_evaluate_ok 0 HS') in Hb. injection Ha as <-. injection Hb as <-.
  rewrite !Rmult_0_r, !Rplus_0_r. now apply softmax_below.
Qed.
Print Assumptions C32_minimum.

(** With a penalty the gradient returned is the derivative of the value returned only where every entry of W equals
    its row sum: one entry that differs is enough for a wrong partial derivative. *)
Theorem C32_penalty_refuted : forall K lambda X y W j w k a, shapes_mat K X y W -> lambda <> 0 ->
  nth_error W j = Some w -> nth_error w k = Some a -> a <> total w ->
  exists g, softmax_gradient K lambda X y W = Ok g /\ ~ is_gradient_mat (softmax_evaluate K lambda X y) W g.
Proof.
  intros K lambda X y W j w k a HS Hl Hw Ha Hne. destruct (softmax_gradient_row lambda j HS Hw) as (g & E1 & _ & E2).
  exists g. split; [assumption|]. intros (_ & HG). destruct (HG j w _ Hw E2) as (HL & HG'). clear HG.
  pose proof HS as (H1 & H2 & H3 & H4 & H5 & H6).
  assert (HwK : length w = K) by (apply H4; eapply nth_error_In; eauto).
  assert (Hk : (k < K)%nat) by (rewrite <- HwK; apply nth_error_Some; congruence).
  destruct (HG' k a (nth k (sm_grad_row K lambda X y W j w) 0) Ha) as (f & Hf & Hd). { apply nth_error_some. lia. }
  destruct (softmax_evaluate_derivable lambda j k HS Hw Ha) as (f' & Hf' & Hd').
  assert (E : forall t, f t = f' t) by (intros t; specialize (Hf t); rewrite Hf' in Hf; congruence).
  apply (derivable_ext _ E) in Hd. pose proof (uniqueness_limite _ _ _ _ Hd Hd') as Q. rewrite sm_grad_entry in Q by assumption.
  rewrite (nth_error_nth _ _ 0 Ha) in Q. apply Hne.
  assert (Hn : INR (length X) <> 0) by (apply not_0_INR; destruct X; [congruence|discriminate]).
  apply Rmult_eq_reg_l with (lambda / INR (length X)); [lra|]. apply Rmult_integral_contrapositive_currified; [assumption|now apply Rinv_neq_0_compat].
Qed.
Print Assumptions C32_penalty_refuted.

(** * C33: hinge and Huber losses *)
Theorem C33_hinge_value : forall lambda threshold X y W, shapes X y W ->
  hinge_evaluate lambda threshold X y W = Ok (hinge_loss threshold lambda X y W).
Proof.
  intros lambda th X y W H. rewrite (hinge_evaluate_glm th lambda H). f_equal. unfold glm, hinge_loss. rewrite Rmult_1_r. reflexivity.
Qed.
Print Assumptions C33_hinge_value.

(** What the hinge gradient returns is what its freshly allocated memory held, plus a subgradient of the loss. *)
Theorem C33_hinge_subgradient : forall lambda threshold X y W, 0 <= lambda -> shapes X y W ->
  exists s, (forall memory, length memory = length W -> hinge_gradient memory lambda threshold X y W = Ok (vadd memory s)) /\
    length s = length W /\
    forall V a b, length V = length W -> hinge_evaluate lambda threshold X y W = Ok a -> hinge_evaluate lambda threshold X y V = Ok b ->
    a + dot s (vsub V W) <= b.
Proof.
  intros lambda th X y W Hl HS. exists (glm_grad (hinge_dphi th) 1 lambda X y W). repeat split.
  - intros memory Hm. now apply hinge_gradient_glm.
  - now apply glm_grad_length.
  - intros V a b HV Ha Hb.
    assert (HS' : shapes X y V) by (destruct HS as (H1 & H2 & H3); repeat split; auto; now rewrite HV).
    rewrite (hinge_evaluate_glm th lambda HS) in Ha. rewrite (hinge_evaluate_glm th lambda HS') in Hb. injection Ha as <-. injection Hb as <-.
    apply glm_below; auto; [lra|]. intros; apply hinge_phi_convex.
Qed.
Print Assumptions C33_hinge_subgradient.

(** So the same call may return any vector whatever: the gradient is not a function of its arguments. *)
Theorem C33_hinge_refuted : forall lambda threshold X y W g, shapes X y W -> length g = length W ->
  exists memory, length memory = length W /\ hinge_gradient memory lambda threshold X y W = Ok g.
Proof.
  intros lambda th X y W g HS Hg. pose proof (glm_grad_length (hinge_dphi th) 1 lambda HS) as HL.
  exists (vsub g (glm_grad (hinge_dphi th) 1 lambda X y W)).
  assert (HM : length (vsub g (glm_grad (hinge_dphi th) 1 lambda X y W)) = length W) by (rewrite vsub_length; congruence).
  split; [assumption|]. rewrite hinge_gradient_glm by assumption. f_equal. revert HL Hg. generalize (glm_grad (hinge_dphi th) 1 lambda X y W). intros s HL Hg.
  rewrite <- Hg in HL. clear -HL. revert s HL. unfold vadd, vsub. induction g as [|a g IH]; intros [|b s] H; simpl in *; try lia; auto. rewrite IH by lia. f_equal. lra.
Qed.
Print Assumptions C33_hinge_refuted.

(** One sample x = 1, y = 0: the Huber gradient is not the derivative of the Huber value ... *)
Theorem C33_huber_refuted : forall delta w, 0 < w -> w < delta -> w <> 1 / 2 ->
  exists g, huber_gradient 0 delta [[1]] [0] [w] = Ok g /\ ~ is_gradient (huber_evaluate 0 delta [[1]] [0]) [w] g.
Proof.
  intros delta w H1 H2 H3. exists [w]. split; [apply huber_grad_one; lra|now apply huber_not_gradient].
Qed.
Print Assumptions C33_huber_refuted.

(** ... and the value is not the documented Huber loss of the residual. *)
Theorem C33_huber_value_refuted : forall delta w, 0 < w -> w < delta -> w <> 1 ->
  exists a, huber_evaluate 0 delta [[1]] [0] [w] = Ok a /\ a <> huber1 delta (0 - dot [1] [w]).
Proof.
  intros delta w H1 H2 H3. exists (w / 2). split; [apply huber_eval_one; lra|]. unfold huber1, dot. simpl. 
  replace (0 - (1 * w + 0)) with (- w) by ring. rewrite Rabs_Ropp, Rabs_right by lra. destruct (Rle_dec w delta); [|lra].
  intros E. apply H3. nra.
Qed.
Print Assumptions C33_huber_value_refuted.

Lemma seq_total_ext K (f g : nat -> R) : (forall j, (j < K)%nat -> f j = g j) -> total (map f (seq 0 K)) = total (map g (seq 0 K)).
Proof. intro H. f_equal. apply map_ext_in. intros j Hj. apply in_seq in Hj. apply H. lia. Qed.
Lemma map2_by_nth {A B C} (a0 : A) (b0 : B) (f : A -> B -> C) : forall u v, length u = length v -> map2 f u v = map (fun i => f (nth i u a0) (nth i v b0)) (seq 0 (length u)).
Proof. induction u as [|a u IH]; intros [|b v] H; try discriminate; [reflexivity|]. cbn [map2 length seq map nth]. f_equal. rewrite <- seq_shift, map_map. apply IH. now injection H. Qed.
(** What the Huber gradient is instead, for all data: when the norm of all the residuals together is at most delta, the
    gradient of the mean squared error; otherwise delta times the mean of the rows with the signs of the residuals.  The
    penalty is added to both. *)
Theorem C33_huber_gradient : forall lambda delta X y W, shapes X y W ->
  let n := INR (length X) in
  let residual := fun i => dot (nth i X []) W - nth i y 0 in
  let norm := sqrt (total (map (fun i => residual i ^ 2) (seq 0 (length X)))) in
  exists g, huber_gradient lambda delta X y W = Ok g /\ length g = length W /\
    (norm <= delta -> mse_gradient lambda X y W = Ok g) /\
    (delta < norm -> forall j, (j < length W)%nat -> nth j g 0 = delta / n * total (map (fun i => (if Rlt_dec 0 (residual i) then 1 else if Rlt_dec (residual i) 0 then -1 else 0) * nth j (nth i X []) 0) (seq 0 (length X))) + lambda / n * nth j W 0).
Proof.
  intros lambda delta X y W HS n residual norm. assert (HS' := HS). destruct HS' as (NE & HW & Ly).
  assert (LM : length (map (fun x => dot x W) X) = length X) by apply map_length. assert (LD : length (vsub (map (fun x => dot x W) X) y) = length X) by (rewrite vsub_length; congruence).
  assert (RES : forall i, (i < length X)%nat -> nth i (vsub (map (fun x => dot x W) X) y) 0 = residual i).
  { intros i Hi. rewrite nth_vsub by congruence. f_equal. rewrite (nth_indep _ 0 (dot [] W)) by lia. now rewrite (map_nth (fun x => dot x W)). }
  assert (EN : norm2 (vsub y (map (fun x => dot x W) X)) = norm).
  { unfold norm2, norm. f_equal. rewrite Rsum_total. assert (LV : length (vsub y (map (fun x => dot x W) X)) = length X) by (rewrite vsub_length; congruence).
    rewrite (list_as_nths 0 (vsub y (map (fun x => dot x W) X))), map_map, LV. apply seq_total_ext. intros i Hi. rewrite nth_vsub by congruence. rewrite (nth_indep (map (fun x => dot x W) X) 0 (dot [] W)) by lia. rewrite (map_nth (fun x => dot x W)). unfold residual. ring. }
  unfold huber_gradient, mse_gradient. rewrite mv_ok by auto. cbn [bind]. rewrite !sub_ok by congruence. cbn [bind]. rewrite EN, (cols_ok HS). destruct (Rltb delta norm) eqn:C; cbn [negb].
  - apply Rltb_true in C. rewrite !tmv_ok by (rewrite ?map_length; congruence). cbn [bind]. set (t := vsum (length W) (map2 vscale (map Rsign (vsub (map (fun x => dot x W) X) y)) X)).
    assert (Lt : length t = length W) by (apply vsum_length, width_scaled; auto). rewrite with_reg_ok by (now rewrite map_length). eexists. split; [reflexivity|]. split; [rewrite vadd_length; rewrite ?vscale_length, ?map_length; auto|]. split; [intro; lra|]. intros _ j Hj.
    rewrite nth_vadd by (rewrite ?vscale_length, ?map_length; auto). rewrite nth_vscale. f_equal. rewrite (nth_indep _ 0 (0 * (delta / INR (length X)))) by (rewrite map_length; lia). rewrite (map_nth (fun a => a * (delta / INR (length X)))). rewrite Rmult_comm. f_equal.
    unfold t. rewrite nth_vsum by (auto; now apply width_scaled). rewrite (@map2_by_nth R (list R) (list R) 0 []) by (rewrite map_length; congruence). rewrite map_map. rewrite map_length, LD. apply seq_total_ext. intros i Hi. rewrite nth_vscale. f_equal.
    rewrite (nth_indep _ 0 (Rsign 0)) by (rewrite map_length; lia). rewrite map_nth, RES by auto. unfold Rsign. destruct (Rlt_dec 0 (residual i)) as [P|P].
    + apply Rltb_true in P. now rewrite P.
    + destruct (Rltb 0 (residual i)) eqn:F; [apply Rltb_true in F; lra|]. destruct (Rlt_dec (residual i) 0) as [Q|Q]; [apply Rltb_true in Q; now rewrite Q|]. destruct (Rltb (residual i) 0) eqn:G; [apply Rltb_true in G; lra|reflexivity].
  - apply Rltb_false in C. rewrite !tmv_ok by congruence. cbn [bind]. rewrite with_reg_ok by (rewrite map_length; apply vsum_length, width_scaled; auto). eexists. split; [reflexivity|]. split; [|split; [reflexivity|intro; lra]].
    rewrite vadd_length; rewrite map_length, ?vscale_length; apply vsum_length, width_scaled; auto.
Qed.
Print Assumptions C33_huber_gradient.

(** * The hypotheses are met *)
Definition X0 : list (list R) := [[1; 2]; [0; 1]; [3; 1]].
Example loss_case : shapes X0 [1; 0; 1] [1/2; -1].
Proof. repeat split; [discriminate|intros x [<-|[<-|[<-|[]]]]; reflexivity]. Qed.
Example softmax_case : shapes_mat 3 X0 [0; 2; 1]%nat [[1; 2; 3]; [0; 1; -1]] /\
  exists w a, nth_error [[1; 2; 3]; [0; 1; -1]] 0 = Some w /\ nth_error w 1 = Some a /\ a <> total w.
Proof.
  split.
  - repeat split; try discriminate; try lia; intros x; simpl; intuition (subst; simpl; try reflexivity; lia).
  - exists [1; 2; 3], 2. repeat split. simpl. lra.
Qed.
Example huber_case : 0 < 1 / 4 /\ 1 / 4 < 1 /\ 1 / 4 <> 1 / 2 /\ 1 / 4 <> 1.
Proof. lra. Qed.

(** The other theorems on the data of [loss_case] and [softmax_case]. *)
Example C30_value_case := C30_value 1 _ _ _ loss_case.
Example C30_gradient_case := C30_gradient 1 _ _ _ loss_case.
Example C31_value_case := C31_value 1 _ _ _ loss_case.
Example C31_gradient_case := C31_gradient 1 _ _ _ loss_case.
Lemma loss_case2 : shapes X0 [1; 0; 1] [3; 4].
Proof. split; [discriminate|]. split; [|reflexivity]. intros r [<-|[<-|[<-|[]]]]; reflexivity. Qed.
Example C30_minimum_case : exists g, mse_gradient 1 X0 [1; 0; 1] [1/2; -1] = Ok g /\
  mse_loss 1 X0 [1; 0; 1] [1/2; -1] + dot g (vsub [3; 4] [1/2; -1]) <= mse_loss 1 X0 [1; 0; 1] [3; 4].
Proof.
  destruct C30_gradient_case as (g & E & _). exists g. split; [exact E|].
  exact (C30_minimum 1 X0 [1; 0; 1] [1/2; -1] [3; 4] _ _ g ltac:(lra) loss_case eq_refl (C30_value 1 _ _ _ loss_case) E (C30_value 1 _ _ _ loss_case2)).
Qed.
Example C31_minimum_case : exists g, log_gradient 1 X0 [1; 0; 1] [1/2; -1] = Ok g /\
  log_loss 1 X0 [1; 0; 1] [1/2; -1] + dot g (vsub [3; 4] [1/2; -1]) <= log_loss 1 X0 [1; 0; 1] [3; 4].
Proof.
  destruct C31_gradient_case as (g & E & _). exists g. split; [exact E|].
  exact (C31_minimum 1 X0 [1; 0; 1] [1/2; -1] [3; 4] _ _ g ltac:(lra) loss_case eq_refl (C31_value 1 _ _ _ loss_case) E (C31_value 1 _ _ _ loss_case2)).
Qed.
Example C32_value_case := C32_value 3 1 _ _ _ (proj1 softmax_case).
Example C32_gradient_case := C32_gradient 3 0 _ _ _ (proj1 softmax_case) (or_introl eq_refl).
Lemma softmax_case2 : shapes_mat 3 X0 [0; 2; 1]%nat [[0; 1; 0]; [2; 1; 5]].
Proof.
  split; [discriminate|]. split; [lia|]. split; [intros r [<-|[<-|[<-|[]]]]; reflexivity|]. split; [intros r [<-|[<-|[]]]; reflexivity|].
  split; [reflexivity|]. intros c [<-|[<-|[<-|[]]]]; lia.
Qed.
Example C32_minimum_case : exists g b, softmax_gradient 3 0 X0 [0; 2; 1]%nat [[1; 2; 3]; [0; 1; -1]] = Ok g /\
  softmax_evaluate 3 0 X0 [0; 2; 1]%nat [[0; 1; 0]; [2; 1; 5]] = Ok b /\ exists a, a + total (map2 (fun gj p => dot gj (vsub (fst p) (snd p))) g (combine [[0; 1; 0]; [2; 1; 5]] [[1; 2; 3]; [0; 1; -1]])) <= b.
Proof.
  destruct C32_gradient_case as (g & E & _). exists g. eexists. split; [exact E|]. split; [apply C32_value, softmax_case2|]. eexists.
  refine (C32_minimum 3 X0 [0; 2; 1]%nat [[1; 2; 3]; [0; 1; -1]] [[0; 1; 0]; [2; 1; 5]] _ _ g (proj1 softmax_case) _ eq_refl (C32_value 3 0 _ _ _ (proj1 softmax_case)) E (C32_value 3 0 _ _ _ softmax_case2)).
  intros r [<-|[<-|[]]]; reflexivity.
Qed.
Example C33_hinge_value_case := C33_hinge_value 1 1 _ _ _ loss_case.
Example C33_hinge_subgradient_case := C33_hinge_subgradient 1 1 _ _ _ ltac:(lra) loss_case.
Example C33_huber_gradient_case := C33_huber_gradient 1 1 _ _ _ loss_case.
