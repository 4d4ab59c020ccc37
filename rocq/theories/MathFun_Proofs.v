From Coq Require Import Reals Lra.
From Verif Require Import Base KDReal_Proofs Impurity_Model Impurity_Spec Impurity_Proofs Vec MathFun_Model Loss_Model Loss_Spec Loss_Proofs LossHinge_Proofs
  LossSoftmax_Proofs Stats_Model Stats_Spec Stats_Proofs.
Local Open Scope R_scope.
Set Implicit Arguments.

Lemma logistic_monotone a b : a < b -> logistic a < logistic b.
Proof.
  intros H. unfold logistic. pose proof (exp_pos (- a)). pose proof (exp_pos (- b)). pose proof (exp_increasing (- b) (- a) ltac:(lra)).
  unfold Rdiv. rewrite !Rmult_1_l. apply Rinv_lt_contravar; [|lra]. apply Rmult_lt_0_compat; lra.
Qed.
Lemma logistic_symmetric a : logistic (- a) = 1 - logistic a.
Proof.
  unfold logistic. rewrite Ropp_involutive. rewrite (exp_Ropp a). pose proof (exp_pos a). field. split; lra.
Qed.

(** * Rows *)
Lemma max_coeff_rows x : (forall r, In r x -> r <> []) -> exists c, mapM max_coeff x = Ok c /\ length c = length x.
Proof.
  intros H. exists (map (fun r => fold_left Rmax (tl r) (hd 0 r)) x). split; [|now rewrite map_length]. apply mapM_map. intros r Hr.
  specialize (H r Hr). destruct r; [congruence|reflexivity].
Qed.
Lemma softmax_row r m : r <> [] -> (let e := map exp (map (fun b => b - m) r) in map (fun b => b / Rsum e) e) = softmax_of r.
Proof.
  intros H. cbv zeta. rewrite Rsum_total. rewrite !(map_map (fun b => b - m) exp). rewrite map_map. unfold softmax_of. apply map_ext. intros a. now apply softmax_shift.
Qed.
Lemma softmax_rows x : forall c, (forall r, In r x -> r <> []) -> length c = length x ->
  (let e := map2 (fun r a => map exp (map (fun b => b - a) r)) x c in map2 (fun r s => map (fun b => b / s) r) e (map Rsum e)) = map softmax_of x.
Proof.
  cbv zeta. induction x as [|r x IH]; intros [|m c] H HL; simpl in HL; try lia; [reflexivity|]. simpl.
  rewrite IH by (auto; intros; apply H; now right). f_equal. apply softmax_row. apply H. now left.
Qed.
Lemma lse_shift v m : v <> [] -> ln (total (map (fun b => exp (b - m)) v)) + m = lse_of v.
Proof.
  intros H. unfold lse_of. rewrite exp_shift, total_scal. rewrite ln_mult; [|apply exp_pos|now apply total_exp_pos]. rewrite ln_exp. ring.
Qed.
Lemma lse_rows x : forall c, (forall r, In r x -> r <> []) -> length c = length x ->
  vadd (map2 (fun r a => ln (Rsum (map (fun b => exp (b - a)) r))) x c) c = map lse_of x.
Proof.
  unfold vadd. induction x as [|r x IH]; intros [|m c] H HL; simpl in HL; try lia; [reflexivity|]. simpl.
  rewrite IH by (auto; intros; apply H; now right). f_equal. rewrite Rsum_total. apply lse_shift. apply H. now left.
Qed.

(** * Columns *)
Lemma col_max_ok nc x : x <> [] -> width nc x -> exists c, col_max x = Ok c /\ length c = nc.
Proof.
  intros Hx HW. destruct x as [|r x]; [congruence|]. apply width_cons in HW. destruct HW as (H1 & H2). simpl. eexists. split; [reflexivity|].
  clear Hx. revert r H1. induction x as [|s x IH]; intros r H1; simpl; [assumption|]. apply width_cons in H2. destruct H2 as (H2 & H3). apply IH; [assumption|].
  rewrite map2_length; congruence.
Qed.
Lemma nth_exp_sub r c j : length r = length c -> (j < length r)%nat -> nth j (exp_sub r c) 0 = exp (nth j r 0 - nth j c 0).
Proof.
  intros H Hj. unfold exp_sub. rewrite (nth_indep _ 0 (exp 0)) by (rewrite map_length, vsub_length; auto). rewrite map_nth. now rewrite nth_vsub.
Qed.
Lemma exp_sub_length r c : length r = length c -> length (exp_sub r c) = length r.
Proof. intros H. unfold exp_sub. now rewrite map_length, vsub_length. Qed.
Lemma width_exp_sub nc c x : width nc x -> length c = nc -> width nc (map (fun r => exp_sub r c) x).
Proof. intros HW Hc r Hr. apply in_map_iff in Hr. destruct Hr as (r' & <- & Hr). rewrite exp_sub_length; rewrite (HW r' Hr); auto. Qed.
Lemma col_exp_sub nc c x j : width nc x -> length c = nc -> (j < nc)%nat ->
  col j (map (fun r => exp_sub r c) x) = map (fun a => exp (a - nth j c 0)) (col j x).
Proof.
  intros HW Hc Hj. unfold col. rewrite !map_map. apply map_ext_in. intros r Hr. apply nth_exp_sub; rewrite (HW r Hr); auto.
Qed.
Lemma nth_map2_div r d j : length r = length d -> nth j (map2 Rdiv r d) 0 = nth j r 0 / nth j d 0.
Proof.
  revert d j. induction r as [|a r IH]; intros [|b d] j H; simpl in H; try lia; [destruct j; simpl; unfold Rdiv; ring|].
  destruct j; simpl; [reflexivity|]. apply IH. lia.
Qed.
Lemma cols_of_eq nc (F : list R -> list R) x y : (forall j, (j < nc)%nat -> col j y = F (col j x)) -> cols_of nc y = map F (cols_of nc x).
Proof. intros H. unfold cols_of. rewrite map_map. apply map_ext_in. intros j Hj. apply in_seq in Hj. apply H. lia. Qed.
Lemma softmax_cols nc x c : x <> [] -> width nc x -> length c = nc ->
  let e := map (fun r => exp_sub r c) x in
  let y := map (fun r => map2 Rdiv r (col_sum nc e)) e in
  shape (length x) nc y /\ cols_of nc y = map softmax_of (cols_of nc x).
Proof.
  intros Hx HW Hc e y. assert (HE : width nc e) by now apply width_exp_sub.
  assert (HD : length (col_sum nc e) = nc) by now apply col_sum_length. split.
  - split; [unfold y, e; now rewrite !map_length|]. intros r Hr. unfold y in Hr. apply in_map_iff in Hr. destruct Hr as (r' & <- & Hr').
    rewrite map2_length by (rewrite HD; now apply HE). now apply HE.
  - apply cols_of_eq. intros j Hj. unfold y. unfold col at 1. rewrite map_map.
    transitivity (map (fun r => nth j r 0 / nth j (col_sum nc e) 0) e).
    + apply map_ext_in. intros r Hr. apply nth_map2_div. rewrite HD. now apply HE.
    + rewrite col_sum_nth by assumption. rewrite <- (map_map (fun r => nth j r 0) (fun a => a / total (col j e))). fold (col j e).
      unfold e. rewrite (@col_exp_sub nc c x j HW Hc Hj). rewrite map_map. unfold softmax_of. apply map_ext. intros a. apply softmax_shift.
      unfold col. destruct x; [congruence|discriminate].
Qed.
Lemma lse_cols nc x c : x <> [] -> width nc x -> length c = nc ->
  vadd (map ln (col_sum nc (map (fun r => exp_sub r c) x))) c = map lse_of (cols_of nc x).
Proof.
  intros Hx HW Hc. set (e := map (fun r => exp_sub r c) x). assert (HE : width nc e) by now apply width_exp_sub.
  rewrite (list_as_nths 0 c) at 1. rewrite Hc. rewrite col_sum_spec by assumption. unfold cols_of. rewrite !map_map.
  assert (G : forall l, (forall j, In j l -> (j < nc)%nat) ->
     vadd (map (fun j => ln (total (col j e))) l) (map (fun j => nth j c 0) l) = map (fun j => lse_of (col j x)) l).
  { induction l as [|j l IH]; intros Hl; [reflexivity|]. unfold vadd in *. simpl. rewrite IH by (intros; apply Hl; now right). f_equal.
    unfold e. rewrite (@col_exp_sub nc c x j HW Hc (Hl j (or_introl eq_refl))). apply lse_shift. unfold col. destruct x; [congruence|discriminate]. }
  apply G. intros j Hj. apply in_seq in Hj. lia.
Qed.

(** * Everything *)
Lemma concat_map_map {A B} (f : A -> B) x : concat (map (map f) x) = map f (concat x).
Proof. symmetry. apply concat_map. Qed.
Lemma total_concat x : Rsum (map Rsum x) = total (concat x).
Proof. rewrite Rsum_total. induction x as [|r x IH]; simpl; [reflexivity|]. rewrite total_app, <- IH. now rewrite Rsum_total. Qed.

(** * Softmax is a probability distribution *)
Lemma softmax_of_total v : v <> [] -> total (softmax_of v) = 1.
Proof.
  intros H. unfold softmax_of. rewrite (total_ext _ (fun a => / total (map exp v) * exp a)) by (intros; unfold Rdiv; ring).
  rewrite total_scal. apply Rinv_l. apply Rgt_not_eq, total_exp_pos, H.
Qed.
Lemma total_member l a : (forall b, In b l -> 0 <= b) -> In a l -> a <= total l.
Proof.
  induction l as [|b l IH]; intros H Ha; simpl; [destruct Ha|].
  assert (0 <= total l) by (rewrite <- (map_id l); apply total_nonneg; intros; apply H; now right).
  destruct Ha as [->|Ha]; [lra|]. pose proof (IH (fun b Hb => H b (or_intror Hb)) Ha). pose proof (H b (or_introl eq_refl)). lra.
Qed.
Lemma softmax_of_bounds v a : In a (softmax_of v) -> 0 < a <= 1.
Proof.
  intros H. assert (Hv : v <> []) by (intros ->; destruct H).
  assert (P : forall b, In b (softmax_of v) -> 0 < b).
  { intros b Hb. unfold softmax_of in Hb. apply in_map_iff in Hb. destruct Hb as (c & <- & _). apply Rdiv_lt_0_compat; [apply exp_pos|now apply total_exp_pos]. }
  split; [auto|]. rewrite <- (softmax_of_total Hv). apply total_member; [|assumption]. intros b Hb. left. auto.
Qed.
Lemma softmax_of_shift v c : softmax_of (map (fun a => c + a) v) = softmax_of v.
Proof.
  destruct v as [|a v]; [reflexivity|]. unfold softmax_of. rewrite !map_map. apply map_ext. intros b.
  rewrite <- (softmax_shift (z := a :: v) (- c) b) by discriminate.
  rewrite (total_ext (fun x => exp (c + x)) (fun x => exp (x - - c))) by (intros; f_equal; ring). f_equal. f_equal. ring.
Qed.
Lemma softmax_of_order v i j : (i < length v)%nat -> (j < length v)%nat -> nth i v 0 < nth j v 0 -> nth i (softmax_of v) 0 < nth j (softmax_of v) 0.
Proof.
  intros Hi Hj H. unfold softmax_of. set (f := fun a => exp a / total (map exp v)).
  rewrite !(nth_indep (map f v) 0 (f 0)) by (rewrite map_length; assumption). rewrite !(map_nth f). unfold f, Rdiv.
  apply Rmult_lt_compat_r; [|now apply exp_increasing]. apply Rinv_0_lt_compat, total_exp_pos. destruct v; [simpl in Hi; lia|discriminate].
Qed.
(** The maximum, and at most ln(size) more. *)
Lemma lse_bounds v m : In m v -> (forall a, In a v -> a <= m) -> m <= lse_of v <= m + ln (INR (length v)).
Proof.
  intros Hm Hle. assert (Hv : v <> []) by (intros ->; destruct Hm). unfold lse_of. pose proof (INR_pos Hv) as Hn. split.
  - rewrite <- (ln_exp m) at 1. apply ln_le_compat; [apply exp_pos|]. apply total_member.
    + intros b Hb. apply in_map_iff in Hb. destruct Hb as (c & <- & _). left. apply exp_pos.
    + now apply in_map.
  - rewrite <- (ln_exp m) at 1. rewrite <- ln_mult by (auto; apply exp_pos). apply ln_le_compat; [now apply total_exp_pos|].
    rewrite Rmult_comm, <- total_const. apply total_le. intros a Ha. destruct (Hle a Ha) as [L| ->]; [left; now apply exp_increasing|lra].
Qed.
