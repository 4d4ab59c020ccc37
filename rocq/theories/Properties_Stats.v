(** C44: descriptive statistics.  Axis 0 works down the columns, axis 1 along the rows, axis -1 on all entries. *)
From Coq Require Import Reals Lra.
From Verif Require Import Base KDReal_Proofs Impurity_Spec Impurity_Proofs Vec MathFun_Model Stats_Model Stats_Spec Loss_Proofs LossSoftmax_Proofs Stats_Proofs.
Local Open Scope R_scope.

Theorem C44_sum : forall nr nc x, shape nr nc x ->
  sum nc x 0 = Ok [map total (cols_of nc x)] /\ sum nc x 1 = Ok (map (fun r => [total r]) x) /\ sum nc x (-1) = Ok [[total (concat x)]].
Proof.
  intros nr nc x (H1 & H2). unfold sum. cbn [Z.eqb Pos.eqb]. rewrite Rsum_total, col_sum_spec by assumption. repeat split. f_equal. apply map_ext. intros r.
  now rewrite Rsum_total.
Qed.
Print Assumptions C44_sum.
Lemma sh32 : shape 3 2 [[1; 4]; [3; 4]; [2; 10]].
Proof. split; [reflexivity|]. intros r [<-|[<-|[<-|[]]]]; reflexivity. Qed.
Example C44_sum_case := C44_sum 3 2 [[1; 4]; [3; 4]; [2; 10]] sh32.
Theorem C44_mean : forall nr nc x, shape nr nc x ->
  mean nc x 0 = Ok [map avg (cols_of nc x)] /\ mean nc x 1 = Ok (map (fun r => [avg r]) x) /\ mean nc x (-1) = Ok [[avg (concat x)]].
Proof.
  intros nr nc x (H1 & H2). unfold mean. cbn [Z.eqb Pos.eqb]. rewrite mean1_avg, col_means_spec by assumption. repeat split. f_equal. apply map_ext. intros r.
  now rewrite mean1_avg.
Qed.
Print Assumptions C44_mean.

(** The variance is the mean squared deviation from the mean, hence nonnegative, and zero just for constant data. *)
Theorem C44_var : forall nr nc x, (0 < nr)%nat -> (0 < nc)%nat -> shape nr nc x ->
  var nc x 0 = Ok [map mean_sq_dev (cols_of nc x)] /\ var nc x 1 = Ok (map (fun r => [mean_sq_dev r]) x) /\
  var nc x (-1) = Ok [[mean_sq_dev (concat x)]].
Proof.
  intros nr nc x Hr Hc (H1 & H2). unfold var. cbn [Z.eqb Pos.eqb].
  assert (Hx : x <> []) by (intros ->; simpl in H1; lia).
  assert (HN : forall r, In r x -> r <> []). { intros r Hin ->. apply H2 in Hin. simpl in Hin. lia. }
  assert (HC : concat x <> []).
  { destruct x as [|r x]; [congruence|]. simpl. intros E. apply app_eq_nil in E. destruct E as (-> & _). now apply (HN []); [left|]. }
  rewrite var0_spec by assumption. repeat split.
  - f_equal. rewrite !map_map, vsub_maps, map_map. apply map_ext_in. intros r Hin. rewrite !mean1_avg. unfold sq at 2. rewrite var_formula; auto.
  - rewrite !mean1_avg. rewrite <- var_formula by assumption. f_equal. f_equal. f_equal. simpl. ring.
Qed.
Print Assumptions C44_var.
Theorem C44_var_nonneg : forall nr nc x axis v r a, (0 < nr)%nat -> (0 < nc)%nat -> shape nr nc x -> var nc x axis = Ok v -> In r v -> In a r -> 0 <= a.
Proof.
  intros nr nc x axis v r a Hr Hc HS Hv Hin Ha. destruct (C44_var nr nc x Hr Hc HS) as (E0 & E1 & E2). destruct HS as (H1 & H2).
  assert (Hx : x <> []) by (intros ->; simpl in H1; lia).
  assert (HN : forall r, In r x -> r <> []). { intros r' Hin' ->. apply H2 in Hin'. simpl in Hin'. lia. }
  unfold var in Hv. destruct (Z.eqb_spec axis 0) as [->|N0].
  { unfold var in E0. cbn [Z.eqb] in E0. rewrite E0 in Hv. injection Hv as <-. destruct Hin as [<-|[]]. apply in_map_iff in Ha. destruct Ha as (c & <- & Hc').
    apply mean_sq_dev_nonneg. unfold cols_of in Hc'. apply in_map_iff in Hc'. destruct Hc' as (j & <- & _). unfold col. destruct x; [congruence|discriminate]. }
  destruct (Z.eqb_spec axis 1) as [->|N1].
  { unfold var in E1. cbn [Z.eqb Pos.eqb] in E1. rewrite E1 in Hv. injection Hv as <-. apply in_map_iff in Hin. destruct Hin as (r' & <- & Hr'). destruct Ha as [<-|[]].
    now apply mean_sq_dev_nonneg, HN. }
  destruct (Z.eqb_spec axis (-1)) as [->|N2]; [|discriminate].
  unfold var in E2. cbn [Z.eqb Pos.eqb] in E2. rewrite E2 in Hv. injection Hv as <-. destruct Hin as [<-|[]]. destruct Ha as [<-|[]]. apply mean_sq_dev_nonneg.
  destruct x as [|r' x]; [congruence|]. simpl. intros E. apply app_eq_nil in E. destruct E as (-> & _). now apply (HN []); [left|].
Qed.
Print Assumptions C44_var_nonneg.
Theorem C44_var_zero : forall v w, v <> [] -> var (length v) [v] (-1) = Ok [[w]] -> (w = 0 <-> forall a b, In a v -> In b v -> a = b).
Proof.
  intros v w Hv H. destruct (C44_var 1 (length v) [v]) as (_ & _ & E); [lia|destruct v; [congruence|simpl; lia]|split; [reflexivity|intros r [<-|[]]; reflexivity]|].
  rewrite H in E. injection E as ->. simpl. rewrite app_nil_r. now apply mean_sq_dev_zero.
Qed.
Print Assumptions C44_var_zero.

(** Another axis raises in [sum], [mean] and [var]; in [median], [cumsum] and [norm2] it is undefined behaviour, and
    [mode] returns empty results. *)
Theorem C44_other_axis : forall nc x axis, ~ In axis [0; 1; -1]%Z ->
  sum nc x axis = Throw InvalidArgument /\ mean nc x axis = Throw InvalidArgument /\ var nc x axis = Throw InvalidArgument.
Proof.
  intros nc x axis H. simpl in H. unfold sum, mean, var. destruct (Z.eqb_spec axis 0); [lia|]. destruct (Z.eqb_spec axis 1); [lia|].
  destruct (Z.eqb_spec axis (-1)); [lia|]. repeat split.
Qed.
Print Assumptions C44_other_axis.
Example C44_other_axis_case := C44_other_axis 2 [[1; 4]; [3; 4]; [2; 10]] 2 ltac:(simpl; intros [H|[H|[H|[]]]]; discriminate).
Theorem C44_other_axis_refuted : forall nc x axis, ~ In axis [0; 1; -1]%Z ->
  median nc x axis = UB /\ cumsum nc x axis = UB /\ norm_axis nc x axis = UB /\ norm_axis nc x (-1) = UB.
Proof.
  intros nc x axis H. simpl in H. unfold median, cumsum, norm_axis. destruct (Z.eqb_spec axis 0); [lia|]. destruct (Z.eqb_spec axis 1); [lia|].
  destruct (Z.eqb_spec axis (-1)); [lia|]. repeat split.
Qed.
Print Assumptions C44_other_axis_refuted.

(** Centring subtracts one number per column, after which every column has mean 0. *)
Theorem C44_center : forall nr nc x, (0 < nr)%nat -> shape nr nc x ->
  shape nr nc (center nc x) /\
  (forall j, (j < nc)%nat -> avg (col j (center nc x)) = 0) /\
  (forall i k j, (i < nr)%nat -> (k < nr)%nat -> (j < nc)%nat ->
     entry (center nc x) i j - entry (center nc x) k j = entry x i j - entry x k j).
Proof.
  intros nr nc x Hr (H1 & H2). assert (Hx : x <> []) by (intros ->; simpl in H1; lia). split; [|split].
  - split; [unfold center; now rewrite map_length|]. intros r Hin. now apply (@width_center nc x H2).
  - intros j Hj. unfold avg. rewrite center_total by assumption. unfold Rdiv. ring.
  - intros i k j Hi Hk Hj.
    assert (G : forall i, (i < nr)%nat -> entry (center nc x) i j = entry x i j - avg (col j x)).
    { intros i' Hi'. pose proof (@col_center nc x j H2 Hj) as E. pose proof (f_equal (fun l => nth_error l i') E) as E'. simpl in E'.
      unfold col in E'. rewrite !nth_error_map in E'. unfold entry.
      assert (L1 : (i' < length x)%nat) by lia. assert (L2 : (i' < length (center nc x))%nat) by (unfold center; rewrite map_length; lia).
      rewrite (nth_error_some [] x L1), (nth_error_some [] (center nc x) L2) in E'. simpl in E'. now injection E'. }
    rewrite !G by assumption. ring.
Qed.
Print Assumptions C44_center.
Example C44_center_case := C44_center 3 2 [[1; 4]; [3; 4]; [2; 10]] ltac:(lia) sh32.

(** The covariance matrix is nc x nc, symmetric and positive semidefinite; entry (i, j) is the sum over the samples of the
    products of deviations, over n - 1. *)
Theorem C44_cov : forall nr nc x, (2 <= nr)%nat -> shape nr nc x ->
  shape nc nc (cov nc x) /\
  (forall i j, (i < nc)%nat -> (j < nc)%nat ->
     entry (cov nc x) i j = total (map (fun r => (nth i r 0 - avg (col i x)) * (nth j r 0 - avg (col j x))) x) / (INR nr - 1) /\
     entry (cov nc x) i j = entry (cov nc x) j i) /\
  (forall v, length v = nc -> 0 <= total (map (fun i => total (map (fun j => nth i v 0 * entry (cov nc x) i j * nth j v 0) (seq 0 nc))) (seq 0 nc))).
Proof.
  intros nr nc x Hr HS. pose proof HS as (H1 & H2). assert (Hx : x <> []) by (intros ->; simpl in H1; lia).
  assert (E : forall i j, (i < nc)%nat -> (j < nc)%nat ->
     entry (cov nc x) i j = total (map (fun r => (nth i r 0 - avg (col i x)) * (nth j r 0 - avg (col j x))) x) / (INR nr - 1)).
  { intros i j Hi Hj. rewrite cov_nth by assumption. unfold cov_entry. rewrite H1. f_equal. unfold center. rewrite map_map. apply total_ext. intros r Hin.
    assert (HM : length (col_means nc x) = nc) by (unfold col_means; rewrite map_length; now apply col_sum_length).
    rewrite !nth_vsub by (rewrite HM; now apply H2). rewrite !col_means_spec by assumption.
    assert (G : forall k, (k < nc)%nat -> nth k (map avg (cols_of nc x)) 0 = avg (col k x)).
    { intros k Hk. unfold cols_of. rewrite map_map. set (g := fun j => avg (col j x)). rewrite (nth_indep _ 0 (g 0%nat)) by (now rewrite map_length, seq_length).
      rewrite (map_nth g), seq_nth by assumption. reflexivity. }
    now rewrite !G by assumption. }
  split; [|split].
  - split; [unfold cov; now rewrite map_length, seq_length|]. intros r Hin. unfold cov in Hin. apply in_map_iff in Hin. destruct Hin as (i & <- & _).
    now rewrite map_length, seq_length.
  - intros i j Hi Hj. split; [now apply E|]. rewrite !E by assumption. f_equal. apply total_ext. intros; ring.
  - intros v Hv. rewrite (total_ext _ (fun i => total (map (fun j => nth i v 0 * cov_entry nc x i j * nth j v 0) (seq 0 nc)))).
    + rewrite cov_quadratic by (auto; lia). apply Rmult_le_pos; [apply total_nonneg; intros; apply pow2_ge_0|].
      left. apply Rinv_0_lt_compat. assert (2 <= INR (length x)) by (change 2 with (INR 2); apply le_INR; lia). lra.
    + intros i Hi. apply in_seq in Hi. apply total_ext. intros j Hj. apply in_seq in Hj. rewrite cov_nth by lia. reflexivity.
Qed.
Print Assumptions C44_cov.
Example C44_cov_case := C44_cov 3 2 [[1; 4]; [3; 4]; [2; 10]] ltac:(lia) sh32.
(** Its diagonal is the variance with n - 1 in place of n. *)
Theorem C44_cov_diagonal : forall nr nc x j, (2 <= nr)%nat -> shape nr nc x -> (j < nc)%nat ->
  entry (cov nc x) j j = INR nr / (INR nr - 1) * mean_sq_dev (col j x).
Proof.
  intros nr nc x j Hr HS Hj. destruct (C44_cov nr nc x Hr HS) as (_ & E & _). destruct (E j j Hj Hj) as (-> & _). destruct HS as (H1 & H2).
  assert (E2 : mean_sq_dev (col j x) = total (map (fun r => (nth j r 0 - avg (col j x)) ^ 2) x) / INR nr).
  { unfold mean_sq_dev. set (m := avg (col j x)). unfold avg, col. now rewrite !map_map, map_length, H1. }
  rewrite E2. rewrite (total_ext (fun r => (nth j r 0 - avg (col j x)) * _) (fun r => (nth j r 0 - avg (col j x)) ^ 2)) by (intros; ring).
  assert (2 <= INR nr) by (change 2 with (INR 2); apply le_INR; lia). field. lra.
Qed.
Print Assumptions C44_cov_diagonal.
Example C44_cov_diagonal_case := C44_cov_diagonal 3 2 [[1; 4]; [3; 4]; [2; 10]] 1 ltac:(lia) sh32 ltac:(lia).

(** Cumulative sums: every entry is the total of the entries up to and including it, down its column, along its row, or in
    row-major order. *)
Theorem C44_cumsum : forall nr nc x, shape nr nc x ->
  (exists y, cumsum nc x 0 = Ok y /\ shape nr nc y /\ forall i j, (i < nr)%nat -> (j < nc)%nat -> entry y i j = total (firstn (S i) (col j x))) /\
  (exists y, cumsum nc x 1 = Ok y /\ shape nr nc y /\ forall i j, (i < nr)%nat -> (j < nc)%nat -> entry y i j = total (firstn (S j) (nth i x []))) /\
  (exists y, cumsum nc x (-1) = Ok y /\ shape (nr * nc) 1 y /\ forall i, (i < nr * nc)%nat -> entry y i 0 = total (firstn (S i) (concat x))).
Proof.
  intros nr nc x (H1 & H2). unfold cumsum. cbn [Z.eqb Pos.eqb]. repeat split; eexists; (split; [reflexivity|]); split.
  - split; [unfold of_columns; now rewrite map_length, seq_length|]. intros r Hin. unfold of_columns in Hin. apply in_map_iff in Hin. destruct Hin as (i & <- & _).
    now rewrite !map_length, seq_length.
  - intros i j Hi Hj. rewrite of_columns_entry by (rewrite ?map_length, ?seq_length; lia).
    set (g := fun j => partial_sum (column 0 j x)). rewrite (nth_indep _ [] (g 0%nat)) by (now rewrite map_length, seq_length).
    rewrite (map_nth g), seq_nth by assumption. unfold g. simpl. rewrite partial_sum_nth by (unfold column; rewrite map_length; lia). reflexivity.
  - split; [now rewrite map_length|]. intros r Hin. apply in_map_iff in Hin. destruct Hin as (r' & <- & Hin). rewrite partial_sum_length. now apply H2.
  - intros i j Hi Hj. unfold entry. rewrite (nth_indep _ [] (partial_sum [])) by (rewrite map_length; lia). rewrite (map_nth partial_sum).
    apply partial_sum_nth. rewrite H2; [assumption|]. apply nth_In. lia.
  - assert (HL : length (concat x) = (nr * nc)%nat).
    { clear -H1 H2. revert nr H1. induction x as [|r x IH]; intros nr H1; simpl in *; [subst; reflexivity|]. subst nr. rewrite app_length, (H2 r) by now left.
      rewrite (IH (fun r Hr => H2 r (or_intror Hr)) (length x) eq_refl). reflexivity. }
    split; [now rewrite map_length, partial_sum_length|]. intros r Hin. apply in_map_iff in Hin. destruct Hin as (a & <- & _). reflexivity.
  - assert (HL : length (concat x) = (nr * nc)%nat).
    { clear -H1 H2. revert nr H1. induction x as [|r x IH]; intros nr H1; simpl in *; [subst; reflexivity|]. subst nr. rewrite app_length, (H2 r) by now left.
      rewrite (IH (fun r Hr => H2 r (or_intror Hr)) (length x) eq_refl). reflexivity. }
    intros i Hi. unfold entry. set (g := fun a : R => [a]). rewrite (nth_indep _ [] (g 0)) by (rewrite map_length, partial_sum_length; lia). rewrite (map_nth g).
    unfold g. simpl. rewrite partial_sum_nth by lia. reflexivity.
Qed.
Print Assumptions C44_cumsum.
Example C44_cumsum_case := C44_cumsum 3 2 [[1; 4]; [3; 4]; [2; 10]] sh32.

(** Medians. *)
Theorem C44_median : forall nr nc x, (0 < nr)%nat -> (0 < nc)%nat -> shape nr nc x ->
  (exists m, median nc x 0 = Ok m /\ Forall2 is_median (cols_of nc x) m) /\
  (exists m, median nc x 1 = Ok m /\ Forall2 is_median x m) /\
  (exists m, median nc x (-1) = Ok [m] /\ is_median (concat x) m).
Proof.
  intros nr nc x Hr Hc (H1 & H2). assert (Hx : x <> []) by (intros ->; simpl in H1; lia).
  assert (HN : forall r, In r x -> r <> []). { intros r Hin ->. apply H2 in Hin. simpl in Hin. lia. }
  assert (HC : concat x <> []).
  { destruct x as [|r x]; [congruence|]. simpl. intros E. apply app_eq_nil in E. destruct E as (-> & _). now apply (HN []); [left|]. }
  assert (G : forall l, (forall v, In v l -> v <> []) -> exists m, mapM median1 l = Ok m /\ Forall2 is_median l m).
  { induction l as [|v l IH]; intros Hl; [exists []; split; [reflexivity|constructor]|].
    destruct (median1_spec (Hl v (or_introl eq_refl))) as (a & Ea & Ma). destruct (IH (fun v Hv => Hl v (or_intror Hv))) as (m & Em & Mm).
    exists (a :: m). simpl. rewrite Ea, Em. split; [reflexivity|]. now constructor. }
  unfold median. cbn [Z.eqb Pos.eqb]. split; [|split].
  - destruct (G (cols_of nc x)) as (m & Em & Mm).
    { intros v Hv. unfold cols_of in Hv. apply in_map_iff in Hv. destruct Hv as (j & <- & _). unfold col. destruct x; [congruence|discriminate]. }
    exists m. split; [|assumption]. rewrite <- Em. unfold cols_of. generalize (seq 0 nc). intros l. clear. induction l as [|j l IH]; [reflexivity|]. simpl.
    rewrite IH. reflexivity.
  - now apply G.
  - destruct (median1_spec HC) as (m & -> & Mm). exists m. split; [reflexivity|assumption].
Qed.
Print Assumptions C44_median.
Example C44_median_case := C44_median 3 2 [[1; 4]; [3; 4]; [2; 10]] ltac:(lia) ltac:(lia) sh32.

(** Modes: a most frequent value and its count; when all values differ, the smallest. *)
Definition smallest_if_distinct (v : list R) (p : R * nat) : Prop := snd p = 1%nat -> forall b, In b v -> fst p <= b.
Theorem C44_mode : forall nr nc x, (0 < nr)%nat -> (0 < nc)%nat -> shape nr nc x ->
  (exists m, mode Reqb Rltb 0 nc x 0 = Ok m /\ Forall2 (fun v p => is_mode Req_EM_T v (fst p) (snd p) /\ smallest_if_distinct v p) (cols_of nc x) m) /\
  (exists m, mode Reqb Rltb 0 nc x 1 = Ok m /\ Forall2 (fun v p => is_mode Req_EM_T v (fst p) (snd p) /\ smallest_if_distinct v p) x m).
Proof.
  intros nr nc x Hr Hc (H1 & H2). assert (Hx : x <> []) by (intros ->; simpl in H1; lia).
  assert (HN : forall r, In r x -> r <> []). { intros r Hin ->. apply H2 in Hin. simpl in Hin. lia. }
  assert (One : forall v, v <> [] -> exists p, mode1 Reqb Rltb v = Ok p /\ is_mode Req_EM_T v (fst p) (snd p) /\ smallest_if_distinct v p).
  { intros v Hv. destruct (@mode1_spec R Reqb Rltb Req_EM_T) with (v := v) as (m & c & E & M & S); auto.
    - intros a b. unfold Reqb. destruct (Req_EM_T a b); split; congruence.
    - intros a. apply Rltb_false. lra.
    - intros a b c. rewrite !Rltb_false. lra.
    - intros a b. rewrite Rltb_true, Rltb_false. lra.
    - exists (m, c). split; [assumption|]. split; [assumption|]. intros Hc1 b Hb. specialize (S Hc1 b Hb). now apply Rltb_false in S. }
  assert (G : forall l, (forall v, In v l -> v <> []) -> exists m, mapM (mode1 Reqb Rltb) l = Ok m /\
     Forall2 (fun v p => is_mode Req_EM_T v (fst p) (snd p) /\ smallest_if_distinct v p) l m).
  { induction l as [|v l IH]; intros Hl; [exists []; split; [reflexivity|constructor]|].
    destruct (One v (Hl v (or_introl eq_refl))) as (a & Ea & Ma). destruct (IH (fun v Hv => Hl v (or_intror Hv))) as (m & Em & Mm).
    exists (a :: m). simpl. rewrite Ea, Em. split; [reflexivity|]. now constructor. }
  unfold mode. cbn [Z.eqb Pos.eqb]. split; [|now apply G].
  destruct (G (cols_of nc x)) as (m & Em & Mm).
  { intros v Hv. unfold cols_of in Hv. apply in_map_iff in Hv. destruct Hv as (j & <- & _). unfold col. destruct x; [congruence|discriminate]. }
  exists m. split; [|assumption]. rewrite <- Em. unfold cols_of. generalize (seq 0 nc). intros l. clear. induction l as [|j l IH]; [reflexivity|]. simpl.
  rewrite IH. reflexivity.
Qed.
Print Assumptions C44_mode.
Example C44_mode_case := C44_mode 3 2 [[1; 4]; [3; 4]; [2; 10]] ltac:(lia) ltac:(lia) sh32.

Example stats_case : shape 3 2 [[1; 4]; [3; 4]; [2; 10]] /\ mean 2 [[1; 4]; [3; 4]; [2; 10]] 0 = Ok [[2; 6]] /\
  var 2 [[1; 4]; [3; 4]; [2; 10]] 0 = Ok [[2 / 3; 8]].
Proof.
  assert (HS : shape 3 2 [[1; 4]; [3; 4]; [2; 10]]) by (split; [reflexivity|]; simpl; intros r [<-|[<-|[<-|[]]]]; reflexivity).
  split; [exact HS|]. split.
  - destruct (C44_mean _ _ _ HS) as (-> & _). unfold cols_of, avg, col. simpl. f_equal. f_equal. f_equal; [lra|f_equal; lra].
  - destruct (C44_var 3 2 _ ltac:(lia) ltac:(lia) HS) as (-> & _). unfold cols_of, mean_sq_dev, avg, col. simpl. f_equal. f_equal. f_equal; [field|f_equal; field].
Qed.

(** The sign of each entry: 1, -1 or 0. *)
Theorem C44_sign : forall nr nc x, shape nr nc x -> shape nr nc (sign x) /\ forall i j, (i < nr)%nat -> (j < nc)%nat ->
  (0 < entry x i j -> entry (sign x) i j = 1) /\ (entry x i j < 0 -> entry (sign x) i j = -1) /\ (entry x i j = 0 -> entry (sign x) i j = 0).
Proof.
  intros nr nc x (L & W). split.
  - split; [unfold sign; now rewrite map_length|]. intros r Hr. unfold sign in Hr. apply in_map_iff in Hr. destruct Hr as (r0 & <- & H). rewrite map_length. auto.
  - intros i j Hi Hj. assert (E : entry (sign x) i j = sign1 (entry x i j)).
    { unfold entry, sign. change (@nil R) with (map sign1 []) at 1. rewrite map_nth. rewrite (nth_indep _ 0 (sign1 0)) by (rewrite map_length, W by (apply nth_In; lia); auto). now rewrite map_nth. }
    rewrite E. unfold sign1. split; [|split]; intro H.
    + apply Rltb_true in H. now rewrite H.
    + destruct (Rltb 0 (entry x i j)) eqn:F; [apply Rltb_true in F; lra|]. apply Rltb_true in H. now rewrite H.
    + rewrite H. destruct (Rltb 0 0) eqn:F; [apply Rltb_true in F; lra|reflexivity].
Qed.
Print Assumptions C44_sign.
Example C44_sign_case := C44_sign 3 2 [[1; 4]; [3; 4]; [2; 10]] sh32.

Example C44_var_nonneg_case := C44_var_nonneg 3 2 [[1; 4]; [3; 4]; [2; 10]] 0 [[2 / 3; 8]] [2 / 3; 8] 8 ltac:(lia) ltac:(lia) sh32 (proj2 (proj2 stats_case)) ltac:(now left) ltac:(right; now left).
Example C44_var_zero_case := C44_var_zero [3; 5] _ ltac:(discriminate) eq_refl.
