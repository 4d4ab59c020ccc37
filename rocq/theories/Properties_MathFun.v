(** C42: sigmoid, softmax and logsumexp. *)
From Coq Require Import Reals Lra.
From Verif Require Import Base Impurity_Spec Impurity_Proofs Vec MathFun_Model Loss_Spec Loss_Proofs LossSoftmax_Proofs Stats_Spec Stats_Proofs MathFun_Proofs.
Local Open Scope R_scope.

(** [sigmoid] maps every entry to 1 / (1 + e^-x), which lies in (0, 1), increases with x, and is 1/2-symmetric. *)
Theorem C42_sigmoid : forall x, sigmoid_mat x = map (map logistic) x.
Proof.
  intros x. unfold sigmoid_mat, sigmoid. apply map_ext. intros r. apply map_ext. apply sigmoid1_logistic.
Qed.
Print Assumptions C42_sigmoid.
Theorem C42_sigmoid_shape : forall a b, exists p q r, sigmoid [a; b; - a] = [p; q; r] /\ 0 < p < 1 /\ (a < b -> p < q) /\ r = 1 - p.
Proof.
  intros a b. unfold sigmoid. simpl. rewrite !sigmoid1_logistic. do 3 eexists. split; [reflexivity|].
  split; [apply logistic_bounds|]. split; [apply logistic_monotone|apply logistic_symmetric].
Qed.
Print Assumptions C42_sigmoid_shape.

(** Axis 1: every row is replaced by its exponentials over their sum. *)
Theorem C42_softmax_rows : forall nr nc x, (nr <> 1)%nat -> (2 <= nc)%nat -> shape nr nc x -> softmax nc x 1 = Ok (map softmax_of x).
Proof.
  intros nr nc x Hr Hc HS. pose proof HS as (H1 & H2). unfold softmax. rewrite H1.
  destruct (Nat.eqb_spec nr 1); [congruence|]. destruct (Nat.eqb_spec nc 1); [lia|]. cbn [orb Z.eqb Pos.eqb].
  assert (HN : forall r, In r x -> r <> []). { intros r Hin ->. apply H2 in Hin. simpl in Hin. lia. }
  destruct (max_coeff_rows x HN) as (c & -> & Hc'). cbn [bind]. f_equal. now apply softmax_rows.
Qed.
Print Assumptions C42_softmax_rows.
(** Axis 0: every column. *)
Theorem C42_softmax_columns : forall nr nc x, (2 <= nr)%nat -> (nc <> 1)%nat -> shape nr nc x ->
  exists y, softmax nc x 0 = Ok y /\ shape nr nc y /\ cols_of nc y = map softmax_of (cols_of nc x).
Proof.
  intros nr nc x Hr Hc HS. pose proof HS as (H1 & H2). unfold softmax. rewrite H1.
  destruct (Nat.eqb_spec nr 1); [lia|]. destruct (Nat.eqb_spec nc 1); [congruence|]. cbn [orb Z.eqb Pos.eqb].
  assert (Hx : x <> []) by (intros ->; simpl in H1; lia). destruct (@col_max_ok nc x Hx H2) as (c & -> & Hc'). cbn [bind].
  eexists. split; [reflexivity|]. rewrite <- H1. now apply softmax_cols.
Qed.
Print Assumptions C42_softmax_columns.
Lemma sh23 : shape 2 3 [[0; 1; 2]; [5; 5; 5]].
Proof. split; [reflexivity|]. intros r [<-|[<-|[]]]; reflexivity. Qed.
Example C42_softmax_columns_case := C42_softmax_columns 2 3 [[0; 1; 2]; [5; 5; 5]] ltac:(lia) ltac:(lia) sh23.
(** Axis -1: all entries together. *)
Theorem C42_softmax_all : forall nr nc x, (2 <= nr)%nat -> (2 <= nc)%nat -> shape nr nc x ->
  exists y, softmax nc x (-1) = Ok y /\ shape nr nc y /\ concat y = softmax_of (concat x).
Proof.
  intros nr nc x Hr Hc (H1 & H2). unfold softmax. rewrite H1.
  destruct (Nat.eqb_spec nr 1); [lia|]. destruct (Nat.eqb_spec nc 1); [lia|]. cbn [orb Z.eqb Pos.eqb].
  assert (Hx : concat x <> []).
  { destruct x as [|r x]; [simpl in H1; lia|]. simpl. intros E. apply app_eq_nil in E. destruct E as (-> & _). specialize (H2 [] (or_introl eq_refl)). simpl in H2. lia. }
  destruct (max_coeff_ok Hx) as (m & ->). cbn [bind]. eexists. split; [reflexivity|]. split.
  - split; [now rewrite !map_length|]. intros r Hin. rewrite map_map in Hin. apply in_map_iff in Hin. destruct Hin as (r' & <- & Hin).
    rewrite !map_length. now apply H2.
  - rewrite total_concat, !concat_map_map, map_map. unfold softmax_of. apply map_ext. intros a. now apply softmax_shift.
Qed.
Print Assumptions C42_softmax_all.
Example C42_softmax_all_case := C42_softmax_all 2 3 [[0; 1; 2]; [5; 5; 5]] ltac:(lia) ltac:(lia) sh23.
(** A row returned is a probability distribution that orders the entries as the row does, and adding a constant to each
    row changes nothing. *)
Theorem C42_softmax_distribution : forall nr nc x y, (nr <> 1)%nat -> (2 <= nc)%nat -> shape nr nc x -> softmax nc x 1 = Ok y ->
  length y = length x /\
  forall i r p, nth_error x i = Some r -> nth_error y i = Some p ->
    length p = length r /\ total p = 1 /\ (forall a, In a p -> 0 < a <= 1) /\
    (forall j k, (j < nc)%nat -> (k < nc)%nat -> nth j r 0 < nth k r 0 -> nth j p 0 < nth k p 0).
Proof.
  intros nr nc x y Hr Hc HS Hy. rewrite (C42_softmax_rows nr nc x Hr Hc HS) in Hy. injection Hy as <-. split; [now rewrite map_length|].
  intros i r p Hri Hp. rewrite (map_nth_error _ _ _ Hri) in Hp. injection Hp as <-. destruct HS as (_ & HS).
  assert (HL : length r = nc) by (apply HS; eapply nth_error_In; eauto). assert (r <> []) by (intros ->; simpl in HL; lia).
  split; [unfold softmax_of; now rewrite map_length|]. split; [now apply softmax_of_total|]. split; [apply softmax_of_bounds|].
  intros j k Hj Hk. apply softmax_of_order; rewrite HL; assumption.
Qed.
Print Assumptions C42_softmax_distribution.
Theorem C42_softmax_shift : forall nr nc x cs, (nr <> 1)%nat -> (2 <= nc)%nat -> shape nr nc x -> length cs = nr ->
  softmax nc (map2 (fun c r => map (fun a => c + a) r) cs x) 1 = softmax nc x 1.
Proof.
  intros nr nc x cs Hr Hc HS Hcs. rewrite (C42_softmax_rows nr nc x Hr Hc HS). destruct HS as (H1 & H2).
  rewrite (C42_softmax_rows nr nc _ Hr Hc).
  - f_equal. clear -H1 Hcs. revert cs nr H1 Hcs. induction x as [|r x IH]; intros [|c cs] nr H1 Hcs; simpl in *; try lia; [reflexivity|].
    rewrite (IH cs (length x)) by lia. f_equal. apply softmax_of_shift.
  - split; [rewrite map2_length; congruence|]. clear -H1 H2 Hcs. intros r Hr. revert cs nr H1 Hcs Hr.
    induction x as [|s x IH]; intros [|c cs] nr H1 Hcs Hr; simpl in *; try lia; try contradiction. destruct Hr as [<-|Hr].
    + rewrite map_length. apply H2. now left.
    + eapply IH with (nr := length x); eauto; lia.
Qed.
Print Assumptions C42_softmax_shift.
Example C42_softmax_shift_case := C42_softmax_shift 2 3 [[0; 1; 2]; [5; 5; 5]] [1000; -3] ltac:(lia) ltac:(lia) sh23 eq_refl.
(** A matrix of one row or one column is rejected, whatever the axis; any other axis than -1, 0, 1 is undefined. *)
Theorem C42_softmax_rejects : forall nr nc x axis, shape nr nc x -> nr = 1%nat \/ nc = 1%nat -> softmax nc x axis = Throw InvalidArgument.
Proof.
  intros nr nc x axis (H1 & _) H. unfold softmax. rewrite H1. destruct H as [-> | ->]; simpl; [reflexivity|]. now rewrite orb_true_r.
Qed.
Print Assumptions C42_softmax_rejects.
Example C42_softmax_rejects_case := C42_softmax_rejects 1 3 [[0; 1; 2]] 1 ltac:(split; [reflexivity|intros r [<-|[]]; reflexivity]) (or_introl eq_refl).
Theorem C42_other_axis_refuted : forall nr nc x axis, shape nr nc x -> (nr <> 1)%nat -> (nc <> 1)%nat -> ~ In axis [0; 1; -1]%Z ->
  softmax nc x axis = UB /\ logsumexp nc x axis = UB.
Proof.
  intros nr nc x axis (H1 & _) Hr Hc Ha. unfold softmax, logsumexp. rewrite H1. simpl in Ha.
  destruct (Nat.eqb_spec nr 1); [congruence|]. destruct (Nat.eqb_spec nc 1); [congruence|]. cbn [orb].
  destruct (Z.eqb_spec axis 0); [lia|]. destruct (Z.eqb_spec axis 1); [lia|]. destruct (Z.eqb_spec axis (-1)); [lia|]. split; reflexivity.
Qed.
Print Assumptions C42_other_axis_refuted.

(** logsumexp is the logarithm of the sum of exponentials of each row, of each column, or of all entries. *)
Theorem C42_logsumexp : forall nr nc x, (0 < nr)%nat -> (0 < nc)%nat -> shape nr nc x ->
  logsumexp nc x 1 = Ok (map lse_of x) /\ logsumexp nc x 0 = Ok (map lse_of (cols_of nc x)) /\ logsumexp nc x (-1) = Ok [lse_of (concat x)].
Proof.
  intros nr nc x Hr Hc (H1 & H2). unfold logsumexp. cbn [Z.eqb Pos.eqb].
  assert (HN : forall r, In r x -> r <> []). { intros r Hin ->. apply H2 in Hin. simpl in Hin. lia. }
  assert (Hx : x <> []) by (intros ->; simpl in H1; lia).
  assert (HC : concat x <> []).
  { destruct x as [|r x]; [congruence|]. simpl. intros E. apply app_eq_nil in E. destruct E as (-> & _). now apply (HN []); [left|]. }
  split; [|split].
  - destruct (max_coeff_rows x HN) as (c & -> & Hc'). cbn [bind]. f_equal. now apply lse_rows.
  - destruct (@col_max_ok nc x Hx H2) as (c & -> & Hc'). cbn [bind]. f_equal. now apply lse_cols.
  - destruct (max_coeff_ok HC) as (m & ->). cbn [bind]. f_equal. f_equal. rewrite Impurity_Proofs.Rsum_total. now apply lse_shift.
Qed.
Print Assumptions C42_logsumexp.
Example C42_logsumexp_case := C42_logsumexp 2 3 [[0; 1; 2]; [5; 5; 5]] ltac:(lia) ltac:(lia) sh23.
(** Each value lies between the largest entry and that plus the logarithm of the number of entries. *)
Theorem C42_logsumexp_bounds : forall nr nc x l i r v m, (0 < nr)%nat -> (0 < nc)%nat -> shape nr nc x -> logsumexp nc x 1 = Ok l ->
  nth_error x i = Some r -> nth_error l i = Some v -> In m r -> (forall a, In a r -> a <= m) -> m <= v <= m + ln (INR nc).
Proof.
  intros nr nc x l i r v m Hr Hc HS Hl Hri Hv Hm Hmax. destruct (C42_logsumexp nr nc x Hr Hc HS) as (E & _). rewrite Hl in E. injection E as ->.
  rewrite (map_nth_error _ _ _ Hri) in Hv. injection Hv as <-. destruct HS as (_ & HS). rewrite <- (HS r) by (eapply nth_error_In; eauto). now apply lse_bounds.
Qed.
Print Assumptions C42_logsumexp_bounds.
Example C42_logsumexp_bounds_case := C42_logsumexp_bounds 2 3 [[0; 1; 2]; [5; 5; 5]] _ 0 [0; 1; 2] _ 2 ltac:(lia) ltac:(lia) sh23 (proj1 C42_logsumexp_case) eq_refl eq_refl
  ltac:(simpl; auto) ltac:(intros a [<-|[<-|[<-|[]]]]; lra).

Example mathfun_case : shape 2 3 [[0; 1; 2]; [5; 5; 5]] /\
  exists y, softmax 3 [[0; 1; 2]; [5; 5; 5]] 1 = Ok y /\ nth_error y 1 = Some [/ 3; / 3; / 3].
Proof.
  assert (HS : shape 2 3 [[0; 1; 2]; [5; 5; 5]]) by (split; [reflexivity|]; simpl; intros r [<-|[<-|[]]]; reflexivity).
  split; [exact HS|]. eexists. split; [apply (C42_softmax_rows 2 3); auto|]. simpl. unfold softmax_of. simpl. pose proof (exp_pos 5).
  assert (exp 5 / (exp 5 + (exp 5 + (exp 5 + 0))) = / 3) by (field; lra). now rewrite H0.
Qed.

Example C42_softmax_distribution_case : exists y p, softmax 3 [[0; 1; 2]; [5; 5; 5]] 1 = Ok y /\ nth_error y 0 = Some p /\ total p = 1 /\ nth 0 p 0 < nth 1 p 0.
Proof.
  destruct mathfun_case as (_ & y & E & _). exists y.
  destruct (C42_softmax_distribution 2 3 _ y ltac:(lia) ltac:(lia) sh23 E) as (L & H).
  destruct (nth_error y 0) as [p|] eqn:Ep; [|apply nth_error_None in Ep; rewrite L in Ep; simpl in Ep; lia].
  exists p. destruct (H 0%nat _ p eq_refl Ep) as (_ & Ht & _ & Ho). split; [exact E|]. split; [reflexivity|]. split; [exact Ht|].
  apply Ho; [lia|lia|]. simpl. lra.
Qed.
