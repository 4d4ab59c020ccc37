(** A classification tree fitted to three rows, computed. *)
From Coq Require Import Reals Lra QArith.
From Verif Require Import Base Sorting Common_Model Argsort_Model Split_Model Tree_Model Tree_Spec Tree_Proofs TreeReal_Proofs KDReal_Proofs Impurity_Model.
Local Open Scope R_scope.

Ltac rdec := match goal with |- context [Rltb ?a ?b] => first [replace (Rltb a b) with true by (symmetry; apply Rltb_true; lra) | replace (Rltb a b) with false by (symmetry; apply Rltb_false; lra)] end.
Lemma three_labels X y : length X = 3%nat -> y = [0;0;1] -> fit_labels Rltb [] X y = Ok [(0,2%nat);(1,1%nat)].
Proof.
  intros H ->. unfold fit_labels. rewrite H. cbn [seq mapM vget nth_error bind]. f_equal. cbn [fold_left]. unfold count_label, cmp_of. cbn [om_find om_set]. 
  repeat (rdec; cbn [om_find om_set]). reflexivity.
Qed.
Lemma three_value y : y = [0;0;1] -> class_value Rltb [(0,2%nat);(1,1%nat)] y = Ok ([2;1]%nat, 0%nat, false).
Proof. intros ->. unfold class_value, count_label, cmp_of. cbn [fold_left om_find om_set map fst]. 
  repeat (rdec; cbn [om_find om_set map fst]). reflexivity.
Qed.
Lemma three_thresholds a b c : a < b -> b < c -> choose_feature_threshold Rltb Rmid [a;b;c] = Ok [Rmid a b; Rmid b c].
Proof. intros H1 H2. unfold choose_feature_threshold, argsort_col, Rmid. cbn. unfold pos_lt_by. cbn. 
 repeat (rdec; cbn). unfold eqb. repeat (rdec; cbn). reflexivity.
Qed.
Lemma gain_1_2 : class_gain Rltb Gini [0;0;1] [0] [0;1] = Ok (2/3).
Proof.
  unfold class_gain, gini, class_probs, count_label, push_weight, cmp_of. cbn [length repeat Nat.eqb negb andb fold_left combine om_find om_set fst snd].
  repeat (rdec; cbn [om_find om_set fst snd app]). cbn. unfold class_prob, Rsum. cbn. f_equal. field.
Qed.
Lemma gain_2_1 : class_gain Rltb Gini [0;0;1] [0;0] [1] = Ok 1.
Proof.
  unfold class_gain, gini, class_probs, count_label, push_weight, cmp_of. cbn [length repeat Nat.eqb negb andb fold_left combine om_find om_set fst snd].
  repeat (rdec; cbn [om_find om_set fst snd app]). cbn. unfold class_prob, Rsum. cbn. f_equal. field.
Qed.
Lemma three_fit a b c : a < b -> b < c -> classifier_fit Gini (Params 2%nat 0%nat 0%nat 0) 1 [] [[a];[b];[c]] [0;0;1] =
  Ok ([(0,2%nat);(1,1%nat)], Node (Info 3 ([2;1]%nat, 0%nat) (Some (0%nat, Rmid b c, 1))) (Node (Info 2 ([2;0]%nat, 0%nat) None) Null Null) (Node (Info 1 ([0;1]%nat, 1%nat) None) Null Null)).
Proof.
  intros H1 H2. unfold classifier_fit. rewrite three_labels by reflexivity. cbn [bind]. unfold grow. cbn [max_depth Tree_Model.build_tree].
  rewrite three_value by reflexivity. cbn [bind length]. change (3 <? min_samples_split (Params 2 0 0 0))%nat with false. change (max_depth (Params 2 0 0 0) <? 0)%nat with false. cbv iota.
  assert (EB : best_split Rltb Rmid Rgtb dbl_min (class_gain Rltb Gini) 1 [[a];[b];[c]] [0;0;1] = Ok (1, Some (0%nat, Rmid b c))).
  { unfold best_split. cbn [seq foldM column_of mapM vget nth_error bind]. rewrite three_thresholds by assumption. cbn [bind foldM]. unfold try_split. 
    assert (D1 : divide_on_feature (leb Rltb) [[a];[b];[c]] 0 (Rmid a b) = Ok ([0%nat],[1%nat;2%nat])).
    { unfold divide_on_feature, leb, Rmid. cbn. repeat (rdec; cbn). reflexivity. }
    assert (D2 : divide_on_feature (leb Rltb) [[a];[b];[c]] 0 (Rmid b c) = Ok ([0%nat;1%nat],[2%nat])).
    { unfold divide_on_feature, leb, Rmid. cbn. repeat (rdec; cbn). reflexivity. }
    rewrite D1, D2. cbn [bind mapM vget nth_error]. rewrite gain_1_2, gain_2_1. cbn [bind fst]. unfold Rgtb. pose proof dbl_min_half. rdec. cbn [bind fst]. rdec. reflexivity. }
  rewrite EB. cbn [bind]. unfold Rgtb at 1. cbn [min_decrease]. rdec. cbn [negb column_of mapM vget nth_error bind map]. 
  unfold leb, Rmid. repeat rdec. cbn [negb]. cbn [rows_where where_ where_from mapM vget nth_error bind]. unfold rows_where. cbn -[class_value].
  assert (V1 : class_value Rltb [(0,2%nat);(1,1%nat)] [0;0] = Ok ([2;0]%nat, 0%nat, false)).
  { unfold class_value, count_label, cmp_of. cbn [fold_left om_find om_set map fst]. repeat (rdec; cbn [om_find om_set map fst]). reflexivity. }
  assert (V2 : class_value Rltb [(0,2%nat);(1,1%nat)] [1] = Ok ([0;1]%nat, 1%nat, false)).
  { unfold class_value, count_label, cmp_of. cbn [fold_left om_find om_set map fst]. repeat (rdec; cbn [om_find om_set map fst]). reflexivity. }
  rewrite V1, V2. reflexivity.
Qed.
