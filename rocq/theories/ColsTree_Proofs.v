(** Splits of a decision tree with the features in another order. *)
From Coq Require Import Reals Lra QArith.
From Verif Require Import Base Sorting Common_Model Argsort_Model Split_Model Tree_Model Tree_Spec Tree_Proofs TreeReal_Proofs KDReal_Proofs Impurity_Model Vec Linear_Spec UnitsCase_Proofs Cols_Spec Cols_Proofs.
Local Open Scope R_scope.
Set Implicit Arguments.

Section TreeOrder.
  Variable d : nat.
  Variable s : list nat.
  Hypothesis Hs : column_order d s.
  Notation D' D := (map (fun e => (reorder 0 s (fst e), snd e)) D).
  Definition wide (D : list (list R * R)) : Prop := forall e, In e D -> length (fst e) = d.
  Lemma nth_reorder x f : length x = d -> (f < d)%nat -> nth_error (reorder 0 s x) f = nth_error x (nth f s 0%nat).
  Proof.
    intros L Hf. assert (Hj : (nth f s 0 < d)%nat) by (apply (order_lt Hs), nth_In; rewrite (order_length Hs); lia).
    rewrite (nth_error_nth' x 0) by lia. unfold reorder. apply map_nth_error with (f := fun j => nth j x 0). apply nth_error_nth'. rewrite (order_length Hs). lia.
  Qed.
  Lemma column_reorder D f : wide D -> (f < d)%nat -> map (fun e => nth_error (fst e) f) (D' D) = map (fun e => nth_error (fst e) (nth f s 0%nat)) D.
  Proof. intros HD Hf. rewrite map_map. apply map_ext_in. intros e He. cbn [fst]. apply nth_reorder; auto. Qed.
  Lemma candidate_reorder D f t : wide D -> (f < d)%nat -> candidate Rltb Rmid (D' D) f t <-> candidate Rltb Rmid D (nth f s 0%nat) t.
  Proof. intros HD Hf. unfold candidate. rewrite (column_reorder HD Hf). reflexivity. Qed.
  Lemma side_reorder (side : bool -> bool) D f t : wide D -> (f < d)%nat ->
    map snd (filter (fun e => side (goes_left Rltb f t (fst e))) (D' D)) = map snd (filter (fun e => side (goes_left Rltb (nth f s 0%nat) t (fst e))) D).
  Proof.
    intros HD Hf. induction D as [|e D IH]; [reflexivity|]. cbn [map filter fst]. unfold goes_left at 1 3. rewrite (@nth_reorder (fst e) f); [|apply HD; now left|exact Hf].
    specialize (IH (fun a H => HD a (or_intror H))). destruct (side _); cbn [map snd]; [f_equal|]; exact IH.
  Qed.
  Lemma gain_reorder gain D f t : wide D -> (f < d)%nat -> gain_at Rltb gain (D' D) f t = gain_at (I := R) Rltb gain D (nth f s 0%nat) t.
  Proof.
    intros HD Hf. unfold gain_at, left_targets, right_targets. rewrite (side_reorder (fun b => b) _ HD Hf), (side_reorder negb _ HD Hf). rewrite map_map. reflexivity.
  Qed.
  Lemma order_onto f : (f < d)%nat -> exists k, (k < d)%nat /\ nth k s 0%nat = f.
  Proof.
    intros Hf. assert (HI : In f s) by (apply (Permutation_in _ Hs), in_seq; lia). destruct (In_nth _ _ 0%nat HI) as (k & Hk & E). exists k. rewrite (order_length Hs) in Hk. auto.
  Qed.
  Lemma wide_matrix D : wide D -> matrix d (map fst D).
  Proof. intros H r Hr. apply in_map_iff in Hr. destruct Hr as (e & <- & He). auto. Qed.
  Lemma split_reorder floor gain D b w b' w' : wide D ->
    best_split Rltb Rmid Rgtb floor gain d (map fst D) (map snd D) = Ok (b, w) ->
    best_split Rltb Rmid Rgtb floor gain d (map (reorder 0 s) (map fst D)) (map snd D) = Ok (b', w') ->
    b' = b /\ match w, w' with
              | None, None => True
              | Some (f, t), Some (f', t') => (nth f' s 0 < d)%nat /\ candidate Rltb Rmid D (nth f' s 0%nat) t' /\ gain_at Rltb gain D (nth f' s 0%nat) t' = Ok b
              | _, _ => False
              end.
  Proof.
    intros HD E E'. assert (HD' : wide (D' D)). { intros e He. apply in_map_iff in He. destruct He as (a & <- & Ha). cbn [fst]. apply (ro_length Hs). }
    replace (map (reorder 0 s) (map fst D)) with (map fst (D' D)) in E' by now rewrite !map_map. replace (map snd D) with (map snd (D' D)) in E' by now rewrite !map_map.
    apply (best_split_Ok Rmid Rltb_order Rgtb_order) in E; [|now apply wide_matrix]. apply (best_split_Ok Rmid Rltb_order Rgtb_order) in E'; [|now apply wide_matrix].
    destruct w as [[f t]|], w' as [[f' t']|].
    - destruct E as (_ & H1 & H2 & H3 & _ & H4). destruct E' as (_ & H1' & H2' & H3' & _ & H4').
      rewrite (candidate_reorder _ HD H1') in H2'. rewrite (gain_reorder _ _ HD H1') in H3'. assert (Hn : (nth f' s 0 < d)%nat) by (apply (order_lt Hs), nth_In; rewrite (order_length Hs); lia).
      destruct (H4 _ _ Hn H2') as (g & Hg & Hg' & _). assert (g = b') by congruence. subst g.
      destruct (order_onto H1) as (k & Hk & Ek). rewrite <- Ek in H2, H3. apply (candidate_reorder _ HD Hk) in H2. destruct (H4' _ _ Hk H2) as (g & Hg2 & Hg3 & _).
      rewrite (gain_reorder _ _ HD Hk) in Hg2. assert (g = b) by congruence. subst g. unfold Rgtb in *. apply Rltb_false in Hg', Hg3. assert (b' = b) as -> by lra. auto.
    - exfalso. destruct E as (_ & H1 & H2 & H3 & H5 & _). destruct E' as (_ & N). destruct (order_onto H1) as (k & Hk & Ek). rewrite <- Ek in H2, H3. apply (candidate_reorder _ HD Hk) in H2.
      destruct (N _ _ Hk H2) as (g & Hg & Hg'). rewrite (gain_reorder _ _ HD Hk) in Hg. congruence.
    - exfalso. destruct E' as (_ & H1 & H2 & H3 & H5 & _). destruct E as (_ & N). rewrite (candidate_reorder _ HD H1) in H2. rewrite (gain_reorder _ _ HD H1) in H3.
      assert (Hn : (nth f' s 0 < d)%nat) by (apply (order_lt Hs), nth_In; rewrite (order_length Hs); lia). destruct (N _ _ Hn H2) as (g & Hg & Hg'). congruence.
    - destruct E as (-> & _), E' as (-> & _). auto.
  Qed.
End TreeOrder.

(** A tree fitted to three rows whose two columns agree. *)
Lemma twin_split a b c : a < b -> b < c -> best_split Rltb Rmid Rgtb dbl_min (class_gain Rltb Gini) 2 [[a;a];[b;b];[c;c]] [0;0;1] = Ok (1, Some (0%nat, Rmid b c)).
Proof.
  intros H1 H2. unfold best_split. cbn [seq foldM column_of mapM vget nth_error bind]. rewrite three_thresholds by assumption. cbn [bind foldM]. unfold try_split.
    assert (D1 : forall f, (f < 2)%nat -> divide_on_feature (leb Rltb) [[a;a];[b;b];[c;c]] f (Rmid a b) = Ok ([0%nat],[1%nat;2%nat])).
    { intros [|[|?]] ?; try lia; unfold divide_on_feature, leb, Rmid; cbn; repeat (rdec; cbn); reflexivity. }
    assert (D2 : forall f, (f < 2)%nat -> divide_on_feature (leb Rltb) [[a;a];[b;b];[c;c]] f (Rmid b c) = Ok ([0%nat;1%nat],[2%nat])).
    { intros [|[|?]] ?; try lia; unfold divide_on_feature, leb, Rmid; cbn; repeat (rdec; cbn); reflexivity. }
    rewrite !D1, !D2 by lia. cbn [bind mapM vget nth_error]. rewrite gain_1_2, gain_2_1. cbn [bind fst]. unfold Rgtb. pose proof dbl_min_half. repeat (rdec; cbn [bind fst]). reflexivity.
Qed.
Lemma twin_fit a b c : a < b -> b < c -> classifier_fit Gini (Params 2%nat 0%nat 0%nat 0) 2 [] [[a;a];[b;b];[c;c]] [0;0;1] =
  Ok ([(0,2%nat);(1,1%nat)], Node (Info 3 ([2;1]%nat, 0%nat) (Some (0%nat, Rmid b c, 1))) (Node (Info 2 ([2;0]%nat, 0%nat) None) Null Null) (Node (Info 1 ([0;1]%nat, 1%nat) None) Null Null)).
Proof.
  intros H1 H2. unfold classifier_fit. rewrite three_labels by reflexivity. cbn [bind]. unfold grow. cbn [max_depth Tree_Model.build_tree].
  rewrite three_value by reflexivity. cbn [bind length]. change (3 <? min_samples_split (Params 2 0 0 0))%nat with false. change (max_depth (Params 2 0 0 0) <? 0)%nat with false. cbv iota.
  rewrite (twin_split H1 H2). cbn [bind]. unfold Rgtb at 1. cbn [min_decrease]. rdec. cbn [negb column_of mapM vget nth_error bind map].
  unfold leb, Rmid. repeat rdec. cbn [negb]. cbn [rows_where where_ where_from mapM vget nth_error bind]. unfold rows_where. cbn -[class_value].
  assert (V1 : class_value Rltb [(0,2%nat);(1,1%nat)] [0;0] = Ok ([2;0]%nat, 0%nat, false)).
  { unfold class_value, count_label, cmp_of. cbn [fold_left om_find om_set map fst]. repeat (rdec; cbn [om_find om_set map fst]). reflexivity. }
  assert (V2 : class_value Rltb [(0,2%nat);(1,1%nat)] [1] = Ok ([0;1]%nat, 1%nat, false)).
  { unfold class_value, count_label, cmp_of. cbn [fold_left om_find om_set map fst]. repeat (rdec; cbn [om_find om_set map fst]). reflexivity. }
  rewrite V1, V2. reflexivity.
Qed.
