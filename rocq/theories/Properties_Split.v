(** Property theorems for data splitting (C21, C22). *)
From Coq Require Import QArith Qround.
From Verif Require Import Base Split_Model Split_Proofs KDBuild_Proofs.
Local Open Scope nat_scope.

(** C21: any labelled data, any ratio in [0,1], any permutation drawn by the shuffle. *)
Theorem C21_partition :
  forall (A B : Type) (X : list A) (y : list B) train_size shuffle,
    length y = length X -> (0 <= train_size <= 1)%Q ->
    (forall p, shuffle = Some p -> Permutation p (seq 0 (length X))) ->
    exists Xtr Xte ytr yte, train_test_split X y train_size shuffle = Ok (Xtr, Xte, ytr, yte) /\
      (* pairs stay together and none is lost or invented *)
      Permutation (combine Xtr ytr ++ combine Xte yte) (combine X y) /\
      Z.of_nat (length Xtr) = Qfloor (inject_Z (Z.of_nat (length X)) * train_size) /\
      length ytr = length Xtr /\ length yte = length Xte /\ length Xtr + length Xte = length X /\
      (* order without shuffling *)
      (shuffle = None -> Xtr ++ Xte = X /\ ytr ++ yte = y).
Proof.
  intros A B X y ts sh Hy Hts Hsh.
  destruct (@train_test_split_spec A B X y ts sh Hy Hts Hsh) as (X' & y' & E & HlX & Hly & HP & Hk & ES).
  destruct (num_train_bounds (length X) Hts) as (_ & Hb).
  set (k := Z.to_nat (Qfloor (inject_Z (Z.of_nat (length X)) * ts))) in *.
  exists (firstn k X'), (skipn k X'), (firstn k y'), (skipn k y'). split; [exact ES|].
  rewrite !firstn_length, !skipn_length.
  split; [rewrite <- combine_app by (rewrite !firstn_length; lia); now rewrite !firstn_skipn|].
  repeat (split; [lia|]). intros ->. injection E as <- <-. now rewrite !firstn_skipn.
Qed.
Print Assumptions C21_partition.
Example C21_partition_case := C21_partition (list Z) nat [[1];[2];[3];[4]]%Z [1;2;3;4] (3#4) None eq_refl ltac:(split; discriminate) ltac:(discriminate).
(** The shuffle moves row i and label i to the same place p(i). *)
Theorem C21_shuffle :
  forall (A B : Type) (X : list A) (y : list B) p, Permutation p (seq 0 (length X)) -> length y = length X ->
    exists X' y', shuffle_both p X y = Ok (X', y') /\ length X' = length X /\ length y' = length y /\
      forall i j, nth_error p i = Some j -> nth_error X' j = nth_error X i /\ nth_error y' j = nth_error y i.
Proof.
  intros A B X y p Hp Hy. destruct (shuffle_both_spec X y Hp Hy) as (X' & y' & E & H1 & H2 & _ & H3).
  exists X', y'. rewrite Hy. auto.
Qed.
Print Assumptions C21_shuffle.
Example C21_shuffle_case := C21_shuffle (list Z) nat [[1];[2];[3];[4]]%Z [1;2;3;4] [0;2;1;3] (perm_skip 0 (perm_swap 1 2 [3])) eq_refl.
(** Outside [0,1] or with a label vector of another length (when shuffling) the call is undefined. *)
Theorem C21_bad_ratio :
  forall (A B : Type) (X : list A) (y : list B) train_size, X <> [] ->
    (inject_Z (Z.of_nat (length X)) * train_size >= inject_Z (Z.of_nat (length X) + 1))%Q ->
    train_test_split X y train_size None = UB.
Proof.
  intros A B X y ts HX Hts. unfold train_test_split. cbn [bind]. 
  assert (H1 : (0 <= inject_Z (Z.of_nat (length X)) * ts)%Q).
  { eapply Qle_trans; [|exact Hts]. change 0%Q with (inject_Z 0). rewrite <- Zle_Qle. lia. }
  rewrite trunc_nonneg by assumption.
  assert (H2 : (Z.of_nat (length X) + 1 <= Qfloor (inject_Z (Z.of_nat (length X)) * ts))%Z).
  { rewrite <- (Qfloor_Z (Z.of_nat (length X) + 1)). apply Qfloor_resp_le. exact Hts. }
  unfold top_rows at 1. rewrite (proj2 (Z.leb_gt _ (Z.of_nat (length X)))) by lia. rewrite Bool.andb_false_r. reflexivity.
Qed.
Print Assumptions C21_bad_ratio.
Example C21_bad_ratio_case := C21_bad_ratio (list Z) nat [[1];[2]]%Z [1;2] (3#2) ltac:(discriminate) ltac:(discriminate).
Theorem C21_bad_labels :
  forall (A B : Type) (X : list A) (y : list B) train_size p, length p = length X -> length y <> length X ->
    exists o, train_test_split X y train_size (Some p) = o /\ (forall r, o <> Ok r).
Proof.
  intros A B X y ts p Hp Hy. eexists. split; [reflexivity|]. intros r. unfold train_test_split, shuffle_both.
  destruct (permute_rows p X); cbn [bind]; try discriminate. unfold permute_rows.
  rewrite (proj2 (Nat.eqb_neq _ _)) by lia. cbn [bind]. discriminate.
Qed.
Print Assumptions C21_bad_labels.
Example C21_bad_labels_case := C21_bad_labels (list Z) nat [[1];[2]]%Z [1] (1#2) [1;0] eq_refl ltac:(discriminate).
Example C21_case : train_test_split [[1];[2];[3];[4]]%Z [1;2;3;4] (3#4) (Some [2;0;3;1]) =
  Ok ([[2];[4];[1]]%Z, [[3]]%Z, [2;4;1], [3]).
Proof. reflexivity. Qed.

(** C22, for any type of values with any comparison. *)
Theorem C22_divide :
  forall (T : Type) (leb : T -> T -> bool) X feature threshold, Forall (fun r => feature < length r) X ->
    exists left right, divide_on_feature leb X feature threshold = Ok (left, right) /\
      (* row numbers in increasing order: order kept, no row twice *)
      StronglySorted lt left /\ StronglySorted lt right /\
      (forall i, In i left <-> exists r v, nth_error X i = Some r /\ nth_error r feature = Some v /\ leb v threshold = true) /\
      (forall i, In i right <-> exists r v, nth_error X i = Some r /\ nth_error r feature = Some v /\ leb v threshold = false) /\
      (* no row lost, none in both *)
      Permutation (left ++ right) (seq 0 (length X)).
Proof.
  intros T leb X feature t HF. destruct (divide_spec leb t HF) as (l & r & E & H1 & H2 & H3 & H4).
  exists l, r. repeat (split; [assumption|]). apply NoDup_Permutation.
  - assert (HS : forall a, StronglySorted lt a -> NoDup a).
    { intros a Ha. induction Ha as [|x a Ha IH Hall]; constructor; [|assumption]. intros Hin.
      rewrite Forall_forall in Hall. specialize (Hall x Hin). lia. }
    assert (Hd : forall i, In i l -> ~ In i r).
    { intros i Hl Hr. apply H3 in Hl. apply H4 in Hr. destruct Hl as (a & b & A1 & A2 & A3).
      destruct Hr as (c & d & B1 & B2 & B3). congruence. }
    pose proof (HS l H1) as Hl. clear -Hl Hd HS H2. induction Hl as [|x l Hx Hl IH]; [apply HS; assumption|].
    simpl. constructor.
    + rewrite in_app_iff. intros [H|H]; [contradiction|]. apply (Hd x); [now left|assumption].
    + apply IH. intros i Hi. apply Hd. now right.
  - apply seq_NoDup.
  - intros i. rewrite in_app_iff, H3, H4, in_seq. split.
    + intros [(a & _ & A1 & _)|(a & _ & A1 & _)]; (assert (i < length X) by (apply nth_error_Some; congruence); lia).
    + intros (_ & Hi). destruct (nth_error X i) as [a|] eqn:Ea; [|apply nth_error_None in Ea; lia].
      rewrite Forall_forall in HF. specialize (HF a (nth_error_In _ _ Ea)).
      destruct (nth_error a feature) as [v|] eqn:Ev; [|apply nth_error_None in Ev; lia].
      destruct (leb v t) eqn:El; [left|right]; eauto.
Qed.
Print Assumptions C22_divide.
Example C22_divide_case := C22_divide Z Z.leb [[5;1];[3;9];[5;2];[4;0]]%Z 0 4%Z ltac:(repeat constructor).
Example C22_case : divide_on_feature Z.leb [[5;1];[3;9];[5;2];[4;0]]%Z 0 4%Z = Ok ([1;3], [0;2]).
Proof. reflexivity. Qed.
