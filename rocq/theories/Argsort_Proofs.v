From Verif Require Import Base Sorting Common_Model CommonMisc_Proofs RowSort_Proofs Argsort_Model.
Set Implicit Arguments.

Lemma ins_ext {A} (lt1 lt2 : A -> A -> bool) x l :
  (forall y, In y l -> lt1 y x = lt2 y x) -> ins lt1 x l = ins lt2 x l.
Proof.
  induction l as [|y l IH]; intros H; simpl; [reflexivity|].
  rewrite <- (H y) by now left. destruct (lt1 y x); [|reflexivity].
  f_equal. apply IH. intros z Hz. apply H. now right.
Qed.

Lemma isort_ext {A} (lt1 lt2 : A -> A -> bool) l :
  (forall x y, In x l -> In y l -> lt1 x y = lt2 x y) -> isort lt1 l = isort lt2 l.
Proof.
  induction l as [|x l IH]; intros H; simpl; [reflexivity|].
  rewrite IH by (intros; apply H; now right).
  apply ins_ext. intros y Hy. apply H; [right|now left].
  now apply isort_In in Hy.
Qed.

Section A.
  Variable A : Type.
  Variable lt : A -> A -> bool.
  Hypothesis lt_asym : forall a b, lt a b = true -> lt b a = false.
  Hypothesis le_tr : forall a b c, lt b a = false -> lt c b = false -> lt c a = false.

  Lemma argsort_col_spec line d : 3 <= length line ->
    exists idx, argsort_col lt line = Ok idx /\ Permutation idx (seq 0 (length line)) /\
      StronglySorted (fun i j => lt (nth j line d) (nth i line d) = false) idx.
  Proof.
    intros H. unfold argsort_col. rewrite lin_spaced_big by assumption. rewrite seq_length.
    destruct (Nat.leb_spec (length line) 1); [lia|].
    replace (forallb (fun i => i <? length line) (seq 0 (length line))) with true.
    2: { symmetry. apply forallb_forall. intros i Hi. apply in_seq in Hi. apply Nat.ltb_lt. lia. }
    eexists. split; [reflexivity|]. split; [rewrite <- isort_perm; reflexivity|].
    rewrite (@isort_ext _ _ (fun i j => lt (nth i line d) (nth j line d))).
    - apply (@isort_sorted _ (fun i j => lt (nth i line d) (nth j line d))).
      + intros a b. apply lt_asym.
      + intros a b c H1 H2. unfold le in *. eapply le_tr; eassumption.
    - intros x y Hx Hy. apply in_seq in Hx, Hy. unfold pos_lt_by.
      rewrite (nth_error_nth' line d) by lia. rewrite (nth_error_nth' line d) by lia. reflexivity.
  Qed.

  (** The stable sort keeps equal values in their order. *)
  Lemma argsort_col_one line : length line = 1 -> argsort_col lt line = Ok [1].
  Proof. intros H. unfold argsort_col. rewrite H. reflexivity. Qed.
  Lemma argsort_col_two line : length line = 2 -> argsort_col lt line = UB.
  Proof. intros H. unfold argsort_col. rewrite H. reflexivity. Qed.
End A.
