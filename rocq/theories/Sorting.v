(** Stable insertion sort, the reference meaning of [std::stable_sort], and of
    [std::sort] where the order of equivalent elements is unobservable. *)
From Verif Require Import Base.
Set Implicit Arguments.

Section Sort.
  Variable A : Type.
  Variable ltb : A -> A -> bool.     (* the comparator [comp(a, b)] *)

  Fixpoint ins (x : A) (l : list A) : list A :=
    match l with
    | [] => [x]
    | y :: l' => if ltb y x then y :: ins x l' else x :: y :: l'
    end.

  Fixpoint isort (l : list A) : list A :=
    match l with
    | [] => []
    | x :: l' => ins x (isort l')
    end.

  Definition le (a b : A) : Prop := ltb b a = false.

  Lemma ins_perm x l : Permutation (x :: l) (ins x l).
  Proof.
    induction l as [|y l IH]; simpl; [reflexivity|].
    destruct (ltb y x); [|reflexivity].
    rewrite perm_swap. now constructor.
  Qed.

  Lemma isort_perm l : Permutation l (isort l).
  Proof.
    induction l as [|x l IH]; simpl; [constructor|].
    rewrite <- ins_perm. now constructor.
  Qed.

  Lemma isort_length l : length (isort l) = length l.
  Proof. symmetry. apply Permutation_length, isort_perm. Qed.

  Lemma isort_In x l : In x (isort l) <-> In x l.
  Proof.
    split; apply Permutation_in; [symmetry|]; apply isort_perm.
  Qed.

  (* strict weak order *)
  Hypothesis ltb_asym : forall a b, ltb a b = true -> ltb b a = false.
  Hypothesis le_trans : forall a b c, le a b -> le b c -> le a c.

  Lemma ins_sorted x l : StronglySorted le l -> StronglySorted le (ins x l).
  Proof.
    induction 1 as [|y l Hs IH Hall]; simpl; [repeat constructor|].
    destruct (ltb y x) eqn:E.
    - constructor; [assumption|].
      apply Forall_forall. intros z Hz.
      apply (Permutation_in _ (Permutation_sym (ins_perm x l))) in Hz.
      destruct Hz as [<-|Hz].
      + now apply ltb_asym.
      + rewrite Forall_forall in Hall. now apply Hall.
    - constructor; [constructor; assumption|].
      constructor; [exact E|].
      rewrite Forall_forall in Hall |- *. intros z Hz.
      eapply le_trans; [exact E|]. now apply Hall.
  Qed.

  Lemma isort_sorted l : StronglySorted le (isort l).
  Proof. induction l as [|x l IH]; simpl; [constructor|]. now apply ins_sorted. Qed.
End Sort.

(** Ascending sort of integers. *)
Definition zsort (l : list Z) : list Z := isort Z.ltb l.
Definition zsort_desc (l : list Z) : list Z := isort (fun a b => Z.ltb b a) l.

Lemma zsort_sorted l : StronglySorted Z.le (zsort l).
Proof.
  assert (H : StronglySorted (le Z.ltb) (zsort l)).
  { apply isort_sorted.
    - intros a b. rewrite Z.ltb_lt, Z.ltb_ge. lia.
    - unfold le. intros a b c. rewrite !Z.ltb_ge. lia. }
  induction H as [|x l' Hs IH Hall]; constructor; [assumption|].
  eapply Forall_impl; [|exact Hall]. unfold le. intros a Ha. apply Z.ltb_ge in Ha. lia.
Qed.

Lemma zsort_perm l : Permutation l (zsort l).
Proof. apply isort_perm. Qed.

Lemma zsort_desc_sorted l : StronglySorted Z.ge (zsort_desc l).
Proof.
  assert (H : StronglySorted (le (fun a b => Z.ltb b a)) (zsort_desc l)).
  { apply isort_sorted.
    - intros a b. rewrite Z.ltb_lt, Z.ltb_ge. lia.
    - unfold le. intros a b c. rewrite !Z.ltb_ge. lia. }
  induction H as [|x l' Hs IH Hall]; constructor; [assumption|].
  eapply Forall_impl; [|exact Hall]. unfold le. intros a Ha. apply Z.ltb_ge in Ha. lia.
Qed.

Lemma zsort_desc_perm l : Permutation l (zsort_desc l).
Proof. apply isort_perm. Qed.

(** A strictly sorted list is determined by its elements. *)
Lemma StronglySorted_unique {A} (R : A -> A -> Prop) :
  (forall a, ~ R a a) -> (forall a b c, R a b -> R b c -> R a c) ->
  forall l1 l2, StronglySorted R l1 -> StronglySorted R l2 ->
  (forall x, In x l1 <-> In x l2) -> l1 = l2.
Proof.
  intros Hirr Htr. induction l1 as [|a l1 IH]; intros [|b l2] H1 H2 Hin.
  - reflexivity.
  - exfalso. apply (proj2 (Hin b)). now left.
  - exfalso. apply (proj1 (Hin a)). now left.
  - inversion H1 as [|? ? H1' F1]; subst. inversion H2 as [|? ? H2' F2]; subst.
    rewrite Forall_forall in F1, F2.
    assert (a = b) as ->.
    { destruct (proj1 (Hin a) (or_introl eq_refl)) as [Hb|Hb]; [now symmetry|].
      destruct (proj2 (Hin b) (or_introl eq_refl)) as [Ha|Ha]; [assumption|].
      exfalso. apply (Hirr a). eapply Htr; [apply F1|apply F2]; assumption. }
    f_equal. apply IH; auto. intros x. split; intros Hx.
    + destruct (proj1 (Hin x) (or_intror Hx)) as [<-|]; [|assumption].
      exfalso. apply (Hirr b). now apply F1.
    + destruct (proj2 (Hin x) (or_intror Hx)) as [<-|]; [|assumption].
      exfalso. apply (Hirr b). now apply F2.
Qed.

Lemma StronglySorted_perm_unique (l1 l2 : list Z) :
  StronglySorted Z.le l1 -> StronglySorted Z.le l2 -> Permutation l1 l2 -> l1 = l2.
Proof.
  revert l2. induction l1 as [|a l1 IH]; intros [|b l2] H1 H2 HP.
  - reflexivity.
  - apply Permutation_nil in HP. discriminate.
  - symmetry in HP. apply Permutation_nil in HP. discriminate.
  - inversion H1 as [|? ? H1' F1]; subst. inversion H2 as [|? ? H2' F2]; subst.
    rewrite Forall_forall in F1, F2.
    assert (a = b) as ->.
    { assert (Ha : In a (b :: l2)) by (eapply Permutation_in; [exact HP|now left]).
      assert (Hb : In b (a :: l1)) by (eapply Permutation_in; [symmetry; exact HP|now left]).
      destruct Ha as [->|Ha]; [reflexivity|]. destruct Hb as [->|Hb]; [reflexivity|].
      specialize (F1 b Hb). specialize (F2 a Ha). lia. }
    f_equal. apply IH; auto. eapply Permutation_cons_inv. exact HP.
Qed.

Lemma zsort_unique l l' :
  StronglySorted Z.le l' -> Permutation l l' -> zsort l = l'.
Proof.
  intros Hs HP. apply StronglySorted_perm_unique; auto using zsort_sorted.
  rewrite <- zsort_perm. assumption.
Qed.
