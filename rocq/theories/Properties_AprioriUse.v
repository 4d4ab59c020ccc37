(** C80: what the thresholds and repeated use do to the answers of [Apriori]. *)
From Coq Require Import QArith Qround.
From Verif Require Import Base Sorting Common_Model HashTree_Model HashTree_Proofs RDR_Proofs RowSort_Proofs Apriori_Model Apriori_Spec Apriori_Proofs
  AprioriLevels_Proofs AprioriRules_Proofs Properties_Apriori AprioriUse_Spec AprioriUse_Proofs.
Local Open Scope nat_scope.

(** * Thresholds *)
(** Raising [min_support] keeps exactly the itemsets that reach the new threshold, with the same counts. *)
Theorem C80_support : forall X ms ms' mc mc' a a', ordered_db X -> (ms <= ms')%Q ->
  fit_transform ms mc apriori_new X = Ok a -> fit_transform ms' mc' apriori_new X = Ok a' ->
  forall I n, In (I, n) (ap_freq a') <-> In (I, n) (ap_freq a) /\ needed X ms' <= n.
Proof.
  intros X ms ms' mc mc' a a' HX Hm E E' I n. pose proof (needed_mono X Hm) as Hn.
  destruct (fit_transform_freq _ _ HX E) as (_ & F). destruct (fit_transform_freq _ _ HX E') as (_ & F'). rewrite F, F', (needed_ok X ms), (needed_ok X ms'). unfold frequent. split.
  - intros ((H1 & H2 & H3 & H4) & ->). split; [|exact H4]. split; [|reflexivity]. split; [exact H1|split; [exact H2|split; [exact H3|lia]]].
  - intros (((H1 & H2 & H3 & _) & ->) & H4). split; [|reflexivity]. split; [exact H1|split; [exact H2|split; [exact H3|exact H4]]].
Qed.
Print Assumptions C80_support.

(** Raising both thresholds keeps exactly the rules that reach the new ones, with the same confidences. *)
Theorem C80_rules : forall X ms ms' mc mc' a a', ordered_db X -> (ms <= ms')%Q -> (mc <= mc')%Q ->
  fit_transform ms mc apriori_new X = Ok a -> fit_transform ms' mc' apriori_new X = Ok a' ->
  forall A B c, In (A, B, c) (ap_rules a') <-> In (A, B, c) (ap_rules a) /\ (mc' <= c)%Q /\ needed X ms' <= support X (A ++ B).
Proof.
  intros X ms ms' mc mc' a a' HX Hm Hc E E' A B c. pose proof (needed_mono X Hm) as Hn.
  destruct (C07_rules X ms mc a HX E) as (_ & R). destruct (C07_rules X ms' mc' a' HX E') as (_ & R').
  assert (SU : forall I, (forall x, In x I <-> In x A \/ In x B) -> support X I = support X (A ++ B)).
  { intros I HI. apply Nat.le_antisymm; apply support_anti; intros x Hx; [apply in_app_iff in Hx; now apply HI|apply in_app_iff; now apply HI]. }
  rewrite R, R'. change (threshold X ms) with (needed X ms). change (threshold X ms') with (needed X ms'). split.
  - intros (H1 & H2 & H3 & H4 & H5 & I & (F1 & F2 & F3 & F4) & H6 & H7 & H8 & H9). split; [|split; [exact H9|now rewrite <- (SU I H7)]].
    repeat (split; [assumption|]). exists I. split; [split; [exact F1|split; [exact F2|split; [exact F3|lia]]]|]. split; [exact H6|]. split; [exact H7|]. split; [exact H8|]. eapply Qle_trans; eassumption.
  - intros ((H1 & H2 & H3 & H4 & H5 & I & (F1 & F2 & F3 & F4) & H6 & H7 & H8 & H9) & K1 & K2).
    repeat (split; [assumption|]). exists I. split; [split; [exact F1|split; [exact F2|split; [exact F3|now rewrite (SU I H7)]]]|]. repeat (split; [assumption|]). exact K1.
Qed.
Print Assumptions C80_rules.

(** Whether the call returns at all is not monotone: on these four transactions thresholds of 1 and 3 return and 2 raises an exception. *)
Theorem C80_outcome_refuted : exists X, ordered_db X /\ (exists a, fit_transform (1 # 4) 0 apriori_new X = Ok a) /\ fit_transform (2 # 4) 0 apriori_new X = Throw InvalidArgument /\
  exists a, fit_transform (3 # 4) 0 apriori_new X = Ok a.
Proof.
  exists [[1; 2]; [1]; [1]; [2]]%Z. split; [|split; [|split]].
  - split; [repeat constructor; lia|]. assert (H : forall x, In x (concat [[1; 2]; [1]; [1]; [2]]%Z) -> x = 1%Z \/ x = 2%Z) by (simpl; intuition).
    intros x y Hx Hy Hlt. apply H in Hx, Hy. destruct Hx as [->| ->], Hy as [->| ->]; try lia. exists [], [2; 1; 1; 2]%Z. simpl. intuition.
  - eexists. vm_compute. reflexivity.
  - reflexivity.
  - eexists. vm_compute. reflexivity.
Qed.
Print Assumptions C80_outcome_refuted.

(** * The rules among themselves *)
(** Every confidence lies above 0 and is at most 1. *)
Theorem C80_range : forall X ms mc a A B c, ordered_db X -> fit_transform ms mc apriori_new X = Ok a -> In (A, B, c) (ap_rules a) -> (0 < c <= 1)%Q.
Proof.
  intros X ms mc a A B c HX E H. apply (C07_rules X ms mc a HX E) in H. destruct H as (_ & _ & _ & _ & _ & I & _ & P & HI & -> & _).
  assert (L : support X I <= support X A) by (apply support_anti; intros x Hx; apply HI; now left). unfold confidence, Qlt, Qle. cbn [Qnum Qden].
  rewrite <- positive_nat_Z, Nat2Pos.id by lia. split; lia.
Qed.
Print Assumptions C80_range.
(** Moving items from the right of a reported rule to its left gives a reported rule of at least its confidence. *)
Theorem C80_stronger_left : forall X ms mc a A B c A' B', ordered_db X -> fit_transform ms mc apriori_new X = Ok a -> In (A, B, c) (ap_rules a) ->
  is_set A' -> is_set B' -> incl A A' -> B' <> [] -> (forall x, In x A' -> ~ In x B') -> (forall x, In x A' \/ In x B' <-> In x A \/ In x B) ->
  exists c', In (A', B', c') (ap_rules a) /\ (c <= c')%Q.
Proof.
  intros X ms mc a A B c A' B' HX E H SA SB IA NB DI U. destruct (C07_rules X ms mc a HX E) as (_ & R). apply R in H. destruct H as (_ & _ & NA & _ & _ & I & F & P & HI & -> & Q).
  assert (L1 : support X I <= support X A') by (apply support_anti; intros x Hx; apply HI, U; now left). assert (L2 : support X A' <= support X A) by now apply support_anti.
  assert (G : (confidence X I A <= confidence X I A')%Q). { unfold confidence, Qle. cbn [Qnum Qden]. rewrite <- !positive_nat_Z, !Nat2Pos.id by lia. nia. }
  exists (confidence X I A'). split; [|exact G]. apply R. repeat split; auto.
  - intros ->. destruct A as [|z A]; [congruence|]. destruct (IA z). now left.
  - exists I. split; [exact F|]. split; [exact P|]. split; [intros x; rewrite HI; symmetry; apply U|]. split; [reflexivity|]. eapply Qle_trans; [exact Q|exact G].
Qed.
Print Assumptions C80_stronger_left.
Example C80_thresholds_case : let X := [[1;2;3];[1;2;3];[2;3]]%Z in ordered_db X /\ (exists a, fit_transform (1#3) (1#2) apriori_new X = Ok a /\ In ([3]%Z, [1; 2]%Z, (2#3)%Q) (ap_rules a)) /\ exists a', fit_transform (2#3) (3#4) apriori_new X = Ok a'.
Proof. split; [exact ordered_case|]. split.
  - eexists. split; [vm_compute; reflexivity|]. vm_compute. intuition.
  - eexists. vm_compute. reflexivity.
Qed.

(** * Using an object again *)
(** [fit_transform] adds to the rules that are there; the new ones compare counts that may come from different databases: each itemset has its support
    in the last database that reported it. *)
Theorem C80_history : forall ms mc Xs a X a', Forall ordered_db (Xs ++ [X]) -> fits ms mc Xs a -> fit_transform ms mc a X = Ok a' ->
  exists new, ap_rules a' = ap_rules a ++ new /\ forall A B c, In (A, B, c) new <->
    is_set A /\ is_set B /\ A <> [] /\ B <> [] /\ (forall x, In x A -> ~ In x B) /\
    exists I n m, last_count ms (Xs ++ [X]) I n /\ last_count ms (Xs ++ [X]) A m /\ (forall x, In x I <-> In x A \/ In x B) /\
      c = (Z.of_nat n # Pos.of_nat m)%Q /\ (mc <= c)%Q.
Proof.
  intros ms mc Xs a X a' HO H E. destruct (fits_freq HO (fits_next _ _ _ _ _ _ H E)) as (S & F).
  assert (Hset : forall I n, om_find lex I (frequency_map (ap_freq a')) = Some n -> is_set I) by (intros I n K; apply F in K; now apply last_count_set in K).
  pose proof (rules_any mc S Hset) as R. unfold fit_transform in E. destruct (fit_data X (support_of X ms) (ap_freq a)) as [r| | |]; try discriminate. cbn [bind] in E.
  rewrite transform_data_eq in E. cbn [bind] in E. injection E as <-. cbn [ap_freq ap_rules] in *. eexists. split; [reflexivity|].
  intros A B c. rewrite R. split; intros (H1 & H2 & H3 & H4 & H5 & I & n & m & K1 & K2 & K3 & K4 & K5); (repeat (split; [assumption|])); exists I, n, m; apply F in K1, K2; repeat (split; [assumption|]); assumption.
Qed.
Print Assumptions C80_history.

(** The same database once more: every rule and itemset is there twice. *)
Theorem C80_same_again : forall ms mc X a, ordered_db X -> fit_transform ms mc apriori_new X = Ok a ->
  exists fr, fit_transform ms mc a X = Ok {| ap_freq := ap_freq a ++ fr; ap_rules := ap_rules a ++ ap_rules a |} /\ forall I n, In (I, n) fr <-> In (I, n) (ap_freq a).
Proof.
  intros ms mc X a HX E. pose proof (fits_next _ _ _ _ _ _ (fits_new ms mc) E) as H1. cbn [app] in H1. pose proof (fit_transform_freq _ _ HX E) as (C1 & C2).
  assert (D : exists a', fit_transform ms mc a X = Ok a').
  { apply (C08_completes_iff ms mc a X HX). apply (C08_completes_iff ms mc apriori_new X HX). eauto. }
  destruct D as (a' & E'). assert (HO2 : Forall ordered_db [X; X]) by (repeat constructor; apply HX). assert (HO1 : Forall ordered_db [X]) by (repeat constructor; apply HX).
  destruct (fits_freq HO1 H1) as (S1 & F1). destruct (fits_freq (Xs := [X; X]) HO2 (fits_next _ _ _ _ _ _ H1 E')) as (S2 & F2).
  assert (EM : frequency_map (ap_freq a') = frequency_map (ap_freq a)).
  { apply (om_ext S2 S1). intros (I & n). rewrite (om_In_find I n S1), (om_In_find I n S2), F1, F2. change [X; X] with ([X] ++ [X]). rewrite last_count_snoc.
    change [X] with (@nil (list (list Z)) ++ [X]). rewrite last_count_snoc. cbn [app]. destruct (reports_dec ms X I); intuition. }
  unfold fit_transform in E, E'. destruct (fit_data X (support_of X ms) (ap_freq apriori_new)) as [r| | |] eqn:Q; try discriminate. cbn [bind] in E. rewrite transform_data_eq in E. cbn [bind] in E. injection E as <-.
  destruct (fit_data X (support_of X ms) _) as [r'| | |] eqn:Q' in E'; try discriminate. cbn [bind] in E'. rewrite transform_data_eq in E'. cbn [bind] in E'. injection E' as <-.
  cbn [ap_freq ap_rules apriori_new app] in *. destruct (@fit_Ok_complete X _ HX _ _ Q') as (fr & -> & C3 & C4). exists fr. split.
  - unfold fit_transform. cbn [ap_freq ap_rules]. rewrite Q'. cbn [bind]. rewrite transform_data_eq. cbn [bind]. rewrite EM. reflexivity.
  - intros I n. now rewrite C4, C2.
Qed.
Print Assumptions C80_same_again.
Example C80_same_again_case : exists a, fit_transform (2#3) (2#3) apriori_new [[1;2;3];[1;2;3];[2;3]]%Z = Ok a /\ length (ap_rules a) = 12.
Proof. eexists. split; vm_compute; reflexivity. Qed.

(** Another database: after three transactions {1,2} and then a database of one transaction {1}, the rule 1 => 2 is reported with confidence 3, and 2 => 1 again although
    item 2 does not occur in the second database. *)
Theorem C80_mixed_refuted : exists X1 X2 a1 a2, ordered_db X1 /\ ordered_db X2 /\ fit_transform (1#4) (1#2) apriori_new X1 = Ok a1 /\ fit_transform (1#4) (1#2) a1 X2 = Ok a2 /\
  In ([1]%Z, [2]%Z, (3#1)%Q) (ap_rules a2) /\ ~ In ([1]%Z, [2]%Z, (3#1)%Q) (ap_rules a1) /\ support X2 [1; 2]%Z = 0 /\ In ([2]%Z, [1]%Z, (3#3)%Q) (skipn (length (ap_rules a1)) (ap_rules a2)).
Proof.
  exists [[1; 2]; [1; 2]; [1; 2]]%Z, [[1]]%Z. do 2 eexists. split; [|split; [|split; [|split]]].
  - split; [repeat constructor; lia|]. assert (H : forall x, In x (concat [[1; 2]; [1; 2]; [1; 2]]%Z) -> x = 1%Z \/ x = 2%Z) by (simpl; intuition).
    intros x y Hx Hy Hlt. apply H in Hx, Hy. destruct Hx as [->| ->], Hy as [->| ->]; try lia. exists [], [2; 1; 2; 1; 2]%Z. simpl. intuition.
  - split; [repeat constructor; lia|]. intros x y [<-|[]] [<-|[]] Hlt; lia.
  - vm_compute. reflexivity.
  - vm_compute. reflexivity.
  - vm_compute. intuition discriminate.
Qed.
Print Assumptions C80_mixed_refuted.
Example C80_history_case : exists a1 a2, Forall ordered_db ([[[1;2;3];[1;2;3];[2;3]]] ++ [[[1;2;3];[1;2;3];[2;3]]])%Z /\ fits (2#3) (2#3) [[[1;2;3];[1;2;3];[2;3]]]%Z a1 /\ fit_transform (2#3) (2#3) a1 [[1;2;3];[1;2;3];[2;3]]%Z = Ok a2.
Proof.
  do 2 eexists. split; [repeat constructor; apply ordered_case|]. split.
  - apply (fits_next _ _ [] _ _ _ (fits_new _ _)). vm_compute. reflexivity.
  - vm_compute. reflexivity.
Qed.
