(** C75, continued: itemsets and rules when every transaction occurs [k] times as often. *)
From Coq Require Import QArith Qround Lia Lqa.
From Verif Require Import Base HashTree_Model Apriori_Model Apriori_Spec Apriori_Proofs RowOrder_Spec RowOrder_Proofs Copies_Spec Copies_Proofs Properties_Apriori.
Local Open Scope nat_scope.

Lemma support_copies k X X' I : Permutation (copies k X) X' -> support X' I = k * support X I.
Proof. intros H. unfold support. rewrite <- (Permutation_length (perm_filter (transaction_has I) H)), copies_filter. apply copies_length. Qed.
Lemma items_copies k (X X' : list (list Z)) x : 0 < k -> Permutation (copies k X) X' -> (In x (concat X') <-> In x (concat X)).
Proof.
  intros Hk H. rewrite !in_concat. split; intros (t & Ht & Hx); exists t; (split; [|assumption]).
  - rewrite <- H in Ht. now apply copies_in in Ht.
  - rewrite <- H. now apply copies_in.
Qed.
Lemma threshold_copies k X X' ms : 0 < k -> Permutation (copies k X) X' -> k * threshold X ms <= threshold X' ms.
Proof.
  intros Hk H. unfold threshold. rewrite <- (Permutation_length H), copies_length. set (q := (inject_Z (Z.of_nat (length X)) * ms)%Q).
  assert (E : (inject_Z (Z.of_nat (k * length X)) * ms == inject_Z (Z.of_nat k) * q)%Q) by (unfold q; rewrite Nat2Z.inj_mul, inject_Z_mult; ring).
  rewrite E. pose proof (Qfloor_le q) as F.
  assert (F2 : (Z.of_nat k * Qfloor q <= Qfloor (inject_Z (Z.of_nat k) * q))%Z).
  { rewrite <- (Qfloor_Z (Z.of_nat k * Qfloor q)). apply Qfloor_resp_le. rewrite inject_Z_mult. rewrite !(Qmult_comm (inject_Z (Z.of_nat k))). apply Qmult_le_compat_r; [exact F|].
    change 0%Q with (inject_Z 0). rewrite <- Zle_Qle. lia. }
  destruct (Z.le_gt_cases 0 (Qfloor q)) as [P|P]; [|lia]. nia.
Qed.
Lemma threshold_whole k X X' ms m : Permutation (copies k X) X' -> (inject_Z (Z.of_nat (length X)) * ms == inject_Z m)%Q -> threshold X' ms = k * threshold X ms.
Proof.
  intros H Hm. unfold threshold. rewrite <- (Permutation_length H), copies_length. rewrite Hm, Qfloor_Z.
  assert (E : (inject_Z (Z.of_nat (k * length X)) * ms == inject_Z (Z.of_nat k * m))%Q) by (rewrite Nat2Z.inj_mul, !inject_Z_mult, <- Hm; ring).
  rewrite E, Qfloor_Z. destruct (Z.le_gt_cases 0 m); [rewrite Z2Nat.inj_mul, Nat2Z.id; lia|].
  destruct k as [|k]; [reflexivity|]. replace (Z.to_nat m) with 0 by lia. rewrite Nat.mul_0_r. nia.
Qed.
Lemma frequent_copies k X X' s I : 0 < k -> Permutation (copies k X) X' -> frequent X' (k * s) I <-> frequent X s I.
Proof.
  intros Hk H. unfold frequent. rewrite (support_copies k X X' I H). unfold incl. split; intros (A & B & C & D); repeat split; try assumption; try nia;
    intros x Hx; apply (items_copies k X X' x Hk H); auto.
Qed.

(** Repeating the transactions never makes an itemset frequent. *)
Theorem C75_apriori_no_more : forall k X X' min_support I, 0 < k -> Permutation (copies k X) X' ->
  frequent X' (threshold X' min_support) I -> frequent X (threshold X min_support) I.
Proof.
  intros k X X' ms I Hk H (A & B & C & D). apply (frequent_copies k X X' _ I Hk H). repeat split; try assumption.
  pose proof (threshold_copies k X X' ms Hk H). lia.
Qed.
Print Assumptions C75_apriori_no_more.

(** If the required number of transactions n * min_support is whole, mining ends in the same way, the same itemsets are recorded with [k] times
    their counts, and the same rules with the same confidences. *)
Theorem C75_apriori : forall k X X' min_support min_confidence m, 0 < k -> Permutation (copies k X) X' -> ordered_db X -> ordered_db X' ->
  (inject_Z (Z.of_nat (length X)) * min_support == inject_Z m)%Q ->
  ((exists a, fit_transform min_support min_confidence apriori_new X = Ok a) <-> (exists a', fit_transform min_support min_confidence apriori_new X' = Ok a')) /\
  forall a a', fit_transform min_support min_confidence apriori_new X = Ok a -> fit_transform min_support min_confidence apriori_new X' = Ok a' ->
    (forall I n, In (I, n) (ap_freq a) -> In (I, k * n) (ap_freq a')) /\
    (forall I n, In (I, n) (ap_freq a') -> exists n0, n = k * n0 /\ In (I, n0) (ap_freq a)) /\
    (forall A B c, In (A, B, c) (ap_rules a) -> exists c', (c' == c)%Q /\ In (A, B, c') (ap_rules a')) /\
    (forall A B c', In (A, B, c') (ap_rules a') -> exists c, (c' == c)%Q /\ In (A, B, c) (ap_rules a)).
Proof.
  intros k X X' ms mc m Hk H HO HO' Hm. pose proof (threshold_whole k X X' ms m H Hm) as ET.
  assert (HF : forall I, frequent X' (threshold X' ms) I <-> frequent X (threshold X ms) I) by (intros I; rewrite ET; now apply frequent_copies).
  assert (HC : forall I A, 0 < support X I -> incl A I -> (confidence X' I A == confidence X I A)%Q).
  { intros I A HI HA. pose proof (support_anti X HA). unfold confidence, Qeq. cbn [Qnum Qden]. rewrite !(support_copies k X X' _ H).
    rewrite <- !positive_nat_Z, !Nat2Pos.id by nia. nia. }
  split.
  - rewrite !C08_completes_iff by assumption. split; intros (j & I & A & B & C & D); exists j, I; repeat split; try assumption; try (now apply HF); try apply B;
      intros J HJ; apply D; now apply HF.
  - intros a a' E E'.
    destruct (C06_complete X ms mc a HO E) as (_ & F1). destruct (C06_complete X' ms mc a' HO' E') as (_ & F2).
    pose proof (C05_true_supports X ms mc a HO E) as S1. pose proof (C05_true_supports X' ms mc a' HO' E') as S2.
    destruct (C07_rules X ms mc a HO E) as (_ & R1). destruct (C07_rules X' ms mc a' HO' E') as (_ & R2).
    repeat split.
    + intros I n HI. destruct (S1 I n HI) as (-> & _ & _). assert (J : In I (map fst (ap_freq a'))) by (apply F2, HF, F1, in_map_iff; now exists (I, support X I)).
      apply in_map_iff in J. destruct J as ((I', n') & <- & J). cbn [fst]. destruct (S2 I' n' J) as (-> & _ & _). now rewrite <- (support_copies k X X' I' H).
    + intros I n HI. destruct (S2 I n HI) as (-> & _ & _). exists (support X I). split; [exact (support_copies k X X' I H)|].
      assert (J : In I (map fst (ap_freq a))) by (apply F1, HF, F2, in_map_iff; now exists (I, support X' I)).
      apply in_map_iff in J. destruct J as ((I', n') & <- & J). cbn [fst]. destruct (S1 I' n' J) as (-> & _ & _). exact J.
    + intros A B c HI. apply R1 in HI. destruct HI as (A1 & A2 & A3 & A4 & A5 & I & A6 & A7 & A8 & -> & A9).
      assert (EC := HC I A A7 ltac:(intros x Hx; apply A8; now left)). exists (confidence X' I A). split; [exact EC|]. apply R2. repeat (split; [assumption|]).
      exists I. split; [now apply HF|]. split; [rewrite (support_copies k X X' I H); nia|]. split; [assumption|]. split; [reflexivity|]. now rewrite EC.
    + intros A B c HI. apply R2 in HI. destruct HI as (A1 & A2 & A3 & A4 & A5 & I & A6 & A7 & A8 & -> & A9).
      rewrite (support_copies k X X' I H) in A7. assert (PI : 0 < support X I) by nia.
      assert (EC := HC I A PI ltac:(intros x Hx; apply A8; now left)). exists (confidence X I A). split; [exact EC|]. apply R1. repeat (split; [assumption|]).
      exists I. split; [now apply HF|]. split; [assumption|]. split; [assumption|]. split; [reflexivity|]. now rewrite <- EC.
Qed.
Print Assumptions C75_apriori.

Lemma ordered_copies k X : 0 < k -> ordered_db X -> ordered_db (copies k X).
Proof.
  intros Hk (A & B). split.
  - rewrite Forall_forall in *. intros t Ht. apply copies_in in Ht; auto.
  - destruct k as [|k]; [lia|]. intros x z Hx Hz. rewrite copies_concat in *. apply copies_in in Hx, Hz; try lia. intros L. destruct (B x z Hx Hz L) as (l1 & l2 & E & N).
    rewrite copies_S, E. exists l1, (l2 ++ copies k (l1 ++ x :: l2)). split; [now rewrite <- app_assoc|exact N].
Qed.
Lemma small_ordered : ordered_db [[1;2;3];[1;2];[1;2]]%Z.
Proof.
  split; [repeat constructor; lia|].
  assert (H : forall x, In x (concat [[1;2;3];[1;2];[1;2]]%Z) -> x = 1%Z \/ x = 2%Z \/ x = 3%Z) by (simpl; intuition).
  intros x y Hx Hy Hlt. apply H in Hx, Hy. destruct Hx as [->|[->| ->]], Hy as [->|[->| ->]]; try lia.
  - exists [], [2;3;1;2;1;2]%Z. simpl. intuition.
  - exists [], [2;3;1;2;1;2]%Z. simpl. intuition.
  - exists [1]%Z, [3;1;2;1;2]%Z. simpl. split; [reflexivity|]. intros [H1|[]]. discriminate.
Qed.

(** Otherwise itemsets get lost, since the number is rounded down: of three transactions half is one, of six it is three. *)
Theorem C75_apriori_refuted : exists X ms mc a a' I, ordered_db X /\ ordered_db (copies 2 X) /\
  fit_transform ms mc apriori_new X = Ok a /\ fit_transform ms mc apriori_new (copies 2 X) = Ok a' /\
  In I (map fst (ap_freq a)) /\ ~ In I (map fst (ap_freq a')).
Proof.
  exists [[1;2;3];[1;2];[1;2]]%Z, (1#2)%Q, (1#2)%Q. do 2 eexists. exists [3]%Z. split; [|split; [|split; [vm_compute; reflexivity|split; [vm_compute; reflexivity|split]]]].
  - exact small_ordered.
  - apply ordered_copies; [lia|exact small_ordered].
  - vm_compute. tauto.
  - vm_compute. intuition discriminate.
Qed.
Print Assumptions C75_apriori_refuted.
Example C75_apriori_no_more_case : ~ frequent (copies 2 [[1;2;3];[1;2];[1;2]]%Z) 3 [2;4]%Z.
Proof. intros H. apply (C75_apriori_no_more 2 [[1;2;3];[1;2];[1;2]]%Z _ (1#2)%Q [2;4]%Z ltac:(lia) (Permutation_refl _)) in H. destruct H as (_ & _ & _ & H). vm_compute in H. lia. Qed.
(** The database of [mining_case] written down three times. *)
Example C75_apriori_case : exists a, fit_transform (2#3) (2#3) apriori_new (copies 3 [[1;2;3];[1;2;3];[2;3]]%Z) = @Ok apriori a /\ In ([1;2;3]%Z, 6) (ap_freq a) /\
  (exists c, (c == 2#3)%Q /\ In ([2;3]%Z, [1]%Z, c) (ap_rules a)).
Proof.
  destruct (C75_apriori 3 [[1;2;3];[1;2;3];[2;3]]%Z _ (2#3) (2#3) 2 ltac:(lia) (Permutation_refl _) ordered_case (ordered_copies 3 _ ltac:(lia) ordered_case) ltac:(reflexivity)) as (H & K).
  destruct mining_case as (a & E & A1 & _ & A2 & _). destruct (proj1 H (ex_intro _ a E)) as (a' & E'). exists a'. split; [exact E'|].
  destruct (K a a' E E') as (K1 & _ & K3 & _). split; [exact (K1 _ _ A1)|]. exact (K3 _ _ _ A2).
Qed.
