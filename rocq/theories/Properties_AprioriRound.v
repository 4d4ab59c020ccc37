(** C72: association rules when the thresholds are doubles.  Specification: [Apriori_Spec], [Round_Spec]; model: [AprioriRound_Model]. *)
From Coq Require Import Reals Lra Psatz.
From Flocq Require Import Core.
From Verif Require Import Base Apriori_Spec Apriori_Model Apriori_Proofs AprioriLevels_Proofs AprioriRules_Proofs Round_Spec Round_Proofs RoundMore_Proofs Round_Model Accuracy_Spec Accuracy_Proofs AprioriRound_Model AprioriRound_Proofs.
Local Open Scope R_scope.

(** The confidence of A => B, for the itemset I of all their items, as a real number. *)
Definition true_confidence (X : list (list Z)) (I A : list Z) : R := INR (support X I) / INR (support X A).

Lemma counts_exact X I : (Z.of_nat (length X) <= 2 ^ 53)%Z -> binary64 (INR (support X I)) = INR (support X I).
Proof. intros H. rewrite INR_IZR_INZ. apply b64_int. pose proof (@filter_length_bound _ (transaction_has I) X) as L. unfold support. lia. Qed.

(** Every itemset occurring in at least the fraction [min_support] of the transactions is recorded, with its number of transactions, and no
    itemset is recorded that is a whole transaction or more short of the fraction. *)
Theorem C72_supports :
  forall X min_support min_confidence a, ordered_db X -> (Z.of_nat (length X) <= 2 ^ 53)%Z -> 0 <= min_support <= 1 ->
    fit_transform_r binary64 min_support min_confidence apriori_r_new X = Ok a ->
    NoDup (map fst (apr_freq a)) /\
    (forall I, is_set I -> I <> [] -> incl I (concat X) -> INR (length X) * min_support <= INR (support X I) -> In (I, support X I) (apr_freq a)) /\
    (forall I n, In (I, n) (apr_freq a) -> is_set I /\ I <> [] /\ incl I (concat X) /\ n = support X I /\ INR (length X) * min_support - 1 < INR n).
Proof.
  intros X ms mc a HX HL Hms E. destruct (support_bounds X ms HL Hms) as (s & Es & B1 & B2). destruct (run_r binary64 ms mc X a s HX Es E) as ((C1 & C2) & _). split; [exact C1|]. split.
  - intros I H1 H2 H3 H4. apply C2. split; [|reflexivity]. repeat (split; [assumption|]). now apply B2.
  - intros I n H. apply C2 in H. destruct H as ((H1 & H2 & H3 & H4) & ->). repeat (split; [assumption|]). split; [reflexivity|]. apply le_INR in H4. lra.
Qed.
Print Assumptions C72_supports.

(** The rules are the splits of recorded itemsets whose quotient of counts, rounded, reaches [min_confidence]; the rounded quotient is reported. *)
Theorem C72_rules :
  forall X min_support min_confidence a, ordered_db X -> (Z.of_nat (length X) <= 2 ^ 53)%Z -> 0 <= min_support <= 1 ->
    fit_transform_r binary64 min_support min_confidence apriori_r_new X = Ok a ->
    NoDup (map fst (apr_rules a)) /\
    forall A B c, In (A, B, c) (apr_rules a) <->
      is_set A /\ is_set B /\ A <> [] /\ B <> [] /\ (forall x, In x A -> ~ In x B) /\
      exists I, In (I, support X I) (apr_freq a) /\ (0 < support X I)%nat /\ (forall x, In x I <-> In x A \/ In x B) /\
        c = binary64 (true_confidence X I A) /\ min_confidence <= c.
Proof.
  intros X ms mc a HX HL Hms E. destruct (support_bounds X ms HL Hms) as (s & Es & _). destruct (run_r binary64 ms mc X a s HX Es E) as ((C1 & C2) & N & R). split; [exact N|].
  intros A B c. rewrite R. split; intros (H1 & H2 & H3 & H4 & H5 & I & H6 & H7 & H8 & -> & H10); repeat (split; [assumption|]); exists I; unfold confidence_r, true_confidence in *; rewrite !counts_exact in * by exact HL.
  - split; [now apply C2|auto].
  - split; [now apply C2 in H6|auto].
Qed.
Print Assumptions C72_rules.
(** So no rule with enough confidence is lost, and the true confidence of a reported rule is at least [min_confidence] up to one relative error of 2^-53. *)
Theorem C72_confidence :
  forall X min_support min_confidence a, ordered_db X -> (Z.of_nat (length X) <= 2 ^ 53)%Z -> 0 <= min_support <= 1 -> representable binary64 min_confidence ->
    fit_transform_r binary64 min_support min_confidence apriori_r_new X = Ok a ->
    (forall A B I, is_set A -> is_set B -> A <> [] -> B <> [] -> (forall x, In x A -> ~ In x B) -> (forall x, In x I <-> In x A \/ In x B) ->
       In (I, support X I) (apr_freq a) -> (0 < support X I)%nat -> min_confidence <= true_confidence X I A -> exists c, In (A, B, c) (apr_rules a)) /\
    (forall A B c, In (A, B, c) (apr_rules a) -> exists I, (forall x, In x I <-> In x A \/ In x B) /\ within_errors 1 c (true_confidence X I A) /\
       min_confidence <= (1 + ulp_half) * true_confidence X I A).
Proof.
  intros X ms mc a HX HL Hms Hmc E. destruct (C72_rules X ms mc a HX HL Hms E) as (_ & R). split.
  - intros A B I H1 H2 H3 H4 H5 H6 H7 H8 H9. exists (binary64 (true_confidence X I A)). apply R. repeat (split; [assumption|]). exists I. repeat (split; [assumption|]). split; [reflexivity|].
    rewrite <- Hmc. now apply (proj1 binary64_rounding).
  - intros A B c H. apply R in H. destruct H as (_ & _ & _ & _ & _ & I & _ & P & U & -> & L). exists I. split; [exact U|].
    assert (PA : (support X I <= support X A)%nat) by (apply support_anti; intros x Hx; apply U; now left). assert (LA : (support X A <= length X)%nat) by apply filter_length_bound.
    assert (N : within_errors 1 (binary64 (true_confidence X I A)) (true_confidence X I A)).
    { assert (G : bpow radix2 (-53) <= true_confidence X I A).
      { unfold true_confidence. assert (HA : 0 < INR (support X A)) by (apply lt_0_INR; lia). assert (HI : 1 <= INR (support X I)) by (apply (le_INR 1); lia).
        apply Rmult_le_reg_r with (INR (support X A)); [exact HA|]. unfold Rdiv. rewrite Rmult_assoc, Rinv_l by lra. rewrite Rmult_1_r.
        apply Rle_trans with (bpow radix2 (-53) * bpow radix2 53); [|rewrite <- bpow_plus; cbn; lra]. apply Rmult_le_compat_l; [apply bpow_ge_0|]. rewrite INR_IZR_INZ. change (bpow radix2 53) with (IZR (2 ^ 53)). apply IZR_le. lia. }
      assert (P0 : 0 <= true_confidence X I A) by (pose proof (bpow_gt_0 radix2 (-53)); lra). apply errors_of; [exact P0|]. rewrite <- (Rabs_pos_eq (true_confidence X I A) P0) at 3. apply normal_error.
      right. rewrite Rabs_pos_eq by exact P0. eapply Rle_trans; [|exact G]. apply bpow_le. lia. }
    split; [exact N|]. destruct N as [_ N]. rewrite pow_1 in N. lra.
Qed.
Print Assumptions C72_confidence.
(** With a threshold written as a fraction p / q, and fewer than 2^26 transactions, rounding has no influence: a rule is reported if and only if
    its true confidence is at least p / q. *)
Theorem C72_fraction :
  forall X min_support p q a, ordered_db X -> (Z.of_nat (length X) <= 2 ^ 26)%Z -> 0 <= min_support <= 1 -> (0 <= p <= q)%Z -> (0 < q <= 2 ^ 26)%Z ->
    fit_transform_r binary64 min_support (binary64 (IZR p / IZR q)) apriori_r_new X = Ok a ->
    forall A B, (exists c, In (A, B, c) (apr_rules a)) <->
      is_set A /\ is_set B /\ A <> [] /\ B <> [] /\ (forall x, In x A -> ~ In x B) /\
      exists I, In (I, support X I) (apr_freq a) /\ (0 < support X I)%nat /\ (forall x, In x I <-> In x A \/ In x B) /\ IZR p / IZR q <= true_confidence X I A.
Proof.
  intros X ms p q a HX HL Hms Hp Hq E A B. assert (HL' : (Z.of_nat (length X) <= 2 ^ 53)%Z) by (clear - HL; lia). destruct (C72_rules X ms _ a HX HL' Hms E) as (_ & R).
  assert (K : forall I, (0 < support X I)%nat -> (forall x, In x I <-> In x A \/ In x B) -> (binary64 (IZR p / IZR q) <= binary64 (true_confidence X I A) <-> IZR p / IZR q <= true_confidence X I A)).
  { intros I P U. assert (PA : (support X I <= support X A)%nat) by (apply support_anti; intros x Hx; apply U; now left). assert (LA : (support X A <= length X)%nat) by apply filter_length_bound.
    unfold true_confidence. rewrite !INR_IZR_INZ. apply fraction_order; try lia. clear - HL LA Hq. change (2 ^ 52)%Z with (2 ^ 26 * 2 ^ 26)%Z. apply Z.mul_le_mono_nonneg; lia. }
  split.
  - intros (c & H). apply R in H. destruct H as (H1 & H2 & H3 & H4 & H5 & I & H6 & H7 & H8 & -> & H10). repeat (split; [assumption|]). exists I. repeat (split; [assumption|]). now apply K.
  - intros (H1 & H2 & H3 & H4 & H5 & I & H6 & H7 & H8 & H10). exists (binary64 (true_confidence X I A)). apply R. repeat (split; [assumption|]). exists I. repeat (split; [assumption|]). split; [reflexivity|]. now apply K.
Qed.
Print Assumptions C72_fraction.
(** Mining ends on every database, after any earlier use of the object, without undefined behaviour ... *)
Theorem C72_ends :
  forall X min_support min_confidence a, (Z.of_nat (length X) <= 2 ^ 53)%Z -> 0 <= min_support <= 1 ->
    (exists a', fit_transform_r binary64 min_support min_confidence a X = Ok a') \/
    fit_transform_r binary64 min_support min_confidence a X = Throw RuntimeError \/
    fit_transform_r binary64 min_support min_confidence a X = Throw InvalidArgument.
Proof.
  intros X ms mc a HL Hms. destruct (support_bounds X ms HL Hms) as (s & Es & _). unfold fit_transform_r. rewrite Es. cbn [bind].
  destruct (fit_data_safe X s (apr_freq a)) as [(r & E)|[E|E]]; rewrite E; cbn [bind]; auto. left. rewrite transform_rel, transform_data_eq. cbn [bind]. eauto.
Qed.
Print Assumptions C72_ends.
(** ... but a negative [min_support] can be outside the range of the conversion to an unsigned integer. *)
Theorem C72_negative_refuted :
  forall X min_support min_confidence a, X <> [] -> (Z.of_nat (length X) <= 2 ^ 53)%Z -> min_support <= -1 ->
    fit_transform_r binary64 min_support min_confidence a X = UB.
Proof.
  intros X ms mc a HX HL Hms. unfold fit_transform_r, support_r. set (n := INR (length X)). assert (Hn : n = IZR (Z.of_nat (length X))) by apply INR_IZR_INZ.
  assert (N1 : 1 <= n) by (apply (le_INR 1); destruct X; [congruence|cbn; lia]). rewrite Hn, b64_int, <- Hn by lia.
  assert (L : binary64 (n * ms) <= -1) by (rewrite <- (b64_int (-1)) by (cbn; lia); apply (proj1 binary64_rounding); nra).
  unfold trunc_r. destruct (Rle_dec 0 (binary64 (n * ms))) as [G|_]; [lra|]. pose proof (int_bounds (- binary64 (n * ms))) as B.
  assert (1 < Int_part (- binary64 (n * ms)) + 1)%Z by (apply lt_IZR; rewrite plus_IZR; lra).
  destruct (Z.ltb_spec (- Int_part (- binary64 (n * ms))) 0); [reflexivity|lia].
Qed.
Print Assumptions C72_negative_refuted.
(** For the support the fraction matters: 29 in a hundred, as a double, admits an item of 28 in a hundred transactions. *)
Theorem C72_supports_refuted :
  exists X a n, ordered_db X /\ length X = 100%nat /\ fit_transform_r binary64 (binary64 (29 / 100)) (/ 2) apriori_r_new X = Ok a /\
    In ([1%Z], n) (apr_freq a) /\ n = support X [1%Z] /\ INR n < 29 / 100 * INR (length X).
Proof.
  set (X := repeat [1%Z] 28 ++ repeat [] 72).
  assert (L : INR (length X) = 100) by (rewrite INR_IZR_INZ; reflexivity).
  assert (Es : support_r binary64 X (binary64 (29 / 100)) = Ok 28%nat).
  { unfold support_r. rewrite L, (b64_int 100) by (cbn; lia). rewrite (b64_val (29 / 100) 54 5224175567749775) by (try lia; cbn; lra).
    rewrite (b64_val _ 48 8162774324609023) by (try lia; cbn; lra). rewrite trunc_int by (cbn; lra).
    assert (T : Int_part (8162774324609023 / IZR (2 ^ 48)) = 28%Z).
    { pose proof (int_bounds (8162774324609023 / IZR (2 ^ 48))) as B. set (v := 8162774324609023 / IZR (2 ^ 48)) in *. assert (V : 28 <= v < 29) by (unfold v; cbn; lra). clearbody v.
      assert (A1 : (28 < Int_part v + 1)%Z) by (apply lt_IZR; rewrite plus_IZR; lra). assert (A2 : (Int_part v < 29)%Z) by (apply lt_IZR; lra). lia. }
    rewrite T. reflexivity. }
  destruct (run_r_Ok binary64 _ (/ 2) X 28 [([1%Z], 28%nat)] Es) as (a & E & F); [vm_compute; reflexivity|].
  exists X, a, 28%nat. split; [|split; [reflexivity|split; [exact E|rewrite F; split; [now left|split; [reflexivity|rewrite L, INR_IZR_INZ; cbn; lra]]]]].
  split; [unfold X; apply Forall_app; split; apply Forall_forall; intros t Ht; apply repeat_spec in Ht; subst t; repeat constructor|].
  assert (C : concat X = repeat 1%Z 28) by reflexivity. rewrite C. intros x y Hx Hy. apply repeat_spec in Hx, Hy. lia.
Qed.
Print Assumptions C72_supports_refuted.
(** And a rule can be reported whose true confidence is below the threshold: one fifth, if the threshold is the double nearest to it. *)
Theorem C72_confidence_refuted :
  exists X min_confidence a A B c I, ordered_db X /\ representable binary64 min_confidence /\
    fit_transform_r binary64 min_confidence min_confidence apriori_r_new X = Ok a /\ In (A, B, c) (apr_rules a) /\
    (forall x, In x I <-> In x A \/ In x B) /\ true_confidence X I A < min_confidence.
Proof.
  set (X := [[1; 2]; [1]; [1]; [1]; [1]]%Z). set (mc := binary64 (1 / 5)).
  assert (V : mc = 7205759403792794 / IZR (2 ^ 55)) by (apply b64_val; [lia|cbn; lra|cbn; lra]).
  assert (Es : support_r binary64 X mc = Ok 1%nat).
  { unfold support_r. replace (INR (length X)) with 5 by (rewrite INR_IZR_INZ; reflexivity). rewrite (b64_int 5) by (cbn; lia). rewrite V.
    rewrite (b64_val _ 52 4503599627370496) by (try lia; cbn; lra). rewrite trunc_int by (cbn; lra).
    replace (4503599627370496 / IZR (2 ^ 52)) with (IZR 1) by (cbn; lra). assert (T : Int_part 1 = 1%Z) by (pose proof (int_bounds 1) as B; assert (A1 : (1 < Int_part 1 + 1)%Z) by (apply lt_IZR; rewrite plus_IZR; lra); assert (A2 : (Int_part 1 < 2)%Z) by (apply lt_IZR; lra); lia).
    rewrite T. reflexivity. }
  destruct (run_r_Ok binary64 _ mc X 1 [([1%Z], 5%nat); ([2%Z], 1%nat); ([1; 2]%Z, 1%nat)] Es) as (a & E & F); [vm_compute; reflexivity|].
  assert (O : ordered_db X).
  { split; [repeat constructor; lia|]. intros x y Hx Hy Hlt. cbn in Hx, Hy. assert (x = 1%Z /\ y = 2%Z) as (-> & ->) by lia. exists [], [2; 1; 1; 1; 1]%Z. split; [reflexivity|intros []]. }
  assert (U : forall x, In x [1; 2]%Z <-> In x [1]%Z \/ In x [2]%Z) by (intros x; cbn; tauto).
  assert (T : true_confidence X [1; 2]%Z [1]%Z = 1 / 5) by (unfold true_confidence; rewrite !INR_IZR_INZ; reflexivity).
  exists X, mc, a, [1%Z], [2%Z], mc, [1; 2]%Z. split; [exact O|]. split; [apply rep_rnd|]. split; [exact E|]. split; [|split; [exact U|rewrite T, V; cbn; lra]].
  assert (M : 0 <= mc <= 1) by (rewrite V; cbn; lra).
  apply (proj2 (C72_rules X mc mc a O ltac:(cbn; lia) M E)). split; [repeat constructor|]. split; [repeat constructor|]. split; [discriminate|]. split; [discriminate|]. split; [intros x [<- |[]] [H|[]]; discriminate H|].
  exists [1; 2]%Z. split; [rewrite F; right; right; now left|]. split; [cbn; lia|]. split; [exact U|]. split; [unfold mc; now rewrite T|lra].
Qed.
Print Assumptions C72_confidence_refuted.
(** A rule with confidence exactly the fraction asked for is reported: 2/3. *)
Example C72_case : exists a c, fit_transform_r binary64 (/ 2) (binary64 (IZR 2 / IZR 3)) apriori_r_new [[1; 2; 3]; [1; 2; 3]; [2; 3]]%Z = Ok a /\ In ([2; 3]%Z, [1%Z], c) (apr_rules a).
Proof.
  set (X := [[1; 2; 3]; [1; 2; 3]; [2; 3]]%Z).
  assert (Es : support_r binary64 X (/ 2) = Ok 1%nat).
  { unfold support_r. replace (INR (length X)) with 3 by (rewrite INR_IZR_INZ; reflexivity). rewrite (b64_int 3) by (cbn; lia).
    rewrite (b64_val _ 52 6755399441055744) by (try lia; cbn; lra). rewrite trunc_int by (cbn; lra). replace (6755399441055744 / IZR (2 ^ 52)) with (3 / 2) by (cbn; lra).
    assert (T : Int_part (3 / 2) = 1%Z) by (pose proof (int_bounds (3 / 2)) as B; assert (A1 : (1 < Int_part (3 / 2) + 1)%Z) by (apply lt_IZR; rewrite plus_IZR; lra); assert (A2 : (Int_part (3 / 2) < 2)%Z) by (apply lt_IZR; lra); lia).
    rewrite T. reflexivity. }
  destruct (run_r_Ok binary64 (/ 2) (binary64 (IZR 2 / IZR 3)) X 1 [([1], 2%nat); ([2], 3%nat); ([3], 3%nat); ([1; 2], 2%nat); ([1; 3], 2%nat); ([2; 3], 3%nat); ([1; 2; 3], 2%nat)]%Z Es) as (a & E & F); [vm_compute; reflexivity|].
  assert (O : ordered_db X).
  { split; [repeat constructor; lia|]. assert (H : forall x, In x (concat X) -> x = 1%Z \/ x = 2%Z \/ x = 3%Z) by (simpl; intuition). intros x y Hx Hy Hlt. apply H in Hx, Hy.
    assert ((x = 1 /\ (y = 2 \/ y = 3)) \/ (x = 2 /\ y = 3))%Z as [(-> & K)|(-> & ->)] by lia; [exists [], [2; 3; 1; 2; 3; 2; 3]%Z; split; [reflexivity|intros []]|exists [1%Z], [3; 1; 2; 3; 2; 3]%Z; split; [reflexivity|intros [K|[]]; discriminate K]]. }
  assert (M : 0 <= / 2 <= 1) by lra.
  destruct (proj2 (C72_fraction X (/ 2) 2 3 a O ltac:(cbn; lia) M ltac:(lia) ltac:(cbn; lia) E [2; 3]%Z [1%Z])) as (c & K); [|exists a, c; split; [exact E|exact K]].
  split; [repeat constructor; lia|]. split; [repeat constructor|]. split; [discriminate|]. split; [discriminate|]. split; [intros x [<- |[<- |[]]] [H|[]]; discriminate H|].
  exists [1; 2; 3]%Z. split; [rewrite F; do 6 right; now left|]. split; [cbn; lia|]. split; [intros x; cbn; tauto|]. unfold true_confidence. rewrite !INR_IZR_INZ. apply Rle_refl.
Qed.
