(** Apriori with rounded thresholds against Apriori with exact ones. *)
From Coq Require Import QArith Reals Lra Psatz.
From Flocq Require Import Core.
From Verif Require Import Base Common_Model HashTree_Model HashTree_Spec HashTree_Proofs Apriori_Model Apriori_Spec Apriori_Proofs AprioriLevels_Proofs AprioriRules_Proofs
  Round_Spec Round_Proofs Round_Model RoundMore_Proofs Accuracy_Spec Accuracy_Proofs AprioriRound_Model.
Local Open Scope R_scope.

(** ** The rules, for any rounding *)
Section Rules.
  Variable rnd : R -> R.
  Variable mc : R.
  Definition conf_of (c : Q) : R := rnd (rnd (IZR (Qnum c)) / rnd (IZR (Zpos (Qden c)))).
  Definition keep (r : rule) : list rule_r := if Rle_dec mc (conf_of (snd r)) then [(fst r, conf_of (snd r))] else [].

  Lemma flat_map_app_ {A B} (f : A -> list B) l1 l2 : flat_map f (l1 ++ l2) = flat_map f l1 ++ flat_map f l2.
  Proof. induction l1 as [|a l1 IH]; cbn; [reflexivity|]. now rewrite IH, app_assoc. Qed.
  Lemma conf_of_counts n m : (0 < m)%nat -> conf_of (Z.of_nat n # Pos.of_nat m) = confidence_r rnd n m.
  Proof.
    intros H. unfold conf_of, confidence_r. cbn [Qnum Qden]. rewrite !INR_IZR_INZ. replace (Z.pos (Pos.of_nat m)) with (Z.of_nat m) by lia. reflexivity.
  Qed.
  Variable fm : list (itemset * nat).
  Hypothesis fm_pos : forall c m, om_find lex c fm = Some m -> (0 < m)%nat.
  Lemma candidates_rel I n cs : rules_of_candidates_r rnd fm mc I n cs = flat_map keep (rules_of_candidates fm 0 I n cs).
  Proof.
    induction cs as [|c cs IH]; cbn [rules_of_candidates_r rules_of_candidates]; [reflexivity|]. destruct (om_find lex c fm) as [m|] eqn:E; [|exact IH].
    assert (Q0 : Qle_bool 0 (Z.of_nat n # Pos.of_nat m) = true). { apply Qle_bool_iff. unfold Qle. cbn. lia. }
    rewrite Q0. cbn [flat_map]. rewrite <- IH. unfold keep at 1. cbn [fst snd]. rewrite (conf_of_counts n m (fm_pos c m E)).
    destruct (Rle_dec mc (confidence_r rnd n m)); reflexivity.
  Qed.
  Lemma itemset_rel e : rules_of_itemset_r rnd fm mc e = let! r := rules_of_itemset fm 0 e in Ok (flat_map keep r).
  Proof.
    unfold rules_of_itemset_r, rules_of_itemset. destruct (length (fst e) =? 1)%nat; [reflexivity|]. destruct (mapM _ _) as [css| | |]; cbn [bind]; [|reflexivity..]. f_equal.
    induction css as [|cs css IH]; [reflexivity|]. cbn [flat_map]. rewrite flat_map_app_, IH. f_equal. apply candidates_rel.
  Qed.
  Lemma itemsets_rel l : (let! rss := mapM (rules_of_itemset_r rnd fm mc) l in Ok (concat rss)) = let! rss := mapM (rules_of_itemset fm 0) l in Ok (flat_map keep (concat rss)).
  Proof.
    induction l as [|e l IH]; [reflexivity|]. cbn [mapM]. rewrite itemset_rel. destruct (rules_of_itemset fm 0 e) as [r| | |]; cbn [bind]; [|reflexivity..].
    destruct (mapM (rules_of_itemset_r rnd fm mc) l) as [a| | |], (mapM (rules_of_itemset fm 0) l) as [b| | |]; cbn [bind] in *; try congruence.
    cbn [concat]. rewrite flat_map_app_. injection IH as IH. now rewrite IH.
  Qed.
End Rules.

Lemma frequency_pos freq : forall m, (forall c k, om_find lex c m = Some k -> (0 < k)%nat) -> om_sorted lex m -> forall c k, om_find lex c (fold_left add_frequency freq m) = Some k -> (0 < k)%nat.
Proof.
  induction freq as [|(J & n) freq IH]; intros m Hm Hs c k; cbn [fold_left]; [apply Hm|]. apply IH.
  - intros c' k'. unfold add_frequency. cbn [fst snd]. destruct (Nat.ltb_spec 0 n); [|apply Hm]. rewrite om_set_find by (auto using lex_eq, lex_antisym). destruct (lex c' J); [injection 1 as <-; assumption|apply Hm..].
  - unfold add_frequency. cbn [fst snd]. destruct (0 <? n)%nat; [|assumption]. apply om_set_sorted; auto using lex_eq, lex_antisym. intros a b d. apply lex_trans.
Qed.
Lemma transform_rel rnd mc freq : transform_data_r rnd mc freq = let! r := transform_data 0 freq in Ok (flat_map (keep rnd mc) r).
Proof.
  unfold transform_data_r, transform_data. rewrite itemsets_rel.
  - now destruct (mapM _ _).
  - intros c m. apply frequency_pos; [discriminate|constructor].
Qed.
Lemma keep_In rnd mc A B c l : In (A, B, c) (flat_map (keep rnd mc) l) <-> exists q, In (A, B, q) l /\ c = conf_of rnd q /\ mc <= c.
Proof.
  rewrite in_flat_map. split.
  - intros (((A' & B') & q) & H & K). unfold keep in K. cbn [fst snd] in K. destruct (Rle_dec mc (conf_of rnd q)); [|destruct K]. destruct K as [[= <- <- <-]|[]]. eauto.
  - intros (q & H & -> & L). exists (A, B, q). split; [exact H|]. unfold keep. cbn [fst snd]. destruct (Rle_dec mc (conf_of rnd q)); [now left|contradiction].
Qed.
Lemma keep_NoDup rnd mc l : NoDup (map fst l) -> NoDup (map fst (flat_map (keep rnd mc) l)).
Proof.
  induction l as [|((A & B) & q) l IH]; [constructor|]. cbn [map flat_map fst]. intros H. inversion H as [|? ? Hn Hd]; subst. unfold keep at 1. cbn [fst snd].
  destruct (Rle_dec mc (conf_of rnd q)); [|now apply IH]. cbn [app map fst]. constructor; [|now apply IH]. intros K. apply Hn. apply in_map_iff in K. destruct K as (((A' & B') & c) & E & K).
  cbn [fst] in E. injection E as -> ->. apply keep_In in K. destruct K as (q' & K & _). apply in_map_iff. exists (A, B, q'). now split.
Qed.

(** ** What a run gives *)
Lemma run_r rnd ms mc X a s : ordered_db X -> support_r rnd X ms = Ok s -> fit_transform_r rnd ms mc apriori_r_new X = Ok a ->
  complete X s (apr_freq a) /\ NoDup (map fst (apr_rules a)) /\
  forall A B c, In (A, B, c) (apr_rules a) <-> is_set A /\ is_set B /\ A <> [] /\ B <> [] /\ (forall x, In x A -> ~ In x B) /\
    exists I, frequent X s I /\ (0 < support X I)%nat /\ (forall x, In x I <-> In x A \/ In x B) /\ c = confidence_r rnd (support X I) (support X A) /\ mc <= c.
Proof.
  intros HX Es E. unfold fit_transform_r in E. rewrite Es in E. cbn [bind apr_freq apr_rules apriori_r_new] in E. destruct (fit_data X s []) as [fr| | |] eqn:Ef; try discriminate. cbn [bind] in E.
  rewrite transform_rel, transform_data_eq in E. cbn [bind] in E. injection E as <-. cbn [apr_freq apr_rules app].
  destruct (@fit_Ok_complete X s HX [] fr Ef) as (fr' & E & Hc). cbn [app] in E. subst fr'. split; [exact Hc|]. split; [apply keep_NoDup, (rules_NoDup 0 Hc)|].
  intros A B c. rewrite keep_In. split.
  - intros (q & H & -> & L). apply (rules_In 0 Hc) in H. destruct H as (H1 & H2 & H3 & H4 & H5 & I & H6 & H7 & H8 & -> & H10). repeat (split; [assumption|]). exists I.
    assert (P : (0 < support X A)%nat) by (assert (In0 : incl A I) by (intros x Hx; apply H8; now left); pose proof (support_anti X In0); lia).
    unfold confidence in *. rewrite conf_of_counts in * by exact P. repeat (split; [assumption|]). split; [reflexivity|exact L].
  - intros (H1 & H2 & H3 & H4 & H5 & I & H6 & H7 & H8 & -> & H10). exists (confidence X I A).
    assert (P : (0 < support X A)%nat) by (assert (In0 : incl A I) by (intros x Hx; apply H8; now left); pose proof (support_anti X In0); lia).
    split; [|unfold confidence; now rewrite conf_of_counts]. apply (rules_In 0 Hc). repeat (split; [assumption|]). exists I. repeat (split; [assumption|]). split; [reflexivity|].
    unfold confidence, Qle. cbn. lia.
Qed.

(** ** The support threshold *)
Lemma int_bounds x : IZR (Int_part x) <= x < IZR (Int_part x) + 1.
Proof. destruct (base_Int_part x). lra. Qed.
Lemma trunc_int v : 0 <= v -> trunc_r v = Int_part v.
Proof. intros H. unfold trunc_r. destruct (Rle_dec 0 v); [reflexivity|lra]. Qed.
Lemma support_bounds X ms : (Z.of_nat (length X) <= 2 ^ 53)%Z -> 0 <= ms <= 1 ->
  exists s, support_r binary64 X ms = Ok s /\ INR (length X) * ms - 1 < INR s /\ forall k, INR (length X) * ms <= INR k -> (s <= k)%nat.
Proof.
  intros HL Hms. unfold support_r. set (n := INR (length X)). assert (Hn : n = IZR (Z.of_nat (length X))) by apply INR_IZR_INZ. assert (N0 : 0 <= n) by apply pos_INR.
  assert (E : binary64 n = n) by (rewrite Hn; apply b64_int; lia). rewrite E. assert (P : 0 <= n * ms) by (apply Rmult_le_pos; lra). assert (P1 : n * ms <= n) by nra.
  pose proof (proj1 binary64_rounding) as MON. assert (R0 : 0 <= binary64 (n * ms)) by (rewrite <- (rnd_0 binary64 binary64_rounding); now apply MON).
  assert (R1 : binary64 (n * ms) <= n) by (rewrite <- E at 2; now apply MON). rewrite (trunc_int _ R0). set (t := Int_part (binary64 (n * ms))). pose proof (int_bounds (binary64 (n * ms))) as B. fold t in B.
  assert (T0 : (0 <= t)%Z). { assert (0 < t + 1)%Z by (apply lt_IZR; rewrite plus_IZR; lra). lia. }
  assert (T1 : (t <= Z.of_nat (length X))%Z) by (apply le_IZR; lra).
  destruct (Z.ltb_spec t 0); [lia|]. destruct (Z.leb_spec two64 t) as [H2|_]; [exfalso; unfold two64 in H2; lia|]. cbn [orb]. exists (Z.to_nat t). split; [reflexivity|].
  assert (EI : INR (Z.to_nat t) = IZR t) by (rewrite INR_IZR_INZ; f_equal; lia). split.
  - pose proof (int_bounds (n * ms)) as C. set (f := Int_part (n * ms)) in *. assert (F0 : (0 <= f)%Z). { assert (0 < f + 1)%Z by (apply lt_IZR; rewrite plus_IZR; lra). lia. }
    assert (F1 : (f <= Z.of_nat (length X))%Z) by (apply le_IZR; lra). assert (Ef : binary64 (IZR f) = IZR f) by (apply b64_int; lia).
    assert (G : IZR f <= binary64 (n * ms)) by (rewrite <- Ef; apply MON; lra). assert (f < t + 1)%Z by (apply lt_IZR; rewrite plus_IZR; lra). assert (L : (f <= t)%Z) by lia. apply IZR_le in L. rewrite EI. lra.
  - intros k Hk. destruct (Nat.le_gt_cases (length X) k) as [G|G]; [lia|]. rewrite INR_IZR_INZ in Hk. assert (Ek : binary64 (IZR (Z.of_nat k)) = IZR (Z.of_nat k)) by (apply b64_int; lia).
    assert (G1 : binary64 (n * ms) <= IZR (Z.of_nat k)) by (rewrite <- Ek; now apply MON). assert (t <= Z.of_nat k)%Z by (apply le_IZR; lra). lia.
Qed.

(** ** The confidence threshold *)
Lemma near_1 x : 0 <= x <= 1 -> Rabs (binary64 x - x) <= bpow radix2 (-54).
Proof.
  intros H. destruct (Req_dec x 1) as [-> |N]; [rewrite (b64_int 1), Rminus_diag_eq, Rabs_R0 by (cbn; lia || lra); apply bpow_ge_0|].
  unfold binary64. eapply Rle_trans; [apply error_le_half_ulp; apply FLT_exp_valid; reflexivity|].
  assert (U : ulp radix2 (FLT_exp (-1074) 53) x <= bpow radix2 (-53)).
  { destruct (Req_dec x 0) as [-> |Nx]; [rewrite ulp_FLT_small by (try reflexivity; rewrite Rabs_R0; apply bpow_gt_0); apply bpow_le; lia|].
    rewrite ulp_neq_0 by exact Nx. apply bpow_le. unfold cexp, FLT_exp. assert (M : (mag radix2 x <= 0)%Z). { apply mag_le_bpow; [exact Nx|]. rewrite Rabs_pos_eq by lra. cbn. lra. } lia. }
  replace (bpow radix2 (-54)) with (/ 2 * bpow radix2 (-53)); [lra|]. change (/ 2) with (bpow radix2 (-1)). rewrite <- bpow_plus. reflexivity.
Qed.
Lemma fractions_apart a b p q : (0 < b)%Z -> (0 < q)%Z -> (b * q <= 2 ^ 52)%Z -> IZR a / IZR b < IZR p / IZR q -> IZR a / IZR b + bpow radix2 (-52) <= IZR p / IZR q.
Proof.
  intros Hb Hq Hbq H. assert (B : 0 < IZR b) by (now apply (IZR_lt 0)). assert (Q : 0 < IZR q) by (now apply (IZR_lt 0)).
  assert (L : IZR a * IZR q < IZR p * IZR b). { apply (Rmult_lt_compat_r (IZR b * IZR q)) in H; [|nra]. replace (IZR a / IZR b * (IZR b * IZR q)) with (IZR a * IZR q) in H by (field; lra). replace (IZR p / IZR q * (IZR b * IZR q)) with (IZR p * IZR b) in H by (field; lra). exact H. }
  rewrite <- !mult_IZR in L. apply lt_IZR in L. assert (L2 : (a * q + 1 <= p * b)%Z) by lia. apply IZR_le in L2. rewrite plus_IZR, !mult_IZR in L2.
  apply IZR_le in Hbq. rewrite mult_IZR in Hbq. change (IZR (2 ^ 52)) with (bpow radix2 52) in Hbq.
  assert (E52 : bpow radix2 52 * bpow radix2 (-52) = 1) by (rewrite <- bpow_plus; reflexivity). pose proof (bpow_gt_0 radix2 (-52)) as P.
  apply Rmult_le_reg_r with (IZR b * IZR q); [nra|]. replace ((IZR a / IZR b + bpow radix2 (-52)) * (IZR b * IZR q)) with (IZR a * IZR q + (IZR b * IZR q) * bpow radix2 (-52)) by (field; lra).
  replace (IZR p / IZR q * (IZR b * IZR q)) with (IZR p * IZR b) by (field; lra).
  assert (IZR b * IZR q * bpow radix2 (-52) <= 1) by (rewrite <- E52; apply Rmult_le_compat_r; lra). lra.
Qed.
(** Rounding keeps the order of fractions with small denominators. *)
Lemma fraction_order a b p q : (0 <= a <= b)%Z -> (0 <= p <= q)%Z -> (0 < b)%Z -> (0 < q)%Z -> (b * q <= 2 ^ 52)%Z ->
  (binary64 (IZR p / IZR q) <= binary64 (IZR a / IZR b) <-> IZR p / IZR q <= IZR a / IZR b).
Proof.
  intros Ha Hp Hb Hq Hbq. split; [|apply (proj1 binary64_rounding)]. intros H. apply Rnot_lt_le. intros L. apply fractions_apart in L; [|assumption..].
  assert (U : forall u v, (0 <= u <= v)%Z -> (0 < v)%Z -> 0 <= IZR u / IZR v <= 1).
  { intros u v [H1 H2] H3. apply IZR_le in H1, H2. apply IZR_lt in H3. split; [apply Rmult_le_pos; [exact H1|left; now apply Rinv_0_lt_compat]|]. apply Rmult_le_reg_r with (IZR v); [exact H3|]. unfold Rdiv. rewrite Rmult_assoc, Rinv_l by lra. lra. }
  pose proof (near_1 _ (U a b Ha Hb)) as E1. pose proof (near_1 _ (U p q Hp Hq)) as E2. apply Rabs_le_inv in E1, E2.
  assert (E : bpow radix2 (-52) = 4 * bpow radix2 (-54)) by (change 4 with (bpow radix2 2); rewrite <- bpow_plus; reflexivity). pose proof (bpow_gt_0 radix2 (-54)). lra.
Qed.
Lemma filter_length_bound {A} (f : A -> bool) l : (length (filter f l) <= length l)%nat.
Proof. induction l as [|a l IH]; cbn; [lia|]. destruct (f a); cbn; lia. Qed.
Lemma run_r_Ok rnd ms mc X s fr : support_r rnd X ms = Ok s -> fit_data X s [] = Ok fr -> exists a, fit_transform_r rnd ms mc apriori_r_new X = Ok a /\ apr_freq a = fr.
Proof.
  intros Es Ef. unfold fit_transform_r. rewrite Es. cbn [bind apr_freq apriori_r_new]. rewrite Ef. cbn [bind]. rewrite transform_rel, transform_data_eq. cbn [bind]. eexists. split; reflexivity.
Qed.
