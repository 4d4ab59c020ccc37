(** Association rules of a complete list of frequent itemsets. *)
From Coq Require Import QArith.
From Verif Require Import Base Sorting Common_Model Common_Spec HashTree_Model HashTree_Spec HashTree_Proofs
  Comb_Proofs RDR_Proofs RowSort_Proofs CommonMisc_Proofs Apriori_Model Apriori_Spec Apriori_Proofs
  AprioriLevels_Proofs.
Set Implicit Arguments.
Local Open Scope nat_scope.

Definition combs (x : list Z) (k : nat) : list (list Z) :=
  match combinations x k with Ok l => l | _ => [] end.
Lemma combs_Ok x k : combinations x k = Ok (combs x k).
Proof. unfold combs. destruct (combinations_Ok x k) as (l & ->). reflexivity. Qed.

Definition rule_of (fm : list (itemset * nat)) (mc : Q) (I : itemset) (n : nat) (A : itemset) : list rule :=
  match om_find lex A fm with
  | Some m => if Qle_bool mc (Z.of_nat n # Pos.of_nat m)
              then [(A, difference I A false, (Z.of_nat n # Pos.of_nat m)%Q)] else []
  | None => []
  end.

Lemma rules_of_candidates_eq fm mc I n cs :
  rules_of_candidates fm mc I n cs = flat_map (rule_of fm mc I n) cs.
Proof.
  induction cs as [|c cs IH]; simpl; [reflexivity|]. unfold rule_of at 1.
  destruct (om_find lex c fm); [|assumption].
  destruct (Qle_bool mc (Z.of_nat n # Pos.of_nat n0)); simpl; now rewrite IH.
Qed.

Definition rules_fun (fm : list (itemset * nat)) (mc : Q) (e : itemset * nat) : list rule :=
  flat_map (rule_of fm mc (fst e) (snd e)) (flat_map (combs (fst e)) (seq 1 (length (fst e) - 1))).

Lemma flat_map_flat_map {A B C} (f : A -> list B) (g : B -> list C) l :
  flat_map g (flat_map f l) = flat_map (fun a => flat_map g (f a)) l.
Proof. induction l as [|a l IH]; simpl; [reflexivity|]. now rewrite flat_map_app, IH. Qed.

Lemma rules_of_itemset_eq fm mc e : rules_of_itemset fm mc e = Ok (rules_fun fm mc e).
Proof.
  unfold rules_of_itemset, rules_fun. destruct (Nat.eqb_spec (length (fst e)) 1) as [->|_]; [reflexivity|].
  rewrite (@mapM_Ok _ _ _ (combs (fst e))) by (intros; apply combs_Ok). simpl. f_equal.
  rewrite flat_map_flat_map.
  induction (seq 1 (length (fst e) - 1)) as [|i l IH]; simpl; [reflexivity|].
  now rewrite IH, rules_of_candidates_eq.
Qed.

Lemma transform_data_eq mc freq :
  transform_data mc freq = Ok (flat_map (rules_fun (frequency_map freq) mc) (frequency_map freq)).
Proof.
  unfold transform_data.
  rewrite (@mapM_Ok _ _ _ (rules_fun (frequency_map freq) mc)) by (intros; apply rules_of_itemset_eq).
  simpl. now rewrite flat_map_concat_map.
Qed.

Lemma frequency_map_fold : forall l m, om_sorted lex m -> NoDup (map fst l) ->
  om_sorted lex (fold_left add_frequency l m) /\
  forall I n, om_find lex I (fold_left add_frequency l m) = Some n <->
    (In (I, n) l /\ 0 < n) \/ ((forall c, In (I, c) l -> c = 0) /\ om_find lex I m = Some n).
Proof.
  induction l as [|(J & c) l IH]; intros m Hm Hnd; simpl.
  - split; [assumption|]. intros I n. intuition.
  - inversion Hnd as [|? ? Hn Hnd']; subst. simpl in Hn.
    assert (Hm' : om_sorted lex (add_frequency m (J, c))).
    { unfold add_frequency. simpl. destruct (0 <? c); [|assumption].
      apply om_set_sorted; auto using lex_eq, lex_antisym. intros a b d. apply lex_trans. }
    destruct (IH _ Hm' Hnd') as (H1 & H2). split; [assumption|]. intros I n. rewrite H2.
    assert (HJ : forall c', ~ In (J, c') l).
    { intros c' Hc. apply Hn, in_map_iff. now exists (J, c'). }
    unfold add_frequency. simpl.
    destruct (itemset_eq_dec I J) as [->|Hne].
    + destruct (Nat.ltb_spec 0 c) as [Hc|Hc].
      * rewrite om_set_find; auto using lex_eq, lex_antisym. rewrite lex_refl.
        split.
        -- intros [(H & _)|(_ & [= ->])]; [destruct (HJ _ H)|]. left. auto.
        -- intros [([H|H] & H3)|(H & _)].
           ++ injection H as ->. right. split; [|reflexivity]. intros c' Hc'. destruct (HJ _ Hc').
           ++ destruct (HJ _ H).
           ++ specialize (H c (or_introl eq_refl)). lia.
      * assert (c = 0) by lia. subst c. split.
        -- intros [(H & _)|(H & H3)]; [destruct (HJ _ H)|]. right. split; [|assumption].
           intros c' [[= ->]|Hc']; [reflexivity|auto].
        -- intros [([H|H] & H3)|(H & H3)].
           ++ injection H as <-. lia.
           ++ destruct (HJ _ H).
           ++ right. split; [|assumption]. intros c' Hc'. destruct (HJ _ Hc').
    + assert (Hf : om_find lex I (if 0 <? c then om_set lex J c m else m) = om_find lex I m).
      { destruct (0 <? c); [|reflexivity]. rewrite om_set_find; auto using lex_eq, lex_antisym.
        destruct (lex I J) eqn:E; [apply lex_eq in E; contradiction|reflexivity|reflexivity]. }
      rewrite Hf. split.
      * intros [(H & H3)|(H & H3)]; [left; auto|]. right. split; [|assumption].
        intros c' [[= H4 _]|Hc']; [congruence|auto].
      * intros [([[= H4 _]|H] & H3)|(H & H3)]; [congruence|left; auto|]. right. auto.
Qed.

Lemma om_In_find {B} (m : list (itemset * B)) I n : om_sorted lex m ->
  (In (I, n) m <-> om_find lex I m = Some n).
Proof.
  intros Hm. split.
  - induction Hm as [|(J & c) m Hs IH Hall]; simpl; [contradiction|].
    intros [[= -> ->]|Hin]; [now rewrite lex_refl|].
    rewrite Forall_forall in Hall. specialize (Hall _ Hin). simpl in Hall.
    rewrite lex_antisym, Hall. simpl. auto.
  - intros H. apply om_find_In in H; [assumption|exact lex_eq].
Qed.

Section Rules.
  Variable X : list (list Z).
  Variable s : nat.
  Variable mc : Q.
  Variable fr : list (itemset * nat).
  Hypothesis Hfr : complete X s fr.
  Let fm := frequency_map fr.

  Lemma fm_sorted : om_sorted lex fm.
  Proof. apply frequency_map_fold; [constructor|apply Hfr]. Qed.

  Lemma fm_find I n : om_find lex I fm = Some n <-> frequent X s I /\ n = support X I /\ 0 < n.
  Proof.
    destruct (@frequency_map_fold fr [] (SSorted_nil _) (proj1 Hfr)) as (_ & H).
    unfold fm, frequency_map. rewrite H. rewrite (proj2 Hfr). simpl. intuition; discriminate.
  Qed.

  Lemma fm_In I n : In (I, n) fm <-> frequent X s I /\ n = support X I /\ 0 < n.
  Proof. rewrite (om_In_find I n fm_sorted). apply fm_find. Qed.

  Lemma rule_of_In I n A A' B c : In (A', B, c) (rule_of fm mc I n A) <->
    A' = A /\ exists m, om_find lex A fm = Some m /\ (mc <= Z.of_nat n # Pos.of_nat m)%Q /\
      B = difference I A false /\ c = (Z.of_nat n # Pos.of_nat m)%Q.
  Proof.
    unfold rule_of. destruct (om_find lex A fm) as [m|] eqn:E.
    - pose proof (Qle_bool_iff mc (Z.of_nat n # Pos.of_nat m)) as Hq.
      destruct (Qle_bool mc (Z.of_nat n # Pos.of_nat m)).
      + simpl. split.
        * intros [[= <- <- <-]|[]]. split; [reflexivity|]. exists m. intuition.
        * intros (-> & m' & [= <-] & H1 & -> & ->). now left.
      + split; [intros []|]. intros (_ & m' & [= <-] & H1 & _). apply Hq in H1. discriminate.
    - split; [intros []|]. intros (_ & m & H & _). discriminate.
  Qed.

  Lemma combs_In I k A : In A (combs I k) <-> subseq A I /\ length A = k.
  Proof. apply in_combinations. apply combs_Ok. Qed.

  Lemma antecedents I A : is_set I ->
    In A (flat_map (combs I) (seq 1 (length I - 1))) <->
    is_set A /\ A <> [] /\ incl A I /\ length A < length I.
  Proof.
    intros HI. rewrite in_flat_map. split.
    - intros (k & Hk & HA). apply in_seq in Hk. apply combs_In in HA. destruct HA as (HA & Hl).
      apply (subseq_incl_iff A HI) in HA. destruct HA as (HA1 & HA2).
      repeat split; auto; [|lia]. intros ->. simpl in Hl. lia.
    - intros (H1 & H2 & H3 & H4). exists (length A). split.
      + apply in_seq. destruct A; [congruence|]. simpl in *. lia.
      + apply combs_In. split; [|reflexivity]. apply subseq_incl_iff; auto.
  Qed.

  Lemma set_le I : is_set I -> StronglySorted Z.le I.
  Proof. intros H. eapply StronglySorted_impl; [|exact H]. intros a b. lia. Qed.

  Lemma diff_false I A : is_set I -> is_set A ->
    is_set (difference I A false) /\ forall x, In x (difference I A false) <-> In x I /\ ~ In x A.
  Proof. intros H1 H2. apply difference_spec. right. split; now apply set_le. Qed.

  Lemma rules_fun_In I n A B c : In (I, n) fm ->
    In (A, B, c) (rules_fun fm mc (I, n)) <->
    is_set A /\ is_set B /\ A <> [] /\ B <> [] /\
    (forall x, In x I <-> In x A \/ In x B) /\ (forall x, In x A -> ~ In x B) /\
    (mc <= c)%Q /\ c = confidence X I A.
  Proof.
    intros HI. apply fm_In in HI. destruct HI as (HI & -> & Hpos).
    pose proof (proj1 HI) as HIs.
    unfold rules_fun. simpl fst. simpl snd. rewrite in_flat_map. split.
    - intros (A' & HA & Hr). apply rule_of_In in Hr. destruct Hr as (-> & m & Hm & Hle & -> & ->).
      apply (antecedents A' HIs) in HA. destruct HA as (H1 & H2 & H3 & H4).
      apply fm_find in Hm. destruct Hm as (_ & -> & _).
      destruct (diff_false HIs H1) as (Hd1 & Hd2).
      repeat split; auto.
      + intros E. rewrite E in Hd2. simpl in Hd2.
        assert (Hinc : incl I A').
        { intros x Hx. destruct (in_dec Z.eq_dec x A') as [|Hn]; [assumption|].
          exfalso. apply (Hd2 x). auto. }
        pose proof (NoDup_incl_length (is_set_NoDup HIs) Hinc). lia.
      + intros Hx. rewrite Hd2. destruct (in_dec Z.eq_dec x A'); auto.
      + intros [Hx|Hx]; [now apply H3|]. now apply Hd2 in Hx.
      + intros x Hx Hx2. apply Hd2 in Hx2. tauto.
    - intros (H1 & H2 & H3 & H4 & H5 & H6 & H7 & ->).
      assert (Hinc : incl A I) by (intros x Hx; apply H5; now left).
      exists A. split.
      + apply antecedents; auto. repeat split; auto.
        destruct (Nat.lt_ge_cases (length A) (length I)) as [|Hge]; [assumption|]. exfalso.
        destruct B as [|b B]; [congruence|].
        assert (Hb : In b A).
        { apply (NoDup_length_incl (is_set_NoDup H1) Hge Hinc). apply H5. right. now left. }
        apply (H6 b Hb). now left.
      + apply rule_of_In. split; [reflexivity|]. exists (support X A).
        destruct (diff_false HIs H1) as (Hd1 & Hd2).
        split; [|split; [assumption|split; [|reflexivity]]].
        * apply fm_find. split; [apply (frequent_sub HI); auto|]. split; [reflexivity|].
          pose proof (support_anti X Hinc). lia.
        * apply is_set_ext; auto. intros x. rewrite Hd2, H5. specialize (H6 x). tauto.
  Qed.

  Lemma rules_In A B c :
    In (A, B, c) (flat_map (rules_fun fm mc) fm) <->
    is_set A /\ is_set B /\ A <> [] /\ B <> [] /\ (forall x, In x A -> ~ In x B) /\
    exists I, frequent X s I /\ 0 < support X I /\ (forall x, In x I <-> In x A \/ In x B) /\
      c = confidence X I A /\ (mc <= c)%Q.
  Proof.
    rewrite in_flat_map. split.
    - intros ((I & n) & HI & Hr). pose proof HI as HI2. apply fm_In in HI2. destruct HI2 as (H1 & -> & H2).
      apply (rules_fun_In _ _ A B c HI) in Hr. destruct Hr as (Ha & Hb & Hc & Hd & He & Hf & Hg & Hh).
      repeat split; auto. exists I. auto.
    - intros (Ha & Hb & Hc & Hd & He & I & H1 & H2 & H3 & H4 & H5).
      exists (I, support X I). assert (HI : In (I, support X I) fm) by (apply fm_In; auto).
      split; [assumption|]. apply (rules_fun_In _ _ A B c HI). repeat split; auto; apply H3.
  Qed.

  Lemma rules_NoDup : NoDup (map fst (flat_map (rules_fun fm mc) fm)).
  Proof.
    assert (E : forall (l : list (itemset * nat)), map fst (flat_map (rules_fun fm mc) l) =
                  flat_map (fun e => map fst (rules_fun fm mc e)) l).
    { induction l as [|e l IH]; cbn [flat_map]; [reflexivity|]. rewrite map_app. f_equal. exact IH. }
    rewrite E. clear E.
    assert (Hin : forall I n A B, In (I, n) fm -> In (A, B) (map fst (rules_fun fm mc (I, n))) ->
              forall x, In x I <-> In x A \/ In x B).
    { intros I n A B HI H. apply in_map_iff in H. destruct H as (((A' & B') & c) & [= -> ->] & H).
      now apply (rules_fun_In _ _ A B c HI) in H. }
    apply NoDup_flat_map.
    - pose proof fm_sorted as Hs. clear Hin. induction Hs as [|(I & n) m Hs IH Hall]; constructor; [|assumption].
      intros H. rewrite Forall_forall in Hall. specialize (Hall _ H). simpl in Hall.
      rewrite lex_refl in Hall. discriminate.
    - intros (I & n) HI. unfold rules_fun. simpl.
      apply fm_In in HI. destruct HI as ((Hs & _) & _).
      assert (Hnd : NoDup (flat_map (combs I) (seq 1 (length I - 1)))).
      { apply NoDup_flat_map.
        - apply seq_NoDup.
        - intros k _. eapply combinations_NoDup; [|apply combs_Ok]. now apply is_set_NoDup.
        - intros k1 k2 A _ _ H1 H2. apply combs_In in H1, H2. lia. }
      induction Hnd as [|A l Hn Hnd IH]; simpl; [constructor|].
      rewrite map_app. apply NoDup_app_intro; auto.
      + unfold rule_of. destruct (om_find lex A fm); [|constructor].
        destruct (Qle_bool _ _); simpl; repeat constructor. simpl. tauto.
      + intros (A' & B') H1 H2. apply Hn.
        apply in_map_iff in H1. destruct H1 as (((A1 & B1) & c1) & [= -> ->] & H1).
        apply rule_of_In in H1. destruct H1 as (-> & _).
        apply in_map_iff in H2. destruct H2 as (((A2 & B2) & c2) & [= -> ->] & H2).
        apply in_flat_map in H2. destruct H2 as (A3 & HA3 & H2). apply rule_of_In in H2.
        destruct H2 as (-> & _). assumption.
    - intros (I1 & n1) (I2 & n2) (A & B) HI1 HI2 H1 H2.
      pose proof (Hin _ _ _ _ HI1 H1) as E1. pose proof (Hin _ _ _ _ HI2 H2) as E2.
      apply fm_In in HI1. destruct HI1 as ((Hs1 & _) & -> & _).
      apply fm_In in HI2. destruct HI2 as ((Hs2 & _) & -> & _).
      assert (I1 = I2); [|now subst]. apply is_set_ext; auto. intros x. rewrite E1, E2. reflexivity.
  Qed.
End Rules.

Lemma fit_transform_rules X ms mc a : ordered_db X ->
  fit_transform ms mc apriori_new X = Ok a ->
  NoDup (map fst (ap_rules a)) /\
  forall A B c, In (A, B, c) (ap_rules a) <->
    is_set A /\ is_set B /\ A <> [] /\ B <> [] /\ (forall x, In x A -> ~ In x B) /\
    exists I, frequent X (support_of X ms) I /\ 0 < support X I /\ (forall x, In x I <-> In x A \/ In x B) /\
      c = confidence X I A /\ (mc <= c)%Q.
Proof.
  intros HX E. unfold fit_transform in E. simpl ap_freq in E. simpl ap_rules in E.
  destruct (fit_data X (support_of X ms) []) as [r| | |] eqn:Ef; try discriminate.
  cbn [bind] in E. rewrite transform_data_eq in E. cbn [bind app] in E.
  injection E as <-. simpl ap_rules.
  destruct (@fit_Ok_complete X _ HX [] r Ef) as (fr & -> & Hc). simpl.
  split; [apply (rules_NoDup mc Hc)|]. intros A B c. apply (rules_In mc Hc).
Qed.

Lemma fit_transform_freq X ms mc a : ordered_db X ->
  fit_transform ms mc apriori_new X = Ok a -> complete X (support_of X ms) (ap_freq a).
Proof.
  intros HX E. unfold fit_transform in E. simpl ap_freq in E. simpl ap_rules in E.
  destruct (fit_data X (support_of X ms) []) as [r| | |] eqn:Ef; try discriminate.
  cbn [bind] in E. rewrite transform_data_eq in E. cbn [bind app] in E.
  injection E as <-. simpl ap_freq.
  destruct (@fit_Ok_complete X _ HX [] r Ef) as (fr & -> & Hc). exact Hc.
Qed.

(** What [fit_transform] can do at all, on any database and after any history. *)
Lemma fit_transform_outcome ms mc a X :
  fit_transform ms mc a X = Throw RuntimeError /\
    fit_data X (support_of X ms) (ap_freq a) = Throw RuntimeError \/
  fit_transform ms mc a X = Throw InvalidArgument /\
    fit_data X (support_of X ms) (ap_freq a) = Throw InvalidArgument \/
  exists a' r, fit_transform ms mc a X = Ok a' /\ fit_data X (support_of X ms) (ap_freq a) = Ok r.
Proof.
  unfold fit_transform.
  destruct (fit_data_safe X (support_of X ms) (ap_freq a)) as [(r & E)|[E|E]]; rewrite E; cbn [bind]; auto.
  right. right. rewrite transform_data_eq. cbn [bind]. eauto.
Qed.
