(** Proofs for C80. *)
From Coq Require Import QArith Qround.
From Verif Require Import Base Sorting Common_Model Common_Spec HashTree_Model HashTree_Spec HashTree_Proofs
  Comb_Proofs RDR_Proofs RowSort_Proofs CommonMisc_Proofs Apriori_Model Apriori_Spec Apriori_Proofs
  AprioriLevels_Proofs AprioriRules_Proofs AprioriUse_Spec.
Set Implicit Arguments.
Local Open Scope nat_scope.

Lemma needed_ok X ms : support_of X ms = needed X ms.
Proof. destruct ms as [p q]. reflexivity. Qed.

Lemma needed_mono X ms ms' : (ms <= ms')%Q -> needed X ms <= needed X ms'.
Proof.
  intros H. unfold needed.
  assert (Qfloor (inject_Z (Z.of_nat (length X)) * ms) <= Qfloor (inject_Z (Z.of_nat (length X)) * ms'))%Z; [|lia].
  apply Qfloor_resp_le. rewrite !(Qmult_comm (inject_Z _)). apply Qmult_le_compat_r; [exact H|]. unfold Qle. cbn. lia.
Qed.

Lemma frequent_dec X s I : {frequent X s I} + {~ frequent X s I}.
Proof.
  destruct (list_eq_dec Z.eq_dec I []) as [->|NE]; [right; intros (_ & H & _); congruence|].
  destruct (le_dec s (support X I)) as [H|H]; [|right; intros (_ & _ & _ & K); lia].
  assert (D : {incl I (concat X)} + {~ incl I (concat X)}).
  { destruct (forallb (fun x => existsb (Z.eqb x) (concat X)) I) eqn:E; [left|right].
    - intros x Hx. rewrite forallb_forall in E. apply existsb_In, E, Hx.
    - intros K. enough (T : forallb (fun x => existsb (Z.eqb x) (concat X)) I = true) by congruence. apply forallb_forall. intros x Hx. now apply existsb_In, K. }
  destruct D as [D|D]; [|right; intros (_ & _ & K & _); auto].
  assert (S : {is_set I} + {~ is_set I}).
  { clear. induction I as [|a I IH]; [left; constructor|]. destruct IH as [IH|IH]; [|right; intros K; inversion K; auto].
    destruct (Forall_dec (Z.lt a) (Z_lt_dec a) I) as [F|F]; [left; now constructor|right; intros K; inversion K; auto]. }
  destruct S as [S|S]; [left; repeat split; auto|right; intros (K & _); auto].
Qed.
Lemma reports_dec ms X I : {reports ms X I} + {~ reports ms X I}.
Proof.
  unfold reports. destruct (frequent_dec X (needed X ms) I); [|right; tauto]. destruct (lt_dec 0 (support X I)); [left; auto|right; tauto].
Qed.

Lemma last_count_snoc ms Xs X I n : last_count ms (Xs ++ [X]) I n <-> (reports ms X I /\ n = support X I) \/ (~ reports ms X I /\ last_count ms Xs I n).
Proof.
  split.
  - intros (before & Y & after & E & R & En & Hn). destruct after as [|z after _] using rev_ind.
    + apply app_inj_tail in E. destruct E as (-> & ->). auto.
    + rewrite app_comm_cons, app_assoc in E. apply app_inj_tail in E. destruct E as (-> & ->). right. split; [apply Hn, in_app_iff; right; now left|].
      exists before, Y, after. repeat split; auto; try apply R. intros W HW. apply Hn, in_app_iff. now left.
  - intros [(R & En)|(NR & before & Y & after & -> & R & En & Hn)].
    + exists Xs, X, []. repeat split; auto; try apply R. 
    + exists before, Y, (after ++ [X]). split; [now rewrite <- app_assoc|]. repeat split; auto; try apply R. intros W HW. apply in_app_iff in HW. destruct HW as [HW|[<-|[]]]; auto.
Qed.

(** What an object remembers. *)
Lemma fits_freq ms mc Xs a : Forall ordered_db Xs -> fits ms mc Xs a ->
  om_sorted lex (frequency_map (ap_freq a)) /\ forall I n, om_find lex I (frequency_map (ap_freq a)) = Some n <-> last_count ms Xs I n.
Proof.
  intros HO H. induction H as [|Xs a X a' H IH E].
  - split; [constructor|]. intros I n. cbn. split; [discriminate|]. intros (b & Y & c & K & _). destruct b; discriminate.
  - apply Forall_app in HO. destruct HO as (HO & HX). inversion HX as [|? ? HX1 _]; subst. specialize (IH HO). destruct IH as (S1 & F1).
    unfold fit_transform in E. destruct (fit_data X (support_of X ms) (ap_freq a)) as [r| | |] eqn:Ef; try discriminate. cbn [bind] in E.
    rewrite transform_data_eq in E. cbn [bind] in E. injection E as <-. cbn [ap_freq].
    destruct (@fit_Ok_complete X _ HX1 _ _ Ef) as (fr & -> & HC & HI). unfold frequency_map. rewrite fold_left_app.
    destruct (@frequency_map_fold fr _ S1 HC) as (S2 & F2). split; [exact S2|]. intros I n. rewrite F2, last_count_snoc, F1. rewrite needed_ok in HI. unfold reports. split.
    + intros [(K & P)|(K & L)].
      * apply HI in K. destruct K as (K & ->). left. auto.
      * right. split; [|exact L]. intros (R & P). enough (support X I = 0) by lia. apply K, HI. auto.
    + intros [((R & P) & ->)|(K & L)].
      * left. split; [now apply HI|exact P].
      * right. split; [|exact L]. intros c Hc. apply HI in Hc. destruct Hc as (Hc & ->). destruct (support X I) eqn:Es; [reflexivity|]. exfalso. apply K. split; [exact Hc|lia].
Qed.

Lemma last_count_set ms Xs I n : last_count ms Xs I n -> is_set I /\ I <> [] /\ 0 < n.
Proof. intros (b & X & c & _ & ((H1 & H2 & _) & H3) & -> & _). auto. Qed.

Section General.
  Variable fm : list (itemset * nat).
  Variable mc : Q.
  Hypothesis Hs : om_sorted lex fm.
  Hypothesis Hset : forall I n, om_find lex I fm = Some n -> is_set I.
  Lemma rule_of_any I n A A' B c : In (A', B, c) (rule_of fm mc I n A) <->
    A' = A /\ exists m, om_find lex A fm = Some m /\ (mc <= Z.of_nat n # Pos.of_nat m)%Q /\ B = difference I A false /\ c = (Z.of_nat n # Pos.of_nat m)%Q.
  Proof.
    unfold rule_of. destruct (om_find lex A fm) as [m|] eqn:E.
    - pose proof (Qle_bool_iff mc (Z.of_nat n # Pos.of_nat m)) as Hq.
      destruct (Qle_bool mc (Z.of_nat n # Pos.of_nat m)).
      + simpl. split.
        * intros [[= <- <- <-]|[]]. split; [reflexivity|]. exists m. intuition.
        * intros (-> & m' & [= <-] & H1 & -> & ->). now left.
      + split; [intros []|]. intros (_ & m' & [= <-] & H1 & _). apply Hq in H1. discriminate.
    - split; [intros []|]. intros (_ & m & H & _). discriminate.
  Qed.
  Lemma rules_any A B c : In (A, B, c) (flat_map (rules_fun fm mc) fm) <->
    is_set A /\ is_set B /\ A <> [] /\ B <> [] /\ (forall x, In x A -> ~ In x B) /\
    exists I n m, om_find lex I fm = Some n /\ om_find lex A fm = Some m /\ (forall x, In x I <-> In x A \/ In x B) /\
      c = (Z.of_nat n # Pos.of_nat m)%Q /\ (mc <= c)%Q.
  Proof.
    rewrite in_flat_map. split.
    - intros ((I & n) & HI & Hr). apply om_In_find in HI; [|exact Hs]. pose proof (Hset _ HI) as HIs. unfold rules_fun in Hr. cbn [fst snd] in Hr.
      apply in_flat_map in Hr. destruct Hr as (A' & HA & Hr). apply rule_of_any in Hr. destruct Hr as (-> & m & Hm & Hle & -> & ->).
      apply (antecedents A' HIs) in HA. destruct HA as (H1 & H2 & H3 & H4). destruct (diff_false HIs H1) as (Hd1 & Hd2).
      split; [exact H1|]. split; [exact Hd1|]. split; [exact H2|]. split; [|split].
      + intros E. rewrite E in Hd2. simpl in Hd2.
        assert (Hinc : incl I A').
        { intros x Hx. destruct (in_dec Z.eq_dec x A') as [|Hn]; [assumption|]. exfalso. apply (Hd2 x). auto. }
        pose proof (NoDup_incl_length (is_set_NoDup HIs) Hinc). lia.
      + intros x Hx Hx2. apply Hd2 in Hx2. tauto.
      + exists I, n, m. split; [exact HI|]. split; [exact Hm|]. split; [|auto]. intros x. rewrite Hd2. split; [destruct (in_dec Z.eq_dec x A'); tauto|intros [Hx|Hx]; [now apply H3|tauto]].
    - intros (H1 & H2 & H3 & H4 & H6 & I & n & m & HI & Hm & H5 & -> & H7). pose proof (Hset _ HI) as HIs.
      exists (I, n). split; [now apply om_In_find|]. unfold rules_fun. cbn [fst snd]. apply in_flat_map. exists A.
      assert (Hinc : incl A I) by (intros x Hx; apply H5; now left). split.
      + apply antecedents; auto. repeat split; auto.
        destruct (Nat.lt_ge_cases (length A) (length I)) as [|Hge]; [assumption|]. exfalso.
        destruct B as [|b B]; [congruence|].
        assert (Hb : In b A) by (apply (NoDup_length_incl (is_set_NoDup H1) Hge Hinc); apply H5; right; now left).
        apply (H6 b Hb). now left.
      + apply rule_of_any. split; [reflexivity|]. exists m. destruct (diff_false HIs H1) as (Hd1 & Hd2).
        split; [exact Hm|]. split; [exact H7|]. split; [|reflexivity]. apply is_set_ext; auto. intros x. rewrite Hd2, H5. specialize (H6 x). tauto.
  Qed.
End General.

(** Maps with the same entries are the same. *)
Lemma om_ext {B} (m m' : list (itemset * B)) : om_sorted lex m -> om_sorted lex m' -> (forall e, In e m <-> In e m') -> m = m'.
Proof.
  intros H. revert m'. induction H as [|e m Hm IH Hall]; intros m' H' E.
  - destruct m' as [|e' m']; [reflexivity|]. exfalso. apply (proj2 (E e')). now left.
  - destruct H' as [|e' m' Hm' Hall']; [exfalso; apply (proj1 (E e)); now left|]. rewrite Forall_forall in Hall, Hall'.
    assert (E0 : e = e').
    { destruct (proj1 (E e) (or_introl eq_refl)) as [K|K]; [auto|]. destruct (proj2 (E e') (or_introl eq_refl)) as [L|L]; [auto|].
      apply Hall' in K. apply Hall in L. rewrite lex_antisym, K in L. discriminate. }
    subst e'. f_equal. apply IH; [exact Hm'|]. intros d. split; intros K.
    + destruct (proj1 (E d) (or_intror K)) as [<-|L]; [|exact L]. apply Hall in K. rewrite lex_refl in K. discriminate.
    + destruct (proj2 (E d) (or_intror K)) as [<-|L]; [|exact L]. apply Hall' in K. rewrite lex_refl in K. discriminate.
Qed.
