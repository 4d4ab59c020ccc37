(** Weighted entropy and Gini index; row norms; the Gaussian log density. *)
From Coq Require Import Reals Lra.
From Verif Require Import Base Tree_Model Tree_Spec Tree_Proofs KDReal_Proofs Impurity_Model Impurity_Spec Impurity_Proofs.
Local Open Scope R_scope.
Set Implicit Arguments.

(** Distributions given by a list of probabilities. *)
Section Distribution.
  Variables (A : Type) (p : A -> R) (ls : list A).
  Hypothesis N : ls <> [].
  Hypothesis P : forall l, In l ls -> 0 < p l.
  Hypothesis S1 : total (map p ls) = 1.

  Lemma dist_le l : In l ls -> p l <= 1.
  Proof.
    intro H. rewrite <- S1. clear S1 N. induction ls as [|a k IH]; [contradiction|]. cbn [map total fold_right]. change (fold_right Rplus 0 (map p k)) with (total (map p k)).
    assert (0 < p a) by (apply P; now left). assert (Pk : forall l, In l k -> 0 < p l) by (intros; apply P; now right). assert (0 <= total (map p k)) by (apply total_nonneg; intros; left; auto).
    destruct H as [<- | H]; [lra|]. specialize (IH Pk H). lra.
  Qed.
  Lemma dist_card : 0 < INR (length ls).
  Proof. apply lt_0_INR. destruct ls; [congruence|simpl; lia]. Qed.
  Lemma dist_gini : 0 <= 1 - total (map (fun l => p l * p l) ls) <= 1 - / INR (length ls).
  Proof.
    assert (Hc := dist_card). split.
    - assert (total (map (fun l => p l * p l) ls) <= total (map p ls)); [|lra]. apply total_le. intros l Hl. pose proof (P _ Hl). pose proof (dist_le _ Hl). nra.
    - assert (H2 : 0 <= total (map (fun l => p l * p l + (/ INR (length ls) * / INR (length ls) + (-2 * / INR (length ls)) * p l)) ls)).
      { apply total_nonneg. intros l _. set (a := p l). set (b := / INR (length ls)). replace (a * a + (b * b + -2 * b * a)) with (Rsqr (a - b)) by (unfold Rsqr; ring). apply Rle_0_sqr. }
      rewrite total_plus, total_plus, total_const, total_scal, S1 in H2. replace (INR (length ls) * (/ INR (length ls) * / INR (length ls))) with (/ INR (length ls)) in H2 by (field; lra). lra.
  Qed.
  Lemma dist_shannon : 0 <= total (map (fun l => - p l * (ln (p l) / ln 2)) ls) <= ln (INR (length ls)) / ln 2.
  Proof.
    pose proof ln2_pos as L. assert (Hc := dist_card). split.
    - apply total_nonneg. intros l Hl. apply shannon_term_nonneg. split; [now apply P|now apply dist_le].
    - set (c := INR (length ls)) in *.
      assert (Hb : total (map (fun l => / ln 2 * (- p l * ln (p l))) ls) <= total (map (fun l => / ln 2 * (/ c + (ln c - 1) * p l)) ls)).
      { apply total_le. intros l Hl. pose proof (P _ Hl) as Hpos. apply Rmult_le_compat_l; [left; now apply Rinv_0_lt_compat|]. set (q := p l) in *.
        assert (Hu : 0 < / (c * q)) by (apply Rinv_0_lt_compat, Rmult_lt_0_compat; lra). pose proof (ln_upper Hu) as Hln. rewrite ln_Rinv in Hln by (apply Rmult_lt_0_compat; lra). rewrite ln_mult in Hln by lra.
        assert (E : q * (/ (c * q) - 1) = / c - q) by (field; lra). assert (q * (- (ln c + ln q)) <= / c - q) by (rewrite <- E; apply Rmult_le_compat_l; lra). lra. }
      rewrite !total_scal, total_plus, total_const, total_scal, S1 in Hb. fold c in Hb. rewrite Rinv_r in Hb by lra.
      rewrite (total_ext _ (fun l => / ln 2 * (- p l * ln (p l)))) by (intros; unfold Rdiv; ring). rewrite total_scal. unfold Rdiv. rewrite (Rmult_comm (ln c)). lra.
  Qed.
  Lemma dist_one l : In l ls -> p l = 1 -> NoDup ls -> ls = [l].
  Proof.
    intros H E ND. clear N. assert (forall k, In k ls -> k = l).
    { intros k Hk. revert S1 P H Hk. induction ND as [|a m Ha ND IH]; intros S1 P' H Hk; [contradiction|]. cbn [map total fold_right] in S1. change (fold_right Rplus 0 (map p m)) with (total (map p m)) in S1.
      destruct H as [<- | H].
      - rewrite E in S1. destruct Hk as [| Hk]; [auto|]. exfalso. assert (Z : forall x, In x m -> p x = 0) by (apply total_zero; [intros; left; apply P'; now right|lra]). specialize (Z k Hk). pose proof (P' k (or_intror Hk)). lra.
      - exfalso. assert (0 < p a) by (apply P'; now left). assert (total (map p m) <= 1 - p a) by lra.
        assert (p l <= total (map p m)); [|lra]. clear - H P'. induction m as [|b m IH]; [contradiction|]. cbn [map total fold_right]. change (fold_right Rplus 0 (map p m)) with (total (map p m)).
        assert (0 <= total (map p m)) by (apply total_nonneg; intros; left; apply P'; right; now right). assert (0 < p b) by (apply P'; right; now left). destruct H as [<- | H]; [lra|].
        assert (p l <= total (map p m)); [apply IH; [|assumption]|lra]. intros x [<- | Hx]; apply P'; [now left|right; now right]. }
    destruct ls as [|a m]; [contradiction|]. assert (a = l) by (apply H0; now left). subst a. destruct m as [|b m]; [reflexivity|]. assert (b = l) by (apply H0; right; now left). subst b. inversion ND as [|? ? Hn _]. exfalso. apply Hn. now left.
  Qed.
  Lemma dist_gini_zero : NoDup ls -> 1 - total (map (fun l => p l * p l) ls) = 0 -> exists l, ls = [l].
  Proof.
    intros ND H. assert (exists l, In l ls) as (l & Hl) by (destruct ls as [|l k]; [congruence|exists l; now left]). exists l. apply dist_one; auto.
    assert (Z : p l - p l * p l = 0).
    { revert l Hl. apply total_zero; [intros k Hk; pose proof (P _ Hk); pose proof (dist_le _ Hk); nra|]. rewrite (total_ext _ (fun k => p k + (-1) * (p k * p k))) by (intros; ring). rewrite total_plus, total_scal, S1. lra. }
    pose proof (P _ Hl). nra.
  Qed.
  Lemma dist_shannon_zero : NoDup ls -> total (map (fun l => - p l * (ln (p l) / ln 2)) ls) = 0 -> exists l, ls = [l].
  Proof.
    intros ND H. pose proof ln2_pos as L. assert (exists l, In l ls) as (l & Hl) by (destruct ls as [|l k]; [congruence|exists l; now left]). exists l. apply dist_one; auto.
    assert (E : - p l * (ln (p l) / ln 2) = 0).
    { revert l Hl. apply total_zero; [|assumption]. intros k Hk. apply shannon_term_nonneg. split; [now apply P|now apply dist_le]. }
    pose proof (P _ Hl). apply ln_zero; [assumption|]. apply Rmult_integral in E. destruct E as [E|E]; [lra|]. unfold Rdiv in E. apply Rmult_integral in E. destruct E as [E|E]; [assumption|]. apply Rinv_0_lt_compat in L. lra.
  Qed.
End Distribution.

Section Weighted.
  Variable T : Type.
  Variable lt : T -> T -> bool.
  Variable eq_dec : forall a b : T, {a = b} + {a <> b}.
  Hypothesis HT : total_order lt.
  Variables (x ls : list T) (w : list R).
  Hypothesis Hx : x <> [].
  Hypothesis Hl : length w = length x.
  Hypothesis HL : labels_of x ls.
  Hypothesis HW : forall v, In v w -> 0 < v.

  Notation cw := (class_weight eq_dec x w).
  Lemma class_weight_total : forall y v ks, length v = length y -> NoDup ks -> (forall l, In l y -> In l ks) -> total (map (class_weight eq_dec y v) ks) = total v.
  Proof.
    induction y as [|a y IH]; intros [|c v] ks E ND Hin; try discriminate.
    - unfold class_weight. cbn. rewrite total_const. cbn. ring.
    - rewrite (total_ext _ (fun l => class_weight eq_dec y v l + (if eq_dec a l then c else 0))).
      2:{ intros l _. unfold class_weight. cbn [combine filter fst]. destruct (eq_dec a l); cbn [map snd total fold_right]; unfold total; ring. }
      rewrite total_plus, IH; [|cbn in E; lia|assumption|intros; apply Hin; now right]. cbn [total fold_right]. fold (total v). rewrite Rplus_comm. f_equal.
      assert (Ha : In a ks) by (apply Hin; now left). clear - ND Ha. induction ND as [|b ks Hb ND IH]; [contradiction|]. cbn. destruct Ha as [<- | Ha].
      + destruct (eq_dec b b); [|congruence]. fold (total (map (fun l => if eq_dec b l then c else 0) ks)). rewrite (total_ext _ (fun _ => 0)), total_const; [ring|]. intros l Hl. destruct (eq_dec b l); [subst; contradiction|reflexivity].
      + destruct (eq_dec a b); [subst; contradiction|]. fold (total (map (fun l => if eq_dec a l then c else 0) ks)). rewrite IH by assumption. ring.
  Qed.
  Lemma class_weight_pos : forall (y : list T) v l, length v = length y -> (forall z, In z v -> 0 < z) -> In l y -> 0 < class_weight eq_dec y v l.
  Proof.
    assert (G : forall (y : list T) v l, (forall z, In z v -> 0 < z) -> 0 <= class_weight eq_dec y v l).
    { intros y v l Hv. unfold class_weight. apply total_nonneg. intros e He. apply filter_In in He. destruct He as (He & _). destruct e. apply in_combine_r in He. left. now apply Hv. }
    induction y as [|a y IH]; intros [|c v] l E Hv Hin; try discriminate; [contradiction|]. unfold class_weight. cbn [combine filter fst]. assert (0 < c) by (apply Hv; now left). assert (Hv' : forall z, In z v -> 0 < z) by (intros; apply Hv; now right).
    destruct (eq_dec a l) as [->|Ne]; cbn [map snd total fold_right].
    - specialize (G y v l Hv'). unfold class_weight in G. unfold total in G. lra.
    - destruct Hin as [|Hin]; [congruence|]. apply IH; auto.
  Qed.
  Lemma weights_total_pos : 0 < total w.
  Proof.
    destruct x as [|a y]; [congruence|]. destruct w as [|c v]; [discriminate|]. cbn [total fold_right]. change (fold_right Rplus 0 v) with (total v). assert (0 < c) by (apply HW; now left).
    assert (0 <= total (map (fun z => z) v)) by (apply total_nonneg; intros; left; apply HW; now right). rewrite map_id in H0. lra.
  Qed.
  Lemma share_weight l : share eq_dec x w l = cw l / total w.
  Proof. reflexivity. Qed.
  Lemma share_total : total (map (share eq_dec x w) ls) = 1.
  Proof.
    rewrite (total_ext _ (fun l => / total w * cw l)) by (intros; unfold share, class_weight, Rdiv; ring). rewrite total_scal, class_weight_total; auto; [|apply HL|intros; now apply HL]. apply Rinv_l. pose proof weights_total_pos. lra.
  Qed.
  Lemma share_pos l : In l ls -> 0 < share eq_dec x w l.
  Proof. intro H. rewrite share_weight. apply Rdiv_lt_0_compat; [|apply weights_total_pos]. apply class_weight_pos; auto. now apply HL. Qed.

  Let n := INR (length x).
  Let c := total w / n.
  Lemma n_pos : 0 < n.
  Proof. unfold n. apply lt_0_INR. destruct x; [congruence|cbn; lia]. Qed.
  Lemma class_probs_share : exists ks, Permutation ks ls /\ class_probs lt x w = Ok (map (fun l => c * share eq_dec x w l) ks).
  Proof.
    destruct (class_probs_weighted HT eq_dec x w Hl) as (ks & HK & E). exists ks. split; [eapply labels_perm; eassumption|]. unfold class_probs.
    replace (match w with [] => repeat 1 (length x) | _ => w end) with w by (destruct w; [destruct x; [congruence|discriminate]|reflexivity]).
    rewrite Hl, Nat.eqb_refl, andb_false_r, E. f_equal. apply map_ext. intro l. rewrite share_weight. unfold c. pose proof n_pos. pose proof weights_total_pos. fold n. field. split; lra.
  Qed.
  Lemma gini_weighted : gini lt x w = Ok (1 - c * c * (1 - weighted_gini eq_dec x w ls)).
  Proof.
    destruct class_probs_share as (ks & HK & E). unfold gini. rewrite E. cbn [bind]. f_equal. rewrite fold_left_total, Rplus_0_l, map_map. unfold weighted_gini.
    rewrite (total_ext _ (fun l => (c * c) * (share eq_dec x w l * share eq_dec x w l))) by (intros; cbn; ring). rewrite total_scal, (total_perm (Permutation_map (fun l => share eq_dec x w l * share eq_dec x w l) HK)). ring.
  Qed.
  Lemma c_pos : 0 < c.
  Proof. unfold c. apply Rdiv_lt_0_compat; [apply weights_total_pos|apply n_pos]. Qed.
  Lemma entropy_weighted : entropy lt x w = Ok (c * (weighted_shannon eq_dec x w ls - ln c / ln 2)).
  Proof.
    destruct class_probs_share as (ks & HK & E). unfold entropy. rewrite E. cbn [bind]. f_equal. rewrite fold_left_total, Rplus_0_l, map_map. unfold weighted_shannon, log2.
    rewrite (total_perm (Permutation_map (fun l => - (c * share eq_dec x w l) * (ln (c * share eq_dec x w l) / ln 2)) HK)). pose proof c_pos. pose proof ln2_pos.
    rewrite (total_ext _ (fun l => c * (- share eq_dec x w l * (ln (share eq_dec x w l) / ln 2)) + (- c * (ln c / ln 2)) * share eq_dec x w l)).
    2:{ intros l Hin. rewrite ln_mult by (auto using share_pos). field. lra. }
    rewrite total_plus, !total_scal, share_total. ring.
  Qed.
  Lemma ls_ne : ls <> [].
  Proof. intro E. destruct x as [|a y]; [congruence|]. destruct HL as (_ & H). rewrite E in H. apply (H a). now left. Qed.
  Lemma single_labels : (exists l, ls = [l]) <-> (forall a b, In a x -> In b x -> a = b).
  Proof.
    split.
    - intros (l & E) a b Ha Hb. apply HL in Ha, Hb. rewrite E in Ha, Hb. destruct Ha as [<-|[]], Hb as [<-|[]]. reflexivity.
    - intro H. destruct x as [|a y] eqn:Ex; [congruence|]. exists a. eapply all_equal_labels; [exact HL|now left|]. intros k Hk. apply H; [assumption|now left].
  Qed.
End Weighted.
