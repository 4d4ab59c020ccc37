From Coq Require Import Reals Lra.
From Verif Require Import Base Tree_Model Tree_Spec Impurity_Model Impurity_Spec.
Local Open Scope R_scope.
Set Implicit Arguments.

Lemma fold_left_total {A} (f : A -> R) l a : fold_left (fun s x => s + f x) l a = a + total (map f l).
Proof. revert a. induction l as [|x l IH]; intros a; simpl; [lra|]. rewrite IH. lra. Qed.
Lemma Rsum_total l : Rsum l = total l.
Proof.
  unfold Rsum. replace (total l) with (0 + total l) by lra. generalize 0. induction l as [|x l IH]; intros a; simpl; [lra|].
  rewrite IH. lra.
Qed.
Lemma total_app a b : total (a ++ b) = total a + total b.
Proof. induction a as [|x a IH]; simpl; [lra|]. rewrite IH. lra. Qed.
Lemma total_perm a b : Permutation a b -> total a = total b.
Proof. induction 1; simpl; lra. Qed.
Lemma total_repeat x n : total (repeat x n) = INR n * x.
Proof. induction n as [|n IH]; [simpl; lra|]. rewrite S_INR. simpl. rewrite IH. lra. Qed.
Lemma total_const {A} (c : R) (l : list A) : total (map (fun _ => c) l) = INR (length l) * c.
Proof. induction l as [|x l IH]; [simpl; lra|]. simpl map. simpl length. rewrite S_INR. simpl total. rewrite IH. lra. Qed.
Lemma total_plus {A} (f g : A -> R) l : total (map (fun x => f x + g x) l) = total (map f l) + total (map g l).
Proof. induction l as [|x l IH]; simpl; [lra|]. rewrite IH. lra. Qed.
Lemma total_scal {A} (c : R) (f : A -> R) l : total (map (fun x => c * f x) l) = c * total (map f l).
Proof. induction l as [|x l IH]; simpl; [lra|]. rewrite IH. lra. Qed.
Lemma total_le {A} (f g : A -> R) l : (forall x, In x l -> f x <= g x) -> total (map f l) <= total (map g l).
Proof.
  induction l as [|x l IH]; intros H; simpl; [lra|]. pose proof (H x (or_introl eq_refl)).
  assert (total (map f l) <= total (map g l)) by (apply IH; intros; apply H; now right). lra.
Qed.
Lemma total_nonneg {A} (f : A -> R) l : (forall x, In x l -> 0 <= f x) -> 0 <= total (map f l).
Proof. intros H. pose proof (total_le (fun _ => 0) f l H) as H1. rewrite total_const in H1. lra. Qed.
Lemma total_zero {A} (f : A -> R) l : (forall x, In x l -> 0 <= f x) -> total (map f l) = 0 -> forall x, In x l -> f x = 0.
Proof.
  induction l as [|y l IH]; intros Hf H0 x; simpl; [tauto|]. simpl in H0.
  pose proof (Hf y (or_introl eq_refl)). assert (0 <= total (map f l)) by (apply total_nonneg; intros; apply Hf; now right).
  intros [<- | Hx]; [lra|]. apply IH; [intros; apply Hf; now right|lra|assumption].
Qed.
Lemma total_ext {A} (f g : A -> R) l : (forall x, In x l -> f x = g x) -> total (map f l) = total (map g l).
Proof. intros H. f_equal. apply map_ext_in. exact H. Qed.

Lemma ln_le_compat a b : 0 < a -> a <= b -> ln a <= ln b.
Proof. intros H [H1| ->]; [left; now apply ln_increasing|right; reflexivity]. Qed.

Section Labels.
  Variable T : Type.
  Variable lt : T -> T -> bool.
  Hypothesis HT : total_order lt.
  Variable eq_dec : forall a b : T, {a = b} + {a <> b}.
  Notation cmp := (cmp_of lt).
  Notation count := (count_occ eq_dec).

  Lemma cmp_of_eq a b : cmp a b = Eq <-> a = b.
  Proof.
    unfold cmp_of. destruct (lt a b) eqn:E1.
    - split; [discriminate|]. intros ->. rewrite (to_irrefl HT) in E1. discriminate.
    - destruct (lt b a) eqn:E2.
      + split; [discriminate|]. intros ->. rewrite (to_irrefl HT) in E2. discriminate.
      + split; [|reflexivity]. intros _. now apply (to_total HT).
  Qed.
  Lemma cmp_of_antisym a b : cmp a b = CompOpp (cmp b a).
  Proof.
    unfold cmp_of. destruct (lt a b) eqn:E1, (lt b a) eqn:E2; try reflexivity.
    pose proof (to_trans HT _ _ _ E1 E2) as F. rewrite (to_irrefl HT) in F. discriminate.
  Qed.
  Lemma cmp_of_trans a b c : cmp a b = Lt -> cmp b c = Lt -> cmp a c = Lt.
  Proof.
    unfold cmp_of. destruct (lt a b) eqn:E1; [|destruct (lt b a); discriminate].
    destruct (lt b c) eqn:E2; [|destruct (lt c b); discriminate]. intros _ _. now rewrite (to_trans HT _ _ _ E1 E2).
  Qed.

  (** Counting maps. *)
  Lemma counts_spec y : forall m, om_sorted cmp m ->
    om_sorted cmp (fold_left (count_label lt) y m) /\
    forall k, om_find cmp k (fold_left (count_label lt) y m) =
      match om_find cmp k m with
      | Some c => Some (c + count y k)%nat
      | None => if (count y k =? 0)%nat then None else Some (count y k)
      end.
  Proof.
    induction y as [|a y IH]; intros m Hm.
    - split; [assumption|]. intros k. simpl. destruct (om_find cmp k m); [now rewrite Nat.add_0_r|reflexivity].
    - cbn [fold_left]. set (m1 := count_label lt m a).
      assert (H1 : om_sorted cmp m1) by (apply om_set_sorted; [exact cmp_of_eq|exact cmp_of_antisym|exact cmp_of_trans|assumption]).
      destruct (IH m1 H1) as (I1 & I2). split; [assumption|]. intros k. rewrite I2. unfold m1, count_label.
      rewrite (om_set_find cmp_of_eq cmp_of_antisym) by assumption.
      cbn [count_occ]. destruct (eq_dec a k) as [->|Hne].
      + rewrite (proj2 (cmp_of_eq k k) eq_refl). destruct (om_find cmp k m); simpl; f_equal; lia.
      + destruct (cmp k a) eqn:E; [apply cmp_of_eq in E; congruence|reflexivity|reflexivity].
  Qed.

  Lemma counts_nil y : let m := fold_left (count_label lt) y [] in
    om_sorted cmp m /\ labels_of y (map fst m) /\ (forall k c, In (k, c) m -> c = count y k) /\
    (forall k, om_find cmp k m = if (count y k =? 0)%nat then None else Some (count y k)).
  Proof.
    cbn zeta. destruct (counts_spec y (m := [])) as (H1 & H2); [constructor|].
    split; [assumption|].
    assert (ND : NoDup (map fst (fold_left (count_label lt) y []))) by (eapply om_sorted_NoDup; [apply cmp_of_eq|exact H1]).
    assert (H3 : forall k c, In (k, c) (fold_left (count_label lt) y []) -> c = count y k /\ count y k <> O).
    { intros k c H. apply (om_In_find _ cmp_of_eq) in H; [|assumption]. rewrite H2 in H. simpl in H.
      destruct (Nat.eqb_spec (count y k) 0); [discriminate|]. injection H as <-. auto. }
    split; [split; [assumption|]|split].
    - intros l. split.
      + intros Hin. apply in_map_iff in Hin. destruct Hin as ((k & c) & <- & Hin). apply H3 in Hin.
        apply (count_occ_In eq_dec). simpl. lia.
      + intros Hin. apply (count_occ_In eq_dec) in Hin.
        destruct (om_find cmp l (fold_left (count_label lt) y [])) as [c|] eqn:E.
        * apply om_find_In in E; [|apply cmp_of_eq]. now apply (in_map fst) in E.
        * rewrite H2 in E. simpl in E. destruct (Nat.eqb_spec (count y l) 0); [lia|discriminate].
    - intros k c H. now apply H3.
    - intros k. rewrite H2. reflexivity.
  Qed.

  (** The two maps of entropy and gini. *)
  Definition paired (a : T * nat) (b : T * list R) : Prop := fst a = fst b /\ snd a = length (snd b) /\ (0 < snd a)%nat.
  Lemma om_set_paired k c ws m1 m2 : Forall2 paired m1 m2 -> c = length ws -> (0 < c)%nat ->
    Forall2 paired (om_set cmp k c m1) (om_set cmp k ws m2).
  Proof.
    intros H Hc Hp. induction H as [|[k1 c1] [k2 w2] m1 m2 (E1 & E2) H IH]; simpl in *.
    - repeat constructor; assumption.
    - subst k2. destruct E2 as (E2 & E3).
      assert (N : paired (k, c) (k, ws)) by (split; [reflexivity|split; [assumption|simpl; lia]]).
      assert (O : paired (k1, c1) (k1, w2)) by (split; [reflexivity|split; assumption]).
      destruct (cmp k k1); repeat (constructor; try assumption).
  Qed.
  Lemma om_find_paired k m1 m2 : Forall2 paired m1 m2 ->
    match om_find cmp k m1, om_find cmp k m2 with
    | Some c, Some ws => c = length ws | None, None => True | _, _ => False end.
  Proof.
    induction 1 as [|[k1 c1] [k2 w2] m1 m2 (E1 & E2 & _) H IH]; simpl in *; [trivial|]. subst k2. destruct (cmp k k1); auto.
  Qed.

  Lemma maps_paired x : forall w m1 m2, length w = length x -> Forall2 paired m1 m2 ->
    Forall2 paired (fold_left (count_label lt) x m1) (fold_left (push_weight lt) (combine x w) m2).
  Proof.
    induction x as [|a x IH]; intros [|v w] m1 m2 Hl H; simpl in *; try discriminate; [assumption|].
    apply IH; [lia|]. unfold count_label, push_weight. simpl. pose proof (om_find_paired a H) as Hf.
    destruct (om_find cmp a m1), (om_find cmp a m2); try contradiction;
      apply om_set_paired; auto; try lia; rewrite app_length; simpl; lia.
  Qed.

  (** Weight of a class. *)
  Definition class_weight (x : list T) (w : list R) (k : T) : R :=
    total (map snd (filter (fun e => if eq_dec (fst e) k then true else false) (combine x w))).

  Lemma weights_spec D : forall m, om_sorted cmp m ->
    om_sorted cmp (fold_left (push_weight lt) D m) /\
    forall k, match om_find cmp k (fold_left (push_weight lt) D m) with Some ws => total ws | None => 0 end =
      match om_find cmp k m with Some ws => total ws | None => 0 end +
      total (map snd (filter (fun e => if eq_dec (fst e) k then true else false) D)).
  Proof.
    induction D as [|[a v] D IH]; intros m Hm.
    - split; [assumption|]. intros k. simpl. lra.
    - cbn [fold_left]. set (m1 := push_weight lt m (a, v)).
      assert (H1 : om_sorted cmp m1) by (apply om_set_sorted; [exact cmp_of_eq|exact cmp_of_antisym|exact cmp_of_trans|assumption]).
      destruct (IH m1 H1) as (I1 & I2). split; [assumption|]. intros k. rewrite I2. unfold m1, push_weight.
      rewrite (om_set_find cmp_of_eq cmp_of_antisym) by assumption. cbn [fst snd filter].
      destruct (eq_dec a k) as [->|Hne].
      + rewrite (proj2 (cmp_of_eq k k) eq_refl). rewrite total_app. simpl.
        destruct (om_find cmp k m); simpl; lra.
      + destruct (cmp k a) eqn:E; [apply cmp_of_eq in E; congruence|reflexivity|reflexivity].
  Qed.

  (** Probability of each class: its weight over the number of rows. *)
  Lemma class_probs_weighted x w : length w = length x ->
    exists ks, labels_of x ks /\
      map (class_prob (length x)) (combine (fold_left (count_label lt) x []) (fold_left (push_weight lt) (combine x w) [])) =
      map (fun k => class_weight x w k / INR (length x)) ks.
  Proof.
    intros Hl. destruct (counts_nil x) as (H1 & H2 & H3 & _).
    pose proof (maps_paired x w Hl (Forall2_nil paired)) as HP.
    destruct (weights_spec (combine x w) (m := [])) as (W1 & W2); [constructor|].
    exists (map fst (fold_left (count_label lt) x [])). split; [assumption|].
    assert (NDw : NoDup (map fst (fold_left (push_weight lt) (combine x w) []))) by (eapply om_sorted_NoDup; [apply cmp_of_eq|exact W1]).
    assert (HW : forall k ws, In (k, ws) (fold_left (push_weight lt) (combine x w) []) -> total ws = class_weight x w k).
    { intros k ws Hin. apply (om_In_find _ cmp_of_eq) in Hin; [|assumption]. specialize (W2 k). rewrite Hin in W2.
      simpl in W2. rewrite Rplus_0_l in W2. exact W2. }
    clear - HP HW. revert HP HW. generalize (fold_left (count_label lt) x []) (fold_left (push_weight lt) (combine x w) []).
    intros m1 m2 HP. induction HP as [|[k1 c1] [k2 w2] m1 m2 (E1 & E2 & E3) H IH]; intros HW; simpl; [reflexivity|].
    f_equal; [|apply IH; intros; apply HW; now right].
    simpl in *. subst k2 c1. rewrite <- (HW k1 w2) by now left.
    unfold class_prob. simpl. rewrite Rsum_total. assert (INR (length w2) <> 0) by (apply not_0_INR; lia). 
    replace (1 * INR (length w2) * (total w2 / INR (length w2))) with (total w2) by (field; assumption). reflexivity.
  Qed.

  Lemma class_weight_ones x k : class_weight x (repeat 1 (length x)) k = INR (count x k).
  Proof.
    unfold class_weight. induction x as [|a x IH]; [reflexivity|].
    cbn [length repeat combine filter fst count_occ]. destruct (eq_dec a k).
    - rewrite S_INR. cbn [map snd total fold_right]. unfold total in IH. rewrite IH. lra.
    - exact IH.
  Qed.

  Lemma class_probs_plain x : exists ks, labels_of x ks /\ class_probs lt x [] = Ok (map (freq eq_dec x) ks).
  Proof.
    destruct (class_probs_weighted x (repeat 1 (length x)) (repeat_length _ _)) as (ks & H1 & H2). exists ks. split; [assumption|].
    unfold class_probs. rewrite repeat_length, Nat.eqb_refl, andb_false_r. rewrite H2. f_equal. apply map_ext. intros k.
    rewrite class_weight_ones. reflexivity.
  Qed.

  Lemma labels_perm (x ks ls : list T) : labels_of x ks -> labels_of x ls -> Permutation ks ls.
  Proof. intros (N1 & H1) (N2 & H2). apply NoDup_Permutation; auto. intros l. rewrite H1, H2. tauto. Qed.

  Lemma gini_formula x ls : labels_of x ls -> gini lt x [] = Ok (gini_index eq_dec x ls).
  Proof.
    intros HL. destruct (class_probs_plain x) as (ks & HK & E). unfold gini. rewrite E. cbn [bind]. f_equal.
    unfold gini_index. f_equal. rewrite fold_left_total, Rplus_0_l, map_map. rewrite (total_ext _ (fun l => freq eq_dec x l * freq eq_dec x l)) by (intros; simpl; lra).
    apply total_perm, Permutation_map. eapply labels_perm; eassumption.
  Qed.
  Lemma entropy_formula x ls : labels_of x ls -> entropy lt x [] = Ok (shannon eq_dec x ls).
  Proof.
    intros HL. destruct (class_probs_plain x) as (ks & HK & E). unfold entropy. rewrite E. cbn [bind]. f_equal.
    rewrite fold_left_total, Rplus_0_l, map_map. unfold shannon, log2.
    apply total_perm, Permutation_map. eapply labels_perm; eassumption.
  Qed.

  (** Frequencies form a distribution. *)
  Lemma count_total x : forall ls, NoDup ls -> (forall l, In l x -> In l ls) ->
    total (map (fun l => INR (count x l)) ls) = INR (length x).
  Proof.
    induction x as [|a x IH]; intros ls ND Hin.
    - rewrite (total_ext _ (fun _ => 0)) by reflexivity. rewrite total_const. simpl. lra.
    - rewrite (total_ext _ (fun l => INR (count x l) + (if eq_dec a l then 1 else 0))).
      2: { intros l _. simpl. destruct (eq_dec a l); [rewrite S_INR; lra|lra]. }
      rewrite total_plus, IH; [|assumption|intros; apply Hin; now right].
      cbn [length]. rewrite S_INR. f_equal.
      assert (Ha : In a ls) by (apply Hin; now left). clear - ND Ha.
      induction ND as [|b ls Hb ND IH]; [contradiction|]. simpl. destruct Ha as [<- | Ha].
      + destruct (eq_dec b b); [|congruence]. rewrite (total_ext _ (fun _ => 0)), total_const; [lra|].
        intros l Hl. destruct (eq_dec b l); [subst; contradiction|reflexivity].
      + destruct (eq_dec a b); [subst; contradiction|]. rewrite IH by assumption. lra.
  Qed.
  Lemma freq_total x ls : x <> [] -> labels_of x ls -> total (map (freq eq_dec x) ls) = 1.
  Proof.
    intros Hx (ND & HL). unfold freq. rewrite (total_ext _ (fun l => / INR (length x) * INR (count x l))) by (intros; unfold Rdiv; apply Rmult_comm).
    rewrite total_scal, count_total; [|assumption|intros; now apply HL]. apply Rinv_l. apply not_0_INR. destruct x; [congruence|discriminate].
  Qed.
  Lemma freq_pos x l : In l x -> 0 < freq eq_dec x l <= 1.
  Proof.
    intros H. assert (0 < INR (length x)) by (apply lt_0_INR; destruct x; [contradiction|simpl; lia]).
    assert (0 < INR (count x l)) by (apply lt_0_INR; now apply (count_occ_In eq_dec) in H).
    assert (INR (count x l) <= INR (length x)) by (apply le_INR, count_occ_bound).
    unfold freq. split; [apply Rdiv_lt_0_compat; assumption|]. apply Rmult_le_reg_r with (INR (length x)); [assumption|].
    unfold Rdiv. rewrite Rmult_assoc, Rinv_l by lra. lra.
  Qed.
  Lemma labels_nonempty (x ls : list T) : x <> [] -> labels_of x ls -> ls <> [].
  Proof. intros Hx (_ & HL) ->. destruct x as [|a x]; [congruence|]. apply (HL a). now left. Qed.

  Lemma gini_bounds x ls : x <> [] -> labels_of x ls -> 0 <= gini_index eq_dec x ls <= 1 - / INR (length ls).
  Proof.
    intros Hx HL. pose proof (freq_total Hx HL) as H1. unfold gini_index.
    assert (Hpos : forall l, In l ls -> 0 < freq eq_dec x l <= 1) by (intros l Hl; apply freq_pos, HL, Hl).
    assert (Hc : 0 < INR (length ls)) by (apply lt_0_INR; pose proof (labels_nonempty Hx HL); destruct ls; [congruence|simpl; lia]).
    split.
    - assert (total (map (fun l => freq eq_dec x l * freq eq_dec x l) ls) <= total (map (freq eq_dec x) ls)); [|lra].
      apply total_le. intros l Hl. specialize (Hpos l Hl). nra.
    - assert (H2 : 0 <= total (map (fun l => freq eq_dec x l * freq eq_dec x l + (/ INR (length ls) * / INR (length ls) + (-2 * / INR (length ls)) * freq eq_dec x l)) ls)).
      { apply total_nonneg. intros l _. set (a := freq eq_dec x l). set (b := / INR (length ls)).
        replace (a * a + (b * b + -2 * b * a)) with (Rsqr (a - b)) by (unfold Rsqr; ring). apply Rle_0_sqr. }
      rewrite total_plus, total_plus, total_const, total_scal, H1 in H2.
      replace (INR (length ls) * (/ INR (length ls) * / INR (length ls))) with (/ INR (length ls)) in H2 by (field; lra). lra.
  Qed.

  Lemma freq_one_all x l : In l x -> freq eq_dec x l = 1 -> forall k, In k x -> k = l.
  Proof.
    intros Hl H. assert (0 < INR (length x)) by (apply lt_0_INR; destruct x; [contradiction|simpl; lia]).
    assert (E : count x l = length x).
    { apply INR_eq. unfold freq in H. apply (f_equal (fun z => z * INR (length x))) in H. unfold Rdiv in H.
      rewrite Rmult_assoc, Rinv_l, Rmult_1_r, Rmult_1_l in H; lra. }
    clear H H0 Hl. induction x as [|a x IH]; intros k; simpl; [tauto|]. simpl in E. pose proof (count_occ_bound eq_dec l x).
    destruct (eq_dec a l); [|lia]. intros [<- | Hk]; [assumption|]. apply IH; [lia|assumption].
  Qed.

  Lemma all_equal_labels (x ls : list T) l : labels_of x ls -> In l x -> (forall k, In k x -> k = l) -> ls = [l].
  Proof.
    intros (ND & HL) Hl Hall. apply HL in Hl. destruct ls as [|a ls]; [contradiction|].
    assert (a = l) by (apply Hall, HL; now left). subst a. destruct ls as [|b ls]; [reflexivity|].
    assert (b = l) by (apply Hall, HL; right; now left). subst b. inversion ND as [|? ? Hn _]. exfalso. apply Hn. now left.
  Qed.
  Lemma freq_single x l : x <> [] -> labels_of x [l] -> freq eq_dec x l = 1.
  Proof. intros Hx HL. pose proof (freq_total Hx HL) as H. simpl in H. lra. Qed.

  Lemma gini_zero x ls : x <> [] -> labels_of x ls -> (gini_index eq_dec x ls = 0 <-> forall a b, In a x -> In b x -> a = b).
  Proof.
    intros Hx HL. assert (exists l, In l x) as (l & Hl) by (destruct x as [|l x']; [congruence|exists l; now left]).
    split.
    - intros H. pose proof (freq_total Hx HL) as H1. unfold gini_index in H.
      assert (Hz : forall k, In k ls -> freq eq_dec x k - freq eq_dec x k * freq eq_dec x k = 0).
      { apply total_zero.
        - intros k Hk. assert (0 < freq eq_dec x k <= 1) by (apply freq_pos, HL, Hk). nra.
        - rewrite (total_ext _ (fun k => freq eq_dec x k + (-1) * (freq eq_dec x k * freq eq_dec x k))) by (intros; ring).
          rewrite total_plus, total_scal. rewrite H1. lra. }
      assert (Hone : forall k, In k ls -> freq eq_dec x k = 1).
      { intros k Hk. specialize (Hz k Hk). assert (0 < freq eq_dec x k <= 1) by (apply freq_pos, HL, Hk). nra. }
      intros a b Ha Hb. transitivity l.
      + apply (freq_one_all Hl); [apply Hone, HL, Hl|assumption].
      + symmetry. apply (freq_one_all Hl); [apply Hone, HL, Hl|assumption].
    - intros H. assert (ls = [l]) as -> by (eapply all_equal_labels; eauto). unfold gini_index. simpl.
      rewrite (freq_single Hx HL). lra.
  Qed.

  (** Entropy. *)
  Lemma ln2_pos : 0 < ln 2.
  Proof. rewrite <- ln_1. apply ln_increasing; lra. Qed.
  Lemma ln_upper u : 0 < u -> ln u <= u - 1.
  Proof.
    intros H. rewrite <- (ln_exp (u - 1)). apply ln_le_compat; [assumption|].
    pose proof (exp_ineq1_le (u - 1)). lra.
  Qed.
  Lemma ln_nonpos p : 0 < p <= 1 -> ln p <= 0.
  Proof. intros H. pose proof (ln_upper (proj1 H)). lra. Qed.
  Lemma ln_zero p : 0 < p -> ln p = 0 -> p = 1.
  Proof. intros H E. rewrite <- ln_1 in E. apply ln_inv in E; lra. Qed.

  Lemma shannon_term_nonneg p : 0 < p <= 1 -> 0 <= - p * (ln p / ln 2).
  Proof.
    intros H. pose proof (ln_nonpos H). pose proof ln2_pos as L.
    replace (- p * (ln p / ln 2)) with ((p * (- ln p)) * / ln 2) by (unfold Rdiv; ring).
    apply Rmult_le_pos; [apply Rmult_le_pos; lra|]. left. now apply Rinv_0_lt_compat.
  Qed.

  Lemma shannon_bounds x ls : x <> [] -> labels_of x ls ->
    0 <= shannon eq_dec x ls <= ln (INR (length ls)) / ln 2.
  Proof.
    intros Hx HL. pose proof (freq_total Hx HL) as H1. unfold shannon. pose proof ln2_pos as L.
    assert (Hpos : forall l, In l ls -> 0 < freq eq_dec x l <= 1) by (intros l Hl; apply freq_pos, HL, Hl).
    assert (Hc : 0 < INR (length ls)) by (apply lt_0_INR; pose proof (labels_nonempty Hx HL); destruct ls; [congruence|simpl; lia]).
    split.
    - apply total_nonneg. intros l Hl. now apply shannon_term_nonneg, Hpos.
    - set (c := INR (length ls)) in *.
      assert (Hb : total (map (fun l => / ln 2 * (- freq eq_dec x l * ln (freq eq_dec x l))) ls)
                   <= total (map (fun l => / ln 2 * (/ c + (ln c - 1) * freq eq_dec x l)) ls)).
      { apply total_le. intros l Hl. specialize (Hpos l Hl). apply Rmult_le_compat_l; [left; now apply Rinv_0_lt_compat|].
        set (p := freq eq_dec x l) in *.
        assert (Hu : 0 < / (c * p)) by (apply Rinv_0_lt_compat, Rmult_lt_0_compat; lra).
        pose proof (ln_upper Hu) as Hln. rewrite ln_Rinv in Hln by (apply Rmult_lt_0_compat; lra).
        rewrite ln_mult in Hln by lra.
        assert (E : p * (/ (c * p) - 1) = / c - p) by (field; lra).
        assert (p * (- (ln c + ln p)) <= / c - p) by (rewrite <- E; apply Rmult_le_compat_l; lra). lra. }
      rewrite !total_scal, total_plus, total_const, total_scal, H1 in Hb.
      fold c in Hb. rewrite Rinv_r in Hb by lra.
      rewrite (total_ext _ (fun l => / ln 2 * (- freq eq_dec x l * ln (freq eq_dec x l)))) by (intros; unfold Rdiv; ring).
      rewrite total_scal. unfold Rdiv. rewrite (Rmult_comm (ln c)). lra.
  Qed.

  Lemma shannon_zero x ls : x <> [] -> labels_of x ls -> (shannon eq_dec x ls = 0 <-> forall a b, In a x -> In b x -> a = b).
  Proof.
    intros Hx HL. assert (exists l, In l x) as (l & Hl) by (destruct x as [|l x']; [congruence|exists l; now left]).
    pose proof ln2_pos as L. split.
    - intros H. unfold shannon in H.
      assert (Hone : forall k, In k ls -> freq eq_dec x k = 1).
      { intros k Hk. assert (Hp : 0 < freq eq_dec x k <= 1) by (apply freq_pos, HL, Hk).
        assert (E : - freq eq_dec x k * (ln (freq eq_dec x k) / ln 2) = 0).
        { revert k Hk Hp. intros k Hk _. revert k Hk. apply total_zero; [|assumption].
          intros k Hk. apply shannon_term_nonneg, freq_pos, HL, Hk. }
        apply ln_zero; [apply Hp|]. apply Rmult_integral in E. destruct E as [E|E]; [lra|].
        unfold Rdiv in E. apply Rmult_integral in E. destruct E as [E|E]; [assumption|]. apply Rinv_0_lt_compat in L. lra. }
      intros a b Ha Hb. transitivity l.
      + apply (freq_one_all Hl); [apply Hone, HL, Hl|assumption].
      + symmetry. apply (freq_one_all Hl); [apply Hone, HL, Hl|assumption].
    - intros H. assert (ls = [l]) as -> by (eapply all_equal_labels; eauto). unfold shannon. simpl.
      rewrite (freq_single Hx HL), ln_1. unfold Rdiv. ring.
  Qed.
End Labels.
