(** C55: what the split gain measures, and what that makes the trees do. *)
From Coq Require Import Reals Lra.
From Verif Require Import Base Tree_Model Tree_Spec Tree_Proofs KDReal_Proofs Impurity_Model Impurity_Spec Impurity_Proofs TreeReal_Proofs
  Gain_Spec Gain_Proofs Properties_Tree.
Local Open Scope R_scope.

(** Gini: one minus the impurities of the sides, each weighted by the share of rows it receives.  The
    impurity of the node itself is not subtracted, so the value never falls below one over the
    number of labels, even when the split separates nothing. *)
Theorem C55_gini :
  forall (T : Type) (lt : T -> T -> bool) (eq_dec : forall a b : T, {a = b} + {a <> b}) (y l r ls : list T),
    total_order lt -> y <> [] -> Permutation y (l ++ r) -> labels_of y ls ->
    exists g, class_gain lt Gini y l r = Ok g /\
      g = 1 - (share l y * gini_index eq_dec l ls + share r y * gini_index eq_dec r ls) /\
      1 - gini_index eq_dec y ls <= g /\ / INR (length ls) <= g.
Proof.
  intros T lt eq_dec y l r ls HT Hy HP HL. assert (Il : incl l y) by (intros a H; rewrite HP; apply in_or_app; auto).
  assert (Ir : incl r y) by (intros a H; rewrite HP; apply in_or_app; auto).
  unfold class_gain. rewrite (gini_formula HT eq_dec (keep_labels eq_dec HL Il)), (gini_formula HT eq_dec (keep_labels eq_dec HL Ir)). cbn [bind].
  rewrite !gini_keep. eexists. split; [reflexivity|]. split; [reflexivity|].
  pose proof (gini_concave eq_dec _ _ Hy HP ls) as C. pose proof (gini_bounds eq_dec Hy HL) as B. unfold share in *. lra.
Qed.
Print Assumptions C55_gini.

(** Entropy: the information gain, never negative and at most the entropy of the node. *)
Theorem C55_entropy :
  forall (T : Type) (lt : T -> T -> bool) (eq_dec : forall a b : T, {a = b} + {a <> b}) (y l r ls : list T),
    total_order lt -> y <> [] -> Permutation y (l ++ r) -> labels_of y ls ->
    exists g, class_gain lt Entropy y l r = Ok g /\
      g = shannon eq_dec y ls - (share l y * shannon eq_dec l ls + share r y * shannon eq_dec r ls) /\
      0 <= g <= shannon eq_dec y ls.
Proof.
  intros T lt eq_dec y l r ls HT Hy HP HL. assert (Il : incl l y) by (intros a H; rewrite HP; apply in_or_app; auto).
  assert (Ir : incl r y) by (intros a H; rewrite HP; apply in_or_app; auto).
  unfold class_gain. rewrite (entropy_formula HT eq_dec HL), (entropy_formula HT eq_dec (keep_labels eq_dec HL Il)), (entropy_formula HT eq_dec (keep_labels eq_dec HL Ir)). cbn [bind].
  rewrite !shannon_keep. eexists. split; [reflexivity|].
  pose proof (shannon_concave eq_dec _ _ Hy HP ls) as C. destruct (weights _ _ Hy HP) as (W1 & W2 & _).
  pose proof (Rmult_le_pos _ _ W1 (shannon_nonneg eq_dec l ls)). pose proof (Rmult_le_pos _ _ W2 (shannon_nonneg eq_dec r ls)). unfold share in *. lra.
Qed.
Print Assumptions C55_entropy.
Example C55_entropy_case := C55_entropy R Rltb Req_EM_T [0; 1; 0] [0] [1; 0] [0; 1] Rltb_order ltac:(discriminate) (Permutation_refl _)
  ltac:(split; [repeat constructor; simpl; lra|simpl; tauto]).

(** Any other criterion is rejected. *)
Theorem C55_criterion :
  forall (T : Type) (lt : T -> T -> bool) (y l r : list T) (yr lr rr : list R),
    class_gain lt OtherCriterion y l r = Throw InvalidArgument /\ reg_gain OtherRegCriterion yr lr rr = Throw InvalidArgument.
Proof. auto. Qed.
Print Assumptions C55_criterion.

(** Squared error: the variance of the node minus the *sums* of squared deviations of the sides.  For
    n rows this is n times the decrease of the variance, minus (n - 1) times the variance, so it
    orders the splits of a node as the decrease of the variance does but is not that decrease. *)
Theorem C55_squared_error :
  forall y l r, l <> [] -> r <> [] -> Permutation y (l ++ r) ->
    exists g, reg_gain SquaredError y l r = Ok g /\
      g = variance_of y - (sse l + sse r) /\
      g = INR (length y) * variance_decrease y l r - (INR (length y) - 1) * variance_of y /\
      0 <= variance_decrease y l r /\ g <= variance_decrease y l r.
Proof.
  intros y l r Hl Hr HP. assert (Hy : y <> []) by (intros ->; apply Permutation_nil in HP; destruct l; [congruence|discriminate]).
  pose proof (len_pos Hl) as Pl. pose proof (len_pos Hr) as Pr. pose proof (len_sum _ _ HP) as E. pose proof (sse_split Hl Hr HP) as S.
  assert (0 <= sse l /\ 0 <= sse r) as (S1 & S2).
  { split; unfold sse; clear; match goal with |- 0 <= total (map ?f ?x) => generalize (mean_of x); intro m; induction x; cbn; [lra|];
      match goal with |- 0 <= ?u * ?u + _ => pose proof (Rle_0_sqr u) as Q; unfold Rsqr in Q end; unfold total in *; lra end. }
  unfold reg_gain. rewrite !var_vec_sse by auto. cbn [bind]. eexists. split; [reflexivity|].
  assert (1 <= INR (length y)) as P1. { rewrite E. destruct l as [|? l]; [congruence|]. cbn [length] in *. rewrite S_INR in *. pose proof (pos_INR (length l)). lra. }
  unfold variance_of, variance_decrease, share.
  assert (F1 : sse y / INR (length y) - INR (length l) * (sse l / INR (length l)) - INR (length r) * (sse r / INR (length r)) = sse y / INR (length y) - (sse l + sse r)) by (field; lra).
  assert (F2 : variance_of y - (INR (length l) / INR (length y) * variance_of l + INR (length r) / INR (length y) * variance_of r) = (sse y - sse l - sse r) * / INR (length y)).
  { unfold variance_of. field. lra. }
  split; [exact F1|]. rewrite F1, F2. split; [unfold variance_of; field; lra|].
  assert (0 < / INR (length y)) as PI by (apply Rinv_0_lt_compat; lra). split; [apply Rmult_le_pos; lra|].
  assert (/ INR (length y) <= 1) as PL by (rewrite <- Rinv_1; apply Rinv_le_contravar; lra). unfold Rdiv.
  assert ((sse l + sse r) * / INR (length y) <= (sse l + sse r) * 1) by (apply Rmult_le_compat_l; lra). lra.
Qed.
Print Assumptions C55_squared_error.
Example C55_squared_error_case := C55_squared_error [0; 1; 4] [0] [1; 4] ltac:(discriminate) ltac:(discriminate) (Permutation_refl _).

(** Refuted: min_impurity_decrease and purity stop a Gini tree.  When min_impurity_decrease is below one
    over the number of labels, every node, pure or not, is split while it has min_samples_split (at
    least two) rows and its depth does not exceed max_depth. *)
Theorem C55_gini_never_stops_refuted :
  forall P nf X y labels t p i l r, matrix nf X -> length y = length X -> (0 < nf)%nat ->
    classifier_fit Gini P nf [] X y = Ok (labels, t) ->
    min_decrease P < / INR (length labels) -> dbl_min < / INR (length labels) ->
    node_at t p = Node i l r ->
    (min_samples_split P <= n_samples i)%nat -> (2 <= n_samples i)%nat -> (length p <= max_depth P)%nat ->
    n_split i <> None.
Proof.
  intros P nf X y labels t p i l r HM HL Hnf E M1 M2 Hp A1 A2 A3 Hn.
  destruct (C24_classifier _ _ _ _ _ _ _ HM HL E) as (LB & _ & HC). specialize (HC p i l r Hp). cbn zeta in HC.
  unfold classifier_fit in E. rewrite fit_labels_spec in E by assumption. cbn [bind] in E.
  destruct (grow _ _ _ _ _ _ _ _ _ _) as [t'| | |] eqn:Eg; cbn [bind] in E; try discriminate. injection E as E1 E2. subst t'.
  destruct (C24_structure _ _ _ _ _ _ _ _ _ _ _ _ _ _ Rltb_order Rgtb_order HM HL Eg) as (_ & Hs).
  specialize (Hs p i l r Hp). cbn zeta in Hs. destruct Hs as (_ & Hc & stop & Hv & Hs). rewrite Hn in Hs. destruct Hs as (_ & _ & Hs).
  set (D := rows_at Rltb t p (combine X y)) in *.
  assert (Hlab : labels <> []).
  { intros ->. destruct y as [|b y]; [destruct X; [|discriminate]; unfold D in Hc; cbn in Hc; lia|]. destruct LB as (_ & LB). apply (LB b). now left. }
  rewrite E1 in Hv. destruct (class_value_spec (map snd D) Hlab) as (k & Ek & _). rewrite Ek in Hv. injection Hv as _ <-.
  assert (G : forall f th, exists g, gain_at Rltb (class_gain Rltb Gini) D f th = Ok g /\ / INR (length labels) <= g).
  { intros f th. unfold gain_at.
    assert (Hy : map snd D <> []) by (destruct D; [cbn in Hc; lia|discriminate]).
    assert (HP : Permutation (map snd D) (left_targets Rltb D f th ++ right_targets Rltb D f th)).
    { unfold left_targets, right_targets. rewrite <- map_app. apply Permutation_map. clear.
      induction D as [|e D IH]; cbn; auto. destruct (goes_left _ _ _ _); cbn; [constructor; auto|].
      apply Permutation_cons_app; auto. }
    assert (Inc : incl (map snd D) y).
    { intros u Hu. apply in_map_iff in Hu. destruct Hu as ((a & b) & <- & Hu). apply filter_In in Hu. destruct Hu as (Hu & _). now apply in_combine_r in Hu. }
    destruct (C55_gini R Rltb Req_EM_T _ _ _ _ Rltb_order Hy HP (keep_labels Req_EM_T LB Inc)) as (g & Eg' & _ & _ & B). exists g. split; [exact Eg'|].
    eapply Rle_trans; [|exact B]. apply Rinv_le_contravar.
    - apply lt_0_INR. destruct (map snd D) as [|u z] eqn:Z; [congruence|]. assert (In u (keep Req_EM_T (u :: z) (map fst labels))) as I.
      { apply (keep_labels Req_EM_T LB Inc). now left. }
      destruct (keep _ _ _); [destruct I|cbn; lia].
    - apply le_INR. rewrite <- (map_length fst labels). unfold keep. clear. induction (map fst labels) as [|a ls IH]; cbn; [lia|]. destruct (in_dec _ _ _); cbn; lia. }
  destruct Hs as [Hs|[Hs|[Hs|[Hs|Hs]]]]; [discriminate|lia|lia|..].
  - destruct (candidate_exists Rmid (nf := nf) D Rltb_order Hnf) as (th & C); [|lia|].
    + intros x Hx. apply in_map_iff in Hx. destruct Hx as ((a & b) & <- & Hx). apply filter_In in Hx. destruct Hx as (Hx & _). apply in_combine_l in Hx. apply HM; auto.
    + destruct (Hs 0%nat th Hnf C) as (g & G1 & G2). destruct (G 0%nat th) as (g' & G3 & G4). assert (g = g') by congruence. subst g'.
      unfold Rgtb in G2. apply Rltb_false in G2. lra.
  - destruct Hs as (f & th & g & (_ & _ & G1 & _) & G2). destruct (G f th) as (g' & G3 & G4). assert (g = g') by congruence. subst g'.
    unfold Rgtb in G2. apply Rltb_false in G2. lra.
Qed.
Print Assumptions C55_gini_never_stops_refuted.

(** An entropy tree splits only nodes that hold at least two different labels. *)
Theorem C55_entropy_splits_impure :
  forall P nf X y labels t p i l r, matrix nf X -> length y = length X ->
    classifier_fit Entropy P nf [] X y = Ok (labels, t) ->
    node_at t p = Node i l r -> n_split i <> None ->
    exists a b, In a (map snd (rows_at Rltb t p (combine X y))) /\ In b (map snd (rows_at Rltb t p (combine X y))) /\ a <> b.
Proof.
  intros P nf X y labels t p i l r HM HL E Hp Hn.
  destruct (C24_classifier _ _ _ _ _ _ _ HM HL E) as (LB & _ & _).
  unfold classifier_fit in E. rewrite fit_labels_spec in E by assumption. cbn [bind] in E.
  destruct (grow _ _ _ _ _ _ _ _ _ _) as [t'| | |] eqn:Eg; cbn [bind] in E; try discriminate. injection E as E1 E2. subst t'.
  destruct (C24_structure _ _ _ _ _ _ _ _ _ _ _ _ _ _ Rltb_order Rgtb_order HM HL Eg) as (_ & Hs).
  specialize (Hs p i l r Hp). cbn zeta in Hs. destruct Hs as (_ & Hc & stop & Hv & Hs). set (D := rows_at Rltb t p (combine X y)) in *.
  destruct (n_split i) as [[[f th] g]|]; [|congruence]. destruct Hs as (_ & _ & _ & (_ & _ & Hg & Hf & _) & _).
  destruct D as [|e D'] eqn:ED.
  { exfalso. unfold gain_at in Hg. cbn in Hg. injection Hg as <-. unfold Rgtb in Hf. apply Rltb_true in Hf. revert Hf. unfold entropy. cbn.
    assert (0 < dbl_min) by (apply Rinv_0_lt_compat, pow_lt; lra). lra. }
  rewrite <- ED in *.
  assert (Hy : map snd D <> []) by (rewrite ED; discriminate).
  assert (HP : Permutation (map snd D) (left_targets Rltb D f th ++ right_targets Rltb D f th)).
  { unfold left_targets, right_targets. rewrite <- map_app. apply Permutation_map. clear.
    induction D as [|e D IH]; cbn; auto. destruct (goes_left _ _ _ _); cbn; [constructor; auto|]. apply Permutation_cons_app; auto. }
  assert (Inc : incl (map snd D) y).
  { intros u Hu. apply in_map_iff in Hu. destruct Hu as ((a & b) & <- & Hu). apply filter_In in Hu. destruct Hu as (Hu & _). now apply in_combine_r in Hu. }
  pose proof (keep_labels Req_EM_T LB Inc) as KL.
  destruct (C55_entropy R Rltb Req_EM_T _ _ _ _ Rltb_order Hy HP KL) as (g' & Eg' & _ & B).
  unfold gain_at in Hg. assert (g = g') by congruence. subst g'. unfold Rgtb in Hf. apply Rltb_true in Hf.
  assert (0 < dbl_min) by (apply Rinv_0_lt_compat, pow_lt; lra).
  assert (Hcase : (exists b, In b (map snd D) /\ b <> snd e) \/ (forall b, In b (map snd D) -> b = snd e)).
  { clear. induction (map snd D) as [|b z IH]; [right; easy|]. destruct (Req_EM_T b (snd e)) as [Z|Z].
    - destruct IH as [(c & C1 & C2)|IH]; [left; exists c; split; [now right|auto]|]. right. intros c [<-|C]; auto.
    - left. exists b. split; [now left|auto]. }
  destruct Hcase as [(b & B1 & B2)|HA].
  - exists (snd e), b. split; [rewrite ED; now left|]. split; auto.
  - exfalso. destruct (C43_entropy R Rltb Req_EM_T _ _ Rltb_order Hy KL) as (s & _ & -> & _ & Z).
    rewrite (proj2 Z) in B; [lra|]. intros a b Ha Hb. rewrite (HA a Ha), (HA b Hb). reflexivity.
Qed.
Print Assumptions C55_entropy_splits_impure.
(** A fitted tree with criterion "entropy" whose root is split. *)
Example C55_entropy_splits_impure_case : exists labels t i l r,
  classifier_fit Entropy (Params 3 0 4 (-1)) 1 [] [[0];[1];[2]] [5;5;6] = Ok (labels, t) /\ node_at t [] = Node i l r /\ n_split i <> None.
Proof.
  assert (HM : matrix 1 [[0];[1];[2]]) by (intros r [<- | [<- | [<- | []]]]; reflexivity).
  destruct (C24_classifier_defined Entropy (Params 3 0 4 (-1)) 1 [[0];[1];[2]] [5;5;6] HM eq_refl) as (labels & t & E); [discriminate..|cbn; lia|].
  pose proof E as E0. unfold classifier_fit in E. rewrite fit_labels_spec in E by reflexivity. cbn [bind] in E.
  set (lab := fold_left _ _ _) in E.
  assert (Hlab : lab <> []).
  { intros Hn. destruct (counts_nil Rltb_order Req_EM_T [5;5;6]) as (_ & (_ & H) & _). fold lab in H. rewrite Hn in H. apply (H 5). now left. }
  destruct (grow _ _ _ _ _ _ _ _ _ _) as [t'| | |] eqn:Eg; cbn [bind] in E; try discriminate. injection E as <- <-.
  destruct (C24_structure _ _ _ _ _ _ _ _ _ _ _ _ _ _ Rltb_order Rgtb_order HM (eq_refl : length [5;5;6] = length [[0];[1];[2]]) Eg) as (N & H).
  destruct t' as [|i l r]; [congruence|]. exists lab, (Node i l r), i, l, r. split; [exact E0|]. split; [reflexivity|].
  specialize (H [] i l r eq_refl). cbn zeta in H. rewrite rows_at_nil in H. destruct H as (_ & _ & stop & Hv & Hs).
  destruct (class_value_spec (map snd (combine [[0];[1];[2]] [5;5;6])) Hlab) as (k & Ek & _). rewrite Ek in Hv. injection Hv as _ <-.
  destruct (n_split i); [discriminate|]. exfalso. destruct Hs as (_ & _ & [Hs|[Hs|[Hs|[Hs|Hs]]]]); [discriminate|cbn in Hs; lia|cbn in Hs; lia|..].
  - destruct (Hs 0%nat (Rmid 1 2)) as (g & G1 & G2); [lia| |].
    + exists [0;1;2], 1%nat, 1, 2. split; [reflexivity|]. split; [|auto].
      repeat (constructor; try (apply Rltb_false; lra)).
    + assert (M : Rmid 1 2 = 3 / 2) by (unfold Rmid; lra). rewrite M in G1.
      unfold gain_at, left_targets, right_targets, goes_left in G1. cbn [combine filter map fst snd nth_error] in G1.
      rewrite (proj2 (Rltb_false (3/2) 0)), (proj2 (Rltb_false (3/2) 1)), (proj2 (Rltb_true (3/2) 2)) in G1 by lra. cbn [negb map snd] in G1.
      destruct (C55_entropy R Rltb Req_EM_T [5;5;6] [5;5] [6] [5;6] Rltb_order) as (g' & E' & F & _); [discriminate|reflexivity| |].
      { split; [repeat constructor; cbn; intuition lra|]. cbn. tauto. }
      rewrite E' in G1. injection G1 as <-. unfold Rgtb in G2. apply Rltb_false in G2. rewrite F in G2. clear - G2.
      unfold shannon, share, total, freq in G2. cbn in G2.
      repeat (destruct (Req_EM_T _ _) in G2; try lra). cbn in G2.
      assert (L2 : 0 < ln 2) by (rewrite <- ln_1; apply ln_increasing; lra).
      replace ((1 + 1) / (1 + 1)) with 1 in G2 by lra. replace (1 / 1) with 1 in G2 by lra. replace (0 / (1 + 1)) with 0 in G2 by lra. replace (0 / 1) with 0 in G2 by lra.
      rewrite ln_1 in G2. replace ((1 + 1) / (1 + 1 + 1)) with (2 / 3) in G2 by lra. replace (1 / (1 + 1 + 1)) with (/ 3) in G2 by lra. rewrite ln_Rinv in G2 by lra.
      assert (A1 : ln (2 / 3) / ln 2 <= 0).
      { apply Rmult_le_reg_r with (ln 2); [lra|]. unfold Rdiv. rewrite Rmult_assoc, Rinv_l, Rmult_0_l, Rmult_1_r by lra. rewrite <- ln_1. left. apply ln_increasing; lra. }
      assert (A2 : 1 <= ln 3 / ln 2).
      { apply Rmult_le_reg_r with (ln 2); [lra|]. unfold Rdiv. rewrite Rmult_assoc, Rinv_l, Rmult_1_l, Rmult_1_r by lra. left. apply ln_increasing; lra. }
      assert (A3 : dbl_min <= / 2 ^ 2).
      { unfold dbl_min. apply Rinv_le_contravar; [lra|]. apply Rle_pow; [lra|lia]. }
      unfold Rdiv in *. rewrite Ropp_mult_distr_l_reverse in G2. nra.
  - destruct Hs as (f & th & g & (_ & _ & _ & G1 & _) & G2). unfold Rgtb in *. apply Rltb_true in G1. apply Rltb_false in G2. cbn in G2.
    assert (0 < dbl_min) by (apply Rinv_0_lt_compat, pow_lt; lra). lra.
Qed.

(** Refuted: the regression tree splits whenever that reduces the squared error enough.  A node of n
    rows is split only if the squared error drops below one n-th of what it was. *)
Theorem C55_regressor_refuses_refuted :
  forall ms P nf X y t p i l r, matrix nf X -> length y = length X ->
    regressor_fit SquaredError ms P nf X y = Ok t ->
    node_at t p = Node i l r -> n_split i <> None ->
    let targets q := map snd (rows_at Rltb t q (combine X y)) in
    INR (n_samples i) * (sse (targets (p ++ [true])) + sse (targets (p ++ [false]))) < sse (targets p).
Proof.
  intros ms P nf X y t p i l r HM HL E Hp Hn targets.
  destruct (C24_structure _ _ _ _ _ _ _ _ _ _ _ _ _ _ Rltb_order Rgtb_order HM HL E) as (_ & Hs).
  specialize (Hs p i l r Hp). cbn zeta in Hs. destruct Hs as (_ & Hc & stop & Hv & Hs).
  destruct (n_split i) as [[[f th] g]|] eqn:Es; [|congruence]. destruct Hs as (_ & _ & _ & (_ & _ & Hg & Hf & _) & _).
  destruct (rows_child Rltb t p (combine X y) Hp Es) as (RL & RR). unfold targets. rewrite RL, RR. set (D := rows_at Rltb t p (combine X y)) in *.
  unfold gain_at in Hg.
  assert (Ne : map snd D <> [] /\ left_targets Rltb D f th <> [] /\ right_targets Rltb D f th <> []).
  { unfold reg_gain in Hg. destruct (map snd D); [discriminate|]. split; [discriminate|]. destruct (var_vec (_ :: _)); try discriminate. cbn [bind] in Hg.
    destruct (left_targets Rltb D f th); [discriminate|]. split; [discriminate|]. destruct (var_vec (_ :: _)); try discriminate. cbn [bind] in Hg.
    destruct (right_targets Rltb D f th); discriminate. }
  destruct Ne as (N0 & N1 & N2).
  assert (HP : Permutation (map snd D) (left_targets Rltb D f th ++ right_targets Rltb D f th)).
  { unfold left_targets, right_targets. rewrite <- map_app. apply Permutation_map. clear.
    induction D as [|e D IH]; cbn; auto. destruct (goes_left _ _ _ _); cbn; [constructor; auto|]. apply Permutation_cons_app; auto. }
  destruct (C55_squared_error _ _ _ N1 N2 HP) as (g' & Eg & F & _). assert (Q : g = g') by congruence. rewrite <- Q in F.
  unfold Rgtb in Hf. apply Rltb_true in Hf. assert (0 < dbl_min) by (apply Rinv_0_lt_compat, pow_lt; lra).
  rewrite Hc, <- (map_length snd D). pose proof (len_pos N0) as P0. unfold variance_of in F.
  assert (sse (left_targets Rltb D f th) + sse (right_targets Rltb D f th) < sse (map snd D) / INR (length (map snd D))) as B by lra.
  apply (Rmult_lt_compat_l (INR (length (map snd D)))) in B; [|auto]. eapply Rlt_le_trans; [exact B|]. right. field. lra.
Qed.
Print Assumptions C55_regressor_refuses_refuted.

(** Four rows whose variance a split would reduce from 10.25 to 4 are left in one leaf. *)
Theorem C55_useful_split_refused_refuted :
  exists t i, regressor_fit SquaredError 0 (Params 3 0 4 (/ 10 ^ 7)) 1 [[0];[1];[2];[3]] [0;4;5;9] = Ok t /\
    node_at t [] = Node i Null Null /\ n_samples i = 4%nat /\
    variance_of [0;4;5;9] = 41 / 4 /\ variance_decrease [0;4;5;9] [0;4] [5;9] = 25 / 4.
Proof.
  assert (HM : matrix 1 [[0];[1];[2];[3]]) by (intros r [<- | [<- | [<- | [<- | []]]]]; reflexivity).
  destruct (C26_defined 0 (Params 3 0 4 (/ 10 ^ 7)) 1 [[0];[1];[2];[3]] [0;4;5;9] HM eq_refl) as (t & Et); [discriminate|cbn; lia| |].
  { intros [|f] Hf; [|lia]. cbn. repeat constructor; cbn; intros H; repeat destruct H as [H|H]; try contradiction; injection H; lra. }
  pose proof Et as Et'. unfold regressor_fit in Et'.
  destruct (C24_structure _ _ _ _ _ _ _ _ _ _ _ _ _ _ Rltb_order Rgtb_order HM (eq_refl : length [0;4;5;9] = length [[0];[1];[2];[3]]) Et') as (Hn & Hs).
  destruct t as [|i l r] eqn:E; [congruence|]. rewrite <- E in *. assert (Hp : node_at t [] = Node i l r) by (subst t; reflexivity).
  pose proof (Hs [] i l r Hp) as H0. cbn zeta in H0. destruct H0 as (_ & Hc & stop & _ & H0). rewrite rows_at_nil in Hc. cbn [length combine] in Hc.
  destruct (n_split i) as [[[f th] g]|] eqn:Es.
  - exfalso.
    assert (B := C55_regressor_refuses_refuted 0 (Params 3 0 4 (/ 10 ^ 7)) 1 [[0];[1];[2];[3]] [0;4;5;9] t [] i l r HM eq_refl Et Hp ltac:(congruence)).
    cbv beta zeta in B. destruct (rows_child Rltb t [] (combine [[0];[1];[2];[3]] [0;4;5;9]) Hp Es) as (RL & RR). change (@nil bool ++ [true]) with [true] in *. change (@nil bool ++ [false]) with [false] in *. rewrite rows_at_nil in RL, RR. rewrite RL, RR, rows_at_nil, Hc in B.
    destruct H0 as (_ & _ & _ & (Hf & _) & _). destruct f as [|f]; [|lia].
    unfold left_targets, right_targets, goes_left in B. cbn [combine map snd fst nth_error filter] in B.
    destruct (Rltb th 0) eqn:T0; destruct (Rltb th 1) eqn:T1; destruct (Rltb th 2) eqn:T2; destruct (Rltb th 3) eqn:T3;
      repeat match goal with H : Rltb _ _ = true |- _ => apply Rltb_true in H | H : Rltb _ _ = false |- _ => apply Rltb_false in H end; try lra;
      unfold sse, mean_of, total in B; cbn in B; lra.
  - destruct H0 as (-> & -> & _). exists t, i. split; [exact Et|]. split; [exact Hp|]. split; [exact Hc|].
    unfold variance_decrease, variance_of, share, sse, mean_of, total. cbn. split; field.
Qed.
Print Assumptions C55_useful_split_refused_refuted.

Example C55_case :
  (exists g, class_gain Rltb Gini [0;0;1] [0] [0;1] = Ok g /\ g = 2 / 3) /\
  (exists labels t i l r, classifier_fit Gini (Params 3 0 4 (/ 10 ^ 7)) 1 [] [[0];[1];[2]] [5;5;5] = Ok (labels, t) /\
     node_at t [] = Node i l r /\ n_split i <> None).
Proof.
  split.
  - destruct (C55_gini R Rltb Req_EM_T [0;0;1] [0] [0;1] [0;1] Rltb_order) as (g & E & F & _); [discriminate|reflexivity| |].
    + split; [repeat constructor; cbn; intuition lra|]. cbn. tauto.
    + exists g. split; [exact E|]. rewrite F. unfold share, gini_index, total, freq. cbn.
      repeat (destruct (Req_EM_T _ _); try lra). cbn. field.
  - assert (HM : matrix 1 [[0];[1];[2]]) by (intros r [<- | [<- | [<- | []]]]; reflexivity).
    destruct (C24_classifier_defined Gini (Params 3 0 4 (/ 10 ^ 7)) 1 [[0];[1];[2]] [5;5;5] HM eq_refl) as (labels & t & E); [discriminate..|cbn; lia|].
    destruct t as [|i l r] eqn:Et.
    { exfalso. unfold classifier_fit in E. destruct (fit_labels _ _ _ _); try discriminate. cbn [bind] in E.
      destruct (grow _ _ _ _ _ _ _ _ _ _) as [t'| | |] eqn:Eg; cbn [bind] in E; try discriminate. injection E as _ ->.
      destruct (C24_structure _ _ _ _ _ _ _ _ _ _ _ _ _ _ Rltb_order Rgtb_order HM (eq_refl : length [5;5;5] = length [[0];[1];[2]]) Eg). congruence. }
    exists labels, (Node i l r), i, l, r. split; [exact E|]. split; [reflexivity|].
    destruct (C24_classifier _ _ _ _ _ _ _ HM (eq_refl : length [5;5;5] = length [[0];[1];[2]]) E) as (LB & _ & HC). specialize (HC [] i l r eq_refl). cbn zeta in HC. rewrite rows_at_nil in HC.
    destruct HC as (Hc & _). cbn [combine map snd length] in Hc.
    assert (Ll : length labels = 1%nat).
    { destruct LB as (ND & LB). rewrite <- (map_length fst). destruct (map fst labels) as [|a [|b ls]] eqn:Z; [destruct (LB 5); cbn in *; tauto|reflexivity|].
      exfalso. assert (a = 5) by (destruct (LB a) as (A & _); cbn in A; destruct A as [A|[A|[A|[]]]]; auto). assert (b = 5) by (destruct (LB b) as (A & _); cbn in A; destruct A as [A|[A|[A|[]]]]; auto). subst. inversion ND as [|? ? N _]. apply N. now left. }
    apply (C55_gini_never_stops_refuted (Params 3 0 4 (/ 10 ^ 7)) 1 [[0];[1];[2]] [5;5;5] labels (Node i l r) [] i l r HM eq_refl); auto; rewrite ?Ll, ?Hc; cbn [min_decrease min_samples_split max_depth INR length]; try lia.
    + rewrite Rinv_1. apply Rmult_lt_reg_l with (10 ^ 7); [lra|]. rewrite Rinv_r by lra. lra.
    + rewrite Rinv_1. unfold dbl_min. apply Rmult_lt_reg_l with (2 ^ 1022); [apply pow_lt; lra|]. rewrite Rinv_r by (apply pow_nonzero; lra). rewrite Rmult_1_r. apply Rlt_pow_R1; [lra|lia].
Qed.
