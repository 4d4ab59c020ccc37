(** C46, C47: naive Bayes classifiers; refitting and label identity. *)
From Coq Require Import Reals Lra.
From Verif Require Import Base Common_Model CommonMisc_Proofs KDReal_Proofs Tree_Model Tree_Spec Tree_Proofs TreeReal_Proofs Impurity_Model Impurity_Spec Impurity_Proofs
  Vec MathFun_Model Loss_Spec Loss_Proofs LossSoftmax_Proofs Stats_Model Stats_Spec Stats_Proofs MathFun_Proofs NB_Model NB_Spec NB_Proofs Properties_Tree.
From Verif Require Properties_TreeFit.
Local Open Scope R_scope.

(** After the first fit the classes are the different labels in increasing order, the priors are their frequencies,
    which are positive and sum to 1. *)
Theorem C46_priors : forall y, y <> [] ->
  (forall eps nf X s, gnb_fit eps nf gnb0 X y = Ok s ->
     labels_of y (nb_classes (g_labels s)) /\ StronglySorted Rlt (nb_classes (g_labels s)) /\ g_priors s = map (freq Req_EM_T y) (nb_classes (g_labels s)) /\
     (forall p, In p (g_priors s) -> 0 < p) /\ total (g_priors s) = 1) /\
  (forall asserts nf X s, mnb_fit asserts nf mnb0 X y = Ok s ->
     labels_of y (nb_classes (m_labels s)) /\ StronglySorted Rlt (nb_classes (m_labels s)) /\ m_priors s = map (freq Req_EM_T y) (nb_classes (m_labels s)) /\
     (forall p, In p (m_priors s) -> 0 < p) /\ total (m_priors s) = 1).
Proof.
  intros y Hy. destruct (count_labels_spec y) as (H1 & H2 & _).
  assert (G : nb_priors (count_labels [] y) y = map (freq Req_EM_T y) (nb_classes (count_labels [] y)) /\
    (forall p, In p (nb_priors (count_labels [] y) y) -> 0 < p) /\ total (nb_priors (count_labels [] y) y) = 1).
  { rewrite nb_priors_spec. split; [reflexivity|]. split.
    - intros p Hp. apply in_map_iff in Hp. destruct Hp as (l & <- & Hl). apply (proj2 H1) in Hl. apply (freq_pos Req_EM_T y l Hl).
    - exact (freq_total Req_EM_T Hy H1). }
  destruct G as (G1 & G2 & G3). split.
  - intros eps nf X s E. unfold gnb_fit in E. destruct (negb _); [discriminate|]. destruct (mapM _ _); cbn [bind] in E; try discriminate.
    destruct (max_coeff _); cbn [bind] in E; try discriminate. injection E as <-. cbn [g_labels g_priors gnb0]. auto.
  - intros a nf X s E. unfold mnb_fit in E. destruct (negb _); [discriminate|]. destruct (mapM _ _); cbn [bind] in E; try discriminate.
    injection E as <-. cbn [m_labels m_priors mnb0]. auto.
Qed.
Print Assumptions C46_priors.

(** Gaussian fit on at least two features: each class gets the mean of each feature over its rows, and the population
    variance plus [eps] times the largest of these variances.  All variances are positive as soon as some feature
    varies within some class. *)
Theorem C46_gaussian_fit : forall eps nf X y, (2 <= nf)%nat -> shape (length y) nf X -> y <> [] ->
  exists s mx, gnb_fit eps nf gnb0 X y = Ok s /\ length (g_mean s) = length (nb_classes (g_labels s)) /\ length (g_var s) = length (nb_classes (g_labels s)) /\
    (forall c l j, nth_error (nb_classes (g_labels s)) c = Some l -> (j < nf)%nat ->
       entry (g_mean s) c j = avg (col j (rows_with l X y)) /\ entry (g_var s) c j = mean_sq_dev (col j (rows_with l X y)) + eps * mx) /\
    (exists l j, In l y /\ (j < nf)%nat /\ mx = mean_sq_dev (col j (rows_with l X y))) /\
    (forall l j, In l y -> (j < nf)%nat -> mean_sq_dev (col j (rows_with l X y)) <= mx) /\
    (0 < eps -> forall l j a b, (j < nf)%nat -> In a (col j (rows_with l X y)) -> In b (col j (rows_with l X y)) -> a <> b ->
       forall c k, (c < length (g_var s))%nat -> (k < nf)%nat -> 0 < entry (g_var s) c k).
Proof.
  intros eps nf X y Hnf (HX & HW) Hy. destruct (gnb_fit_spec Hnf HW HX Hy eps) as (mx & E & (l0 & Hl0 & Hmx) & Hle).
  eexists. exists mx. split; [exact E|]. cbn [g_labels g_mean g_var]. rewrite !map_length. split; [reflexivity|]. split; [reflexivity|].
  assert (HV : forall l j, (j < nf)%nat -> nth j (vars_of nf X y l) 0 = mean_sq_dev (col j (rows_with l X y))).
  { intros l j Hj. unfold vars_of, cols_of. rewrite map_map. rewrite (nth_map _ _ _ 0%nat) by (now rewrite seq_length). now rewrite seq_nth. }
  assert (HN : forall l j, In l y -> 0 <= mean_sq_dev (col j (rows_with l X y))).
  { intros l j Hl. apply mean_sq_dev_nonneg. pose proof (rows_with_ne l X y HX Hl) as HN. unfold col. destruct (rows_with l X y); [congruence|discriminate]. }
  assert (HM : forall l j, In l y -> (j < nf)%nat -> mean_sq_dev (col j (rows_with l X y)) <= mx).
  { intros l j Hl Hj. apply (Hle l _ Hl). rewrite <- HV by assumption. apply nth_In. now rewrite vars_of_length. }
  split; [|split; [|split; [exact HM|]]].
  - intros c l j Hc Hj. unfold entry. split.
    + rewrite (nth_error_nth _ c [] (map_nth_error (means_of nf X y) _ _ Hc)). unfold means_of, cols_of. rewrite map_map.
      rewrite (nth_map _ _ _ 0%nat) by (now rewrite seq_length). now rewrite seq_nth.
    + rewrite (nth_error_nth _ c [] (map_nth_error _ _ _ Hc)). rewrite (nth_map _ _ _ 0) by (now rewrite vars_of_length). now rewrite HV.
  - apply (In_nth _ _ 0) in Hmx. destruct Hmx as (j & Hj & <-). rewrite vars_of_length in Hj. exists l0, j. split; [assumption|]. split; [assumption|]. now apply HV.
  - intros He l j a b Hj Ha Hb Hab c k Hc Hk.
    assert (Hl : In l y). { destruct (in_dec Req_EM_T l y) as [|n]; [assumption|]. rewrite rows_with_absent in Ha by assumption. destruct Ha. }
    assert (Hmp : 0 < mx).
    { specialize (HM l j Hl Hj). destruct (HN l j Hl) as [|E0]; [lra|]. exfalso. symmetry in E0. apply Hab.
      apply (proj1 (mean_sq_dev_zero (v := col j (rows_with l X y)) ltac:(intros Hn; rewrite Hn in Ha; destruct Ha)) E0); assumption. }
    unfold entry. rewrite (nth_map _ _ _ 0) by assumption. rewrite (nth_map _ _ _ 0) by (now rewrite vars_of_length). rewrite HV by assumption.
    set (l1 := nth c _ 0). assert (Hl1 : In l1 y). { apply (proj2 (classes_labels y)). now apply nth_In. }
    specialize (HN l1 k Hl1). assert (0 < eps * mx) by now apply Rmult_lt_0_compat. lra.
Qed.
Print Assumptions C46_gaussian_fit.
Lemma nb_shape : shape (length [7; 8; 7]) 2 [[0; 1]; [2; 5]; [4; 4]].
Proof. split; [reflexivity|]. intros r [<-|[<-|[<-|[]]]]; reflexivity. Qed.
Example C46_gaussian_fit_case := C46_gaussian_fit (1 / 10 ^ 9) 2 [[0; 1]; [2; 5]; [4; 4]] [7; 8; 7] (le_n 2) nb_shape ltac:(discriminate).
Example C46_priors_case : exists s, gnb_fit (1 / 10 ^ 9) 2 gnb0 [[0; 1]; [2; 5]; [4; 4]] [7; 8; 7] = Ok s /\ total (g_priors s) = 1 /\ labels_of [7; 8; 7] (nb_classes (g_labels s)).
Proof.
  destruct C46_gaussian_fit_case as (s & _ & E & _). exists s. split; [exact E|].
  destruct (proj1 (C46_priors [7; 8; 7] ltac:(discriminate)) _ _ _ _ E) as (L & _ & _ & _ & T). split; [exact T|exact L].
Qed.

(** Gaussian prediction with Eigen's assertions compiled out: each row of predict_prob consists of the normal
    likelihoods of the classes divided by their sum, so it is positive and sums to 1; predict gives the position of the
    first class of largest likelihood.  The priors play no part. *)
Theorem C46_gaussian_prediction : forall eps nf X y s Xn, (2 <= nf)%nat -> shape (length y) nf X -> y <> [] -> gnb_fit eps nf gnb0 X y = Ok s ->
  (forall c k, (c < length (g_var s))%nat -> (k < nf)%nat -> 0 < entry (g_var s) c k) -> width nf Xn ->
  let likelihoods := fun x => map2 (fun m v => normal_likelihood nf m v x) (g_mean s) (g_var s) in
  gnb_predict_prob false s Xn = Ok (map (fun x => normalise (likelihoods x)) Xn) /\
  (forall x, In x Xn -> total (normalise (likelihoods x)) = 1 /\ forall p, In p (normalise (likelihoods x)) -> 0 < p) /\
  exists ks, gnb_predict false s Xn = Ok (map INR ks) /\ Forall2 (fun x k => first_largest (likelihoods x) k) Xn ks.
Proof.
  intros eps nf X y s Xn Hnf (HX & HW) Hy E Hpos HWn likelihoods. destruct (gnb_fit_spec Hnf HW HX Hy eps) as (mx & E' & _). rewrite E in E'. injection E' as ->.
  set (classes := nb_classes (count_labels [] y)) in *. set (vf := fun l => map (fun v => v + eps * mx) (vars_of nf X y l)) in *. set (mf := means_of nf X y) in *.
  cbn [g_labels g_priors g_mean g_var] in *.
  assert (HL : forall x, likelihoods x = map (fun l => normal_likelihood nf (mf l) (vf l) x) classes).
  { intros x. unfold likelihoods. clear. induction classes as [|l ls IH]; simpl; [reflexivity|]. now rewrite IH. }
  pose proof (classes_ne Hy) as Hne. fold classes in Hne.
  assert (HV : forall l, In l classes -> length (mf l) = nf /\ length (vf l) = nf /\ forall j, (j < nf)%nat -> 0 < nth j (vf l) 0).
  { intros l Hl. split; [apply means_of_length|]. split; [unfold vf; now rewrite map_length, vars_of_length|]. intros j Hj.
    apply (In_nth _ _ 0) in Hl. destruct Hl as (c & Hc & <-). specialize (Hpos c j). rewrite map_length in Hpos. specialize (Hpos Hc Hj).
    unfold entry in Hpos. now rewrite (nth_map vf _ _ 0) in Hpos. }
  assert (HP : forall x a, In a (likelihoods x) -> 0 < a).
  { intros x a Ha. rewrite HL in Ha. apply in_map_iff in Ha. destruct Ha as (l & <- & Hl). apply normal_likelihood_pos. now apply HV. }
  assert (HN : forall x, likelihoods x <> []). { intros x. rewrite HL. destruct classes; [congruence|discriminate]. }
  set (p0 := hd 0 (map (freq Req_EM_T y) classes)).
  assert (EJ : gnb_jll false (Gnb (count_labels [] y) (map (freq Req_EM_T y) classes) (map mf classes) (map vf classes)) Xn =
    Ok (map (fun x => map (fun a => ln a + ln p0) (likelihoods x)) Xn)).
  { unfold p0. destruct (map (freq Req_EM_T y) classes) as [|p ps] eqn:Ep; [destruct classes; [congruence|discriminate]|].
    rewrite (gnb_jll_spec (nf := nf)); [|unfold classes, nb_classes; now rewrite map_length|exact HV|exact HWn].
    f_equal. apply map_ext. intros x. now rewrite HL. }
  unfold gnb_predict_prob, gnb_predict. rewrite EJ. cbn [bind].
  assert (HNJ : forall r, In r (map (fun x => map (fun a => ln a + ln p0) (likelihoods x)) Xn) -> r <> []).
  { intros r Hr. apply in_map_iff in Hr. destruct Hr as (x & <- & _). specialize (HN x). destruct (likelihoods x); [congruence|discriminate]. }
  split; [|split].
  - rewrite prob_of_spec by assumption. f_equal. rewrite map_map. apply map_ext. intros x. apply softmax_of_ln. apply HP.
  - intros x _. apply normalise_distribution; [apply HN|apply HP].
  - destruct (predict_of_spec _ HNJ) as (ks & Ek & HF). exists ks. split; [exact Ek|]. clear - HF HP. revert ks HF.
    induction Xn as [|x Xn IH]; intros ks HF; inversion HF as [|? k ? ks' H1 H2]; subst; constructor; [|auto].
    replace (likelihoods x) with (map (fun b => exp (b - ln p0)) (map (fun a => ln a + ln p0) (likelihoods x))).
    { apply first_largest_mono; [|assumption]. intros a b _ _ Hab. apply exp_increasing. lra. }
    rewrite map_map. rewrite <- (map_id (likelihoods x)) at 2. apply map_ext_in. intros a Ha. replace (ln a + ln p0 - ln p0) with (ln a) by ring.
    apply exp_ln. now apply HP with x.
Qed.
Print Assumptions C46_gaussian_prediction.
Example C46_gaussian_prediction_case : exists s ks, gnb_fit (1 / 10 ^ 9) 2 gnb0 [[0; 1]; [2; 5]; [4; 4]] [7; 8; 7] = Ok s /\
  gnb_predict false s [[1; 1]; [3; 3]] = Ok (map INR ks) /\
  Forall2 (fun x k => first_largest (map2 (fun m v => normal_likelihood 2 m v x) (g_mean s) (g_var s)) k) [[1; 1]; [3; 3]] ks.
Proof.
  destruct C46_gaussian_fit_case as (s & mx & E & _ & _ & _ & _ & _ & P).
  assert (R7 : rows_with 7 [[0; 1]; [2; 5]; [4; 4]] [7; 8; 7] = [[0; 1]; [4; 4]]).
  { unfold rows_with. destruct (Req_EM_T 7 7); [|lra]. destruct (Req_EM_T 8 7); [lra|reflexivity]. }
  specialize (P ltac:(lra) 7 0%nat 0 4). rewrite R7 in P. specialize (P ltac:(lia) ltac:(cbn; auto) ltac:(cbn; auto) ltac:(lra)).
  destruct (C46_gaussian_prediction _ _ _ _ s [[1; 1]; [3; 3]] (le_n 2) nb_shape ltac:(discriminate) E P ltac:(intros r [<-|[<-|[]]]; reflexivity)) as (_ & _ & ks & K).
  exists s, ks. split; [exact E|exact K].
Qed.

(** So predict need not pick a class of maximal posterior. *)
Lemma sorted_same : forall a b, StronglySorted Rlt a -> StronglySorted Rlt b -> (forall l, In l a <-> In l b) -> a = b.
Proof.
  induction a as [|x a IH]; intros [|z b] Ha Hb H.
  - reflexivity.
  - exfalso. apply (H z). now left.
  - exfalso. apply (H x). now left.
  - inversion Ha as [|? ? Ha1 Ha2]; subst. inversion Hb as [|? ? Hb1 Hb2]; subst. rewrite Forall_forall in Ha2, Hb2.
    assert (x = z).
    { destruct (proj1 (H x)) as [E|E]; [now left|congruence|]. destruct (proj2 (H z)) as [F|F]; [now left|congruence|].
      specialize (Hb2 x E). specialize (Ha2 z F). lra. }
    subst z. f_equal. apply IH; auto. intros l. split; intros Hl.
    + destruct (proj1 (H l)) as [<- | G]; [now right| |assumption]. specialize (Ha2 x Hl). lra.
    + destruct (proj2 (H l)) as [<- | G]; [now right| |assumption]. specialize (Hb2 x Hl). lra.
Qed.
Definition prior_X : list (list R) := [[0; 0]; [1; 1]; [0; 0]; [0; 0]; [1; 1]; [1; 1]].
Definition prior_y : list R := [0; 0; 1; 1; 1; 1].
Lemma prior_shape : shape (length prior_y) 2 prior_X.
Proof. split; [reflexivity|]. intros r Hr. simpl in Hr. repeat (destruct Hr as [<- | Hr]; [reflexivity|]). destruct Hr. Qed.
Lemma prior_classes : nb_classes (count_labels [] prior_y) = [0; 1].
Proof.
  destruct (count_labels_spec prior_y) as ((_ & H1) & H2 & _). apply sorted_same; [exact H2| |].
  - repeat constructor. lra.
  - intros l. rewrite (H1 l). simpl. tauto.
Qed.
Lemma prior_rows : rows_with 0 prior_X prior_y = [[0; 0]; [1; 1]] /\ rows_with 1 prior_X prior_y = [[0; 0]; [0; 0]; [1; 1]; [1; 1]].
Proof.
  unfold prior_X, prior_y, rows_with.
  destruct (Req_EM_T 0 0); [|congruence]. destruct (Req_EM_T 1 0); [lra|]. destruct (Req_EM_T 0 1); [lra|]. destruct (Req_EM_T 1 1); [|congruence]. split; reflexivity.
Qed.
Theorem C46_gaussian_prior_refuted : exists X y nf eps s x k c,
  (2 <= nf)%nat /\ shape (length y) nf X /\ length x = nf /\ 0 < eps /\ gnb_fit eps nf gnb0 X y = Ok s /\ gnb_predict false s [x] = Ok [INR k] /\
  (c < length (nb_classes (g_labels s)))%nat /\
  let posterior_weight := fun i => nth i (g_priors s) 0 * normal_likelihood nf (nth i (g_mean s) []) (nth i (g_var s) []) x in
  posterior_weight k < posterior_weight c.
Proof.
  destruct (C46_gaussian_fit 1 2 prior_X prior_y (le_n _) prior_shape ltac:(discriminate)) as (s & mx & E & L1 & L2 & HE & _ & _ & HP).
  assert (HC : nb_classes (g_labels s) = [0; 1]).
  { destruct (C46_priors prior_y ltac:(discriminate)) as (H & _). destruct (H _ _ _ _ E) as ((_ & H1) & H2 & _). apply sorted_same; [exact H2| |].
    - repeat constructor. lra.
    - intros l. rewrite (H1 l). simpl. tauto. }
  destruct prior_rows as (R0 & R1). rewrite HC in L1, L2. simpl in L1, L2.
  assert (Hpos : forall c k, (c < length (g_var s))%nat -> (k < 2)%nat -> 0 < entry (g_var s) c k).
  { apply (HP Rlt_0_1 0 0%nat 0 1); [lia| | |lra]; rewrite R0; simpl; auto. }
  assert (HWx : width 2 [[0; 0]]) by (intros r [<- | []]; reflexivity).
  destruct (C46_gaussian_prediction 1 2 prior_X prior_y s [[0; 0]] (le_n _) prior_shape ltac:(discriminate) E Hpos HWx) as (_ & _ & ks & Ek & HF).
  inversion HF as [|? k ? ks' HF1 HF2]; subst. inversion HF2; subst. clear HF HF2.
  pose proof (HE 0%nat 0 0%nat ltac:(now rewrite HC) ltac:(lia)) as (M00 & V00). pose proof (HE 0%nat 0 1%nat ltac:(now rewrite HC) ltac:(lia)) as (M01 & V01).
  pose proof (HE 1%nat 1 0%nat ltac:(now rewrite HC) ltac:(lia)) as (M10 & V10). pose proof (HE 1%nat 1 1%nat ltac:(now rewrite HC) ltac:(lia)) as (M11 & V11).
  unfold entry in *. rewrite R0 in *. rewrite R1 in *. unfold mean_sq_dev, avg, col in *. simpl in M00, M01, M10, M11, V00, V01, V10, V11.
  set (lik := fun i => normal_likelihood 2 (nth i (g_mean s) []) (nth i (g_var s) []) [0; 0]).
  assert (EQ : lik 0%nat = lik 1%nat).
  { unfold lik, normal_likelihood. simpl. 
    assert (A : nth 0 (nth 0 (g_mean s) []) 0 = nth 0 (nth 1 (g_mean s) []) 0) by (rewrite M00, M10; lra).
    assert (B : nth 1 (nth 0 (g_mean s) []) 0 = nth 1 (nth 1 (g_mean s) []) 0) by (rewrite M01, M11; lra).
    assert (C : nth 0 (nth 0 (g_var s) []) 0 = nth 0 (nth 1 (g_var s) []) 0) by (rewrite V00, V10; lra).
    assert (D : nth 1 (nth 0 (g_var s) []) 0 = nth 1 (nth 1 (g_var s) []) 0) by (rewrite V01, V11; lra).
    now rewrite A, B, C, D. }
  assert (LK : map2 (fun m v => normal_likelihood 2 m v [0; 0]) (g_mean s) (g_var s) = [lik 0%nat; lik 1%nat]).
  { unfold lik. destruct (g_mean s) as [|m0 [|m1 [|]]]; try discriminate. destruct (g_var s) as [|v0 [|v1 [|]]]; try discriminate. reflexivity. }
  rewrite LK in HF1. destruct HF1 as (K1 & K2 & K3). simpl in K1.
  assert (k = 0%nat) as ->. { destruct k as [|[|k]]; [reflexivity| |simpl in K1; lia]. specialize (K3 0%nat ltac:(lia)). simpl in K3. lra. }
  assert (LP : 0 < lik 0%nat). { apply normal_likelihood_pos. intros j Hj. apply (Hpos 0%nat j); lia. }
  assert (PR : g_priors s = [2 / 6; 4 / 6]).
  { destruct (C46_priors prior_y ltac:(discriminate)) as (H & _). destruct (H _ _ _ _ E) as (_ & _ & -> & _). rewrite HC. unfold freq, prior_y. simpl.
    destruct (Req_EM_T 0 0); [|congruence]. destruct (Req_EM_T 1 0); [lra|]. destruct (Req_EM_T 0 1); [lra|]. destruct (Req_EM_T 1 1); [|congruence].
    f_equal; [|f_equal]; simpl; lra. }
  exists prior_X, prior_y, 2%nat, 1, s, [0; 0], 0%nat, 1%nat. split; [lia|]. split; [exact prior_shape|]. split; [reflexivity|]. split; [lra|]. split; [exact E|].
  split; [exact Ek|]. split; [rewrite HC; simpl; lia|]. cbv zeta. fold (lik 0%nat) (lik 1%nat). rewrite PR. cbn [nth]. lra.
Qed.
Print Assumptions C46_gaussian_prior_refuted.

(** With the assertions compiled in, Gaussian prediction is undefined as soon as there are two classes, whatever the
    data. *)
Theorem C46_gaussian_asserted_refuted : forall s X, (2 <= length (g_labels s))%nat ->
  gnb_predict_prob true s X = UB /\ gnb_predict true s X = UB.
Proof.
  intros s X H. unfold gnb_predict_prob, gnb_predict, gnb_jll. destruct (Nat.eqb_spec (length (g_labels s)) 1); [lia|].
  destruct (Nat.eqb_spec (length (g_labels s)) 0); [lia|]. split; reflexivity.
Qed.
Print Assumptions C46_gaussian_asserted_refuted.

(** The smoothed feature shares of a class are positive and sum to 1. *)
Theorem C46_smoothing : forall alpha nf X y l, 0 < alpha -> (0 < nf)%nat -> width nf X -> (forall r a, In r X -> In a r -> 0 <= a) ->
  (forall j, (j < nf)%nat -> 0 < smoothed_share alpha nf (rows_with l X y) j) /\ total (map (smoothed_share alpha nf (rows_with l X y)) (seq 0 nf)) = 1.
Proof.
  intros alpha nf X y l Ha Hnf HW Hpos. set (rs := rows_with l X y).
  assert (HC : forall j, (j < nf)%nat -> 0 <= total (col j rs)).
  { intros j Hj. apply total_nonneg. intros r Hr. pose proof (rows_with_In _ _ _ _ Hr) as Hr'. apply (Hpos r); [assumption|].
    apply nth_In. now rewrite (HW r Hr'). }
  assert (HT : 0 <= total (map (fun k => total (col k rs)) (seq 0 nf))) by (apply total_nonneg; intros j Hj; apply in_seq in Hj; apply HC; lia).
  assert (HN : 0 < INR nf) by (now apply lt_0_INR). assert (0 < alpha * INR nf) by now apply Rmult_lt_0_compat.
  split.
  - intros j Hj. unfold smoothed_share. specialize (HC j Hj). apply Rdiv_lt_0_compat; lra.
  - unfold smoothed_share. set (D := total (map (fun k => total (col k rs)) (seq 0 nf)) + alpha * INR nf).
    rewrite (total_ext _ (fun j => / D * (total (col j rs) + alpha))) by (intros; unfold Rdiv; ring). rewrite total_scal, total_plus, total_const, seq_length.
    assert (D <> 0) by (unfold D; lra). unfold D at 1. replace (INR nf * alpha) with (alpha * INR nf) by ring. fold D. field. assumption.
Qed.
Print Assumptions C46_smoothing.
Lemma nb_counts : forall r a, In r [[0; 1]; [2; 5]; [4; 4]] -> In a r -> 0 <= a.
Proof. intros r a [<-|[<-|[<-|[]]]] [<-|[<-|[]]]; lra. Qed.
Example C46_smoothing_case := C46_smoothing 1 2 [[0; 1]; [2; 5]; [4; 4]] [7; 8; 7] 7 ltac:(lra) ltac:(lia) (proj2 nb_shape) nb_counts.

(** Multinomial, assertions compiled out, data of counts: fit succeeds; predict_prob is prior times likelihood under
    the smoothed shares, normalised; predict gives the position of the first class of maximal posterior. *)
Theorem C46_multinomial : forall alpha nf X y Xn, 0 < alpha -> (2 <= nf)%nat -> shape (length y) nf X -> y <> [] -> (forall r a, In r X -> In a r -> 0 <= a) ->
  width nf Xn ->
  exists s, mnb_fit false nf mnb0 X y = Ok s /\
  let weights := fun x => map (fun l => freq Req_EM_T y l * multinomial_likelihood nf (smoothed_share alpha nf (rows_with l X y)) x) (nb_classes (m_labels s)) in
  mnb_predict_prob alpha s Xn = Ok (map (fun x => normalise (weights x)) Xn) /\
  (forall x, In x Xn -> total (normalise (weights x)) = 1 /\ forall p, In p (normalise (weights x)) -> 0 < p) /\
  exists ks, mnb_predict alpha s Xn = Ok (map INR ks) /\ Forall2 (fun x k => first_largest (weights x) k) Xn ks.
Proof.
  intros alpha nf X y Xn Ha Hnf (HX & HW) Hy Hpos HWn. rewrite mnb_fit_spec by assumption. eexists. split; [reflexivity|].
  intros weights. set (classes := nb_classes (count_labels [] y)). cbn [m_labels] in weights. fold classes in weights.
  set (fc := fun l => map (fun j => total (col j (rows_with l X y))) (seq 0 nf)). set (cc := fun l => total (fc l)).
  assert (HS : forall l j, (j < nf)%nat -> (nth j (fc l) 0 + alpha) / (cc l + alpha * INR nf) = smoothed_share alpha nf (rows_with l X y) j).
  { intros l j Hj. unfold smoothed_share, cc, fc. rewrite (nth_map _ _ _ 0%nat) by (now rewrite seq_length). now rewrite seq_nth. }
  assert (HT : forall l j, (j < nf)%nat -> 0 < smoothed_share alpha nf (rows_with l X y) j) by (intros l; apply C46_smoothing; auto; lia).
  assert (HF : forall l, In l classes -> 0 < freq Req_EM_T y l) by (intros l Hl; apply (proj2 (classes_labels y)) in Hl; now apply (freq_pos Req_EM_T y l)).
  assert (EW : forall x, weights x = map (fun l => freq Req_EM_T y l * multinomial_likelihood nf (fun j => (nth j (fc l) 0 + alpha) / (cc l + alpha * INR nf)) x) classes).
  { intros x. unfold weights. apply map_ext. intros l. f_equal. unfold multinomial_likelihood. f_equal. apply map_ext_in. intros j Hj. apply in_seq in Hj. now rewrite HS by lia. }
  assert (EJ := @mnb_jll_spec alpha nf classes (freq Req_EM_T y) fc cc (count_labels [] y) Xn).
  change (map (fun l => total (map (fun j => total (col j (rows_with l X y))) (seq 0 nf))) classes) with (map cc classes).
  change (map (fun l => map (fun j => total (col j (rows_with l X y))) (seq 0 nf)) classes) with (map fc classes).
  rewrite (map_ext _ _ (fun x => f_equal (map ln) (eq_sym (EW x)))) in EJ.
  unfold mnb_predict_prob, mnb_predict. rewrite EJ; [|unfold classes, nb_classes; now rewrite map_length| |assumption].
  2: { intros l Hl. split; [unfold fc; now rewrite map_length, seq_length|]. split; [|now apply HF]. intros j Hj. rewrite HS by assumption. now apply HT. }
  cbn [bind].
  assert (HP : forall x a, In a (weights x) -> 0 < a).
  { intros x a Hin. unfold weights in Hin. apply in_map_iff in Hin. destruct Hin as (l & <- & Hl). apply Rmult_lt_0_compat; [now apply HF|].
    apply ln_multinomial. apply HT. }
  pose proof (classes_ne Hy) as Hne. fold classes in Hne.
  assert (HN : forall x, weights x <> []). { intros x. unfold weights. destruct classes; [congruence|discriminate]. }
  assert (HNJ : forall r, In r (map (fun x => map ln (weights x)) Xn) -> r <> []).
  { intros r Hr. apply in_map_iff in Hr. destruct Hr as (x & <- & _). specialize (HN x). destruct (weights x); [congruence|discriminate]. }
  split; [|split].
  - rewrite prob_of_spec by assumption. f_equal. rewrite map_map. apply map_ext. intros x. rewrite <- (softmax_of_ln (weights x) 0) by apply HP.
    f_equal. apply map_ext. intros; ring.
  - intros x _. apply normalise_distribution; [apply HN|apply HP].
  - destruct (predict_of_spec _ HNJ) as (ks & Ek & HFk). exists ks. split; [exact Ek|]. clear - HFk HP. revert ks HFk.
    induction Xn as [|x Xn IH]; intros ks HF; inversion HF as [|? k ? ks' H1 H2]; subst; constructor; [|auto].
    replace (weights x) with (map exp (map ln (weights x))).
    { apply first_largest_mono; [|assumption]. intros a b _ _ Hab. now apply exp_increasing. }
    rewrite map_map. rewrite <- (map_id (weights x)) at 2. apply map_ext_in. intros a Hin. apply exp_ln. now apply HP with x.
Qed.
Print Assumptions C46_multinomial.
Example C46_multinomial_case := C46_multinomial 1 2 [[0; 1]; [2; 5]; [4; 4]] [7; 8; 7] [[1; 1]; [3; 3]] ltac:(lra) (le_n 2) nb_shape ltac:(discriminate) nb_counts
  ltac:(intros r [<-|[<-|[]]]; reflexivity).

(** With the assertions compiled in, the multinomial fit is undefined on every data set of two or more features. *)
Lemma mapM_UB {A B} (f : A -> outcome B) l : l <> [] -> (forall a, In a l -> f a = UB) -> mapM f l = UB.
Proof. destruct l as [|a l]; [congruence|]. intros _ H. simpl. now rewrite H by now left. Qed.
Theorem C46_multinomial_asserted_refuted : forall nf X y, (2 <= nf)%nat -> shape (length y) nf X -> y <> [] -> mnb_fit true nf mnb0 X y = UB.
Proof.
  intros nf X y Hnf (HX & HW) Hy. unfold mnb_fit. rewrite HX, Nat.eqb_refl. cbn [negb m_labels mnb0]. rewrite mapM_UB; [reflexivity|now apply classes_ne|].
  intros l Hl. unfold mnb_class. rewrite rows_of_label_spec by assumption. cbn [bind]. unfold sum. cbn [Z.eqb]. unfold only_row, vget. cbn [nth_error bind].
  destruct (Nat.eqb_spec nf 1); [lia|]. reflexivity.
Qed.
Print Assumptions C46_multinomial_asserted_refuted.

(** With a single feature neither classifier can be fitted: a column that does not exist is read. *)
Theorem C46_one_feature_refuted : forall X y, shape (length y) 1 X -> y <> [] ->
  (forall eps, gnb_fit eps 1 gnb0 X y = UB) /\ (forall asserts, mnb_fit asserts 1 mnb0 X y = UB).
Proof.
  intros X y (HX & HW) Hy. unfold gnb_fit, mnb_fit. rewrite HX, Nat.eqb_refl. cbn [negb m_labels mnb0 g_labels gnb0].
  assert (HU : forall l, In l (nb_classes (count_labels [] y)) -> rows_of_label 1 X y l = UB).
  { intros l Hl. apply rows_of_label_one; try assumption. now apply (proj2 (classes_labels y)). }
  split; intros; rewrite mapM_UB; try reflexivity; try (now apply classes_ne); intros l Hl; [unfold gnb_class|unfold mnb_class]; now rewrite HU.
Qed.
Print Assumptions C46_one_feature_refuted.
(** Data and labels of different lengths are rejected. *)
Theorem C46_lengths : forall nf X y, length X <> length y ->
  (forall eps s, gnb_fit eps nf s X y = Throw InvalidArgument) /\ (forall asserts s, mnb_fit asserts nf s X y = Throw InvalidArgument).
Proof. intros nf X y H. unfold gnb_fit, mnb_fit. apply Nat.eqb_neq in H. rewrite H. split; reflexivity. Qed.
Print Assumptions C46_lengths.
Example C46_lengths_case := C46_lengths 2 [[0; 1]; [2; 5]; [4; 4]] [7; 8] ltac:(discriminate).

Example C46_case : shape (length prior_y) 2 prior_X /\ (forall r a, In r prior_X -> In a r -> 0 <= a) /\ width 2 [[3; 1]] /\
  exists s, mnb_fit false 2 mnb0 prior_X prior_y = Ok s /\ nb_classes (m_labels s) = [0; 1] /\ m_class_count s = [2; 4].
Proof.
  split; [exact prior_shape|]. split.
  { intros r a Hr Ha. simpl in Hr. repeat (destruct Hr as [<- | Hr]; [simpl in Ha; destruct Ha as [<- | [<- | []]]; lra|]). destruct Hr. }
  split; [intros r [<- | []]; reflexivity|]. destruct prior_shape as (H1 & H2). rewrite (mnb_fit_spec _ (le_n 2) H2 H1). eexists. split; [reflexivity|].
  cbn [m_labels m_class_count]. rewrite prior_classes. split; [reflexivity|]. cbn [map]. destruct prior_rows as (-> & ->). simpl. f_equal; [|f_equal]; lra.
Qed.

(** * C47 *)
(** A second fit does not forget the first: the classes are those of both label vectors, and the priors are their
    counts in both divided by the number of samples of the second. *)
Theorem C47_naive_bayes_refit : forall y1 y2,
  let spec := fun cs ps => labels_of (y1 ++ y2) cs /\ StronglySorted Rlt cs /\
     ps = map (fun l => INR (count_occ Req_EM_T (y1 ++ y2) l) / INR (length y2)) cs /\
     (y2 <> [] -> total ps = INR (length y1 + length y2) / INR (length y2)) in
  (forall eps nf1 nf2 X1 X2 s1 s2, gnb_fit eps nf1 gnb0 X1 y1 = Ok s1 -> gnb_fit eps nf2 s1 X2 y2 = Ok s2 -> spec (nb_classes (g_labels s2)) (g_priors s2)) /\
  (forall asserts nf1 nf2 X1 X2 s1 s2, mnb_fit asserts nf1 mnb0 X1 y1 = Ok s1 -> mnb_fit asserts nf2 s1 X2 y2 = Ok s2 -> spec (nb_classes (m_labels s2)) (m_priors s2)).
Proof.
  intros y1 y2 spec. destruct (count_labels_spec (y1 ++ y2)) as (H1 & H2 & _).
  assert (G : spec (nb_classes (count_labels (count_labels [] y1) y2)) (nb_priors (count_labels (count_labels [] y1) y2) y2)).
  { rewrite count_labels_app. unfold spec. split; [assumption|]. split; [assumption|]. rewrite nb_priors_spec. split; [reflexivity|]. intros Hy.
    rewrite (total_ext _ (fun l => / INR (length y2) * INR (count_occ Req_EM_T (y1 ++ y2) l))) by (intros; unfold Rdiv; ring).
    rewrite total_scal, total_counts by assumption. rewrite app_length. unfold Rdiv. ring. }
  split.
  - intros eps nf1 nf2 X1 X2 s1 s2 E1 E2. unfold gnb_fit in E1, E2. cbn [gnb0 g_labels] in E1.
    destruct (negb _) in E1; [discriminate|]. destruct (mapM _ _) in E1; cbn [bind] in E1; try discriminate. destruct (max_coeff _) in E1; cbn [bind] in E1; try discriminate.
    injection E1 as <-. cbn [g_labels] in E2.
    destruct (negb _) in E2; [discriminate|]. destruct (mapM _ _) in E2; cbn [bind] in E2; try discriminate. destruct (max_coeff _) in E2; cbn [bind] in E2; try discriminate.
    injection E2 as <-. exact G.
  - intros asserts nf1 nf2 X1 X2 s1 s2 E1 E2. unfold mnb_fit in E1, E2. cbn [mnb0 m_labels] in E1.
    destruct (negb _) in E1; [discriminate|]. destruct (mapM _ _) in E1; cbn [bind] in E1; try discriminate.
    injection E1 as <-. cbn [m_labels] in E2.
    destruct (negb _) in E2; [discriminate|]. destruct (mapM _ _) in E2; cbn [bind] in E2; try discriminate.
    injection E2 as <-. exact G.
Qed.
Print Assumptions C47_naive_bayes_refit.
(** In particular the priors after a second fit are never those of a fit of the same data on a fresh object. *)
Theorem C47_naive_bayes_refit_refuted : forall y1 y2, y1 <> [] -> y2 <> [] ->
  (forall eps nf1 nf2 X1 X2 s1 s2 s, gnb_fit eps nf1 gnb0 X1 y1 = Ok s1 -> gnb_fit eps nf2 s1 X2 y2 = Ok s2 -> gnb_fit eps nf2 gnb0 X2 y2 = Ok s ->
     g_priors s2 <> g_priors s) /\
  (forall asserts nf1 nf2 X1 X2 s1 s2 s, mnb_fit asserts nf1 mnb0 X1 y1 = Ok s1 -> mnb_fit asserts nf2 s1 X2 y2 = Ok s2 -> mnb_fit asserts nf2 mnb0 X2 y2 = Ok s ->
     m_priors s2 <> m_priors s).
Proof.
  intros y1 y2 H1 H2. destruct (C47_naive_bayes_refit y1 y2) as (G & M). destruct (C46_priors y2 H2) as (PG & PM).
  pose proof (INR_pos H1) as P1. pose proof (INR_pos H2) as P2.
  assert (HN : INR (length y1 + length y2) / INR (length y2) <> 1).
  { rewrite plus_INR. intros E. apply (f_equal (fun a => a * INR (length y2))) in E. replace ((INR (length y1) + INR (length y2)) / INR (length y2) * INR (length y2)) with (INR (length y1) + INR (length y2)) in E by (field; lra). lra. }
  split.
  - intros eps nf1 nf2 X1 X2 s1 s2 s E1 E2 E E'. destruct (G _ _ _ _ _ _ _ E1 E2) as (_ & _ & _ & T). specialize (T H2). destruct (PG _ _ _ _ E) as (_ & _ & _ & _ & T'). rewrite E' in T. congruence.
  - intros asserts nf1 nf2 X1 X2 s1 s2 s E1 E2 E E'. destruct (M _ _ _ _ _ _ _ E1 E2) as (_ & _ & _ & T). specialize (T H2). destruct (PM _ _ _ _ E) as (_ & _ & _ & _ & T'). rewrite E' in T. congruence.
Qed.
Print Assumptions C47_naive_bayes_refit_refuted.

(** predict returns positions in the list of classes, as numbers. *)
Lemma mapM_In {A B} (f : A -> outcome B) l bs b : mapM f l = Ok bs -> In b bs -> exists a, In a l /\ f a = Ok b.
Proof. intros H. apply mapM_inv in H. induction H as [|a b' l bs H1 H2 IH]; simpl; [tauto|]. intros [<- | Hb]; [eauto|]. destruct (IH Hb) as (a' & ? & ?). eauto. Qed.
Lemma mapM_length {A B} (f : A -> outcome B) l bs : mapM f l = Ok bs -> length bs = length l.
Proof. intros H. apply mapM_inv in H. induction H; simpl; auto. Qed.
Lemma arg_best_lt l k : arg_best (fun a b => Rltb b a) l = Ok k -> (k < length l)%nat.
Proof. intros H. destruct l as [|a l]; [discriminate|]. destruct (@arg_bestR (a :: l)) as (k' & E & Hk & _); [discriminate|]. rewrite H in E. injection E as ->. assumption. Qed.
Theorem C47_naive_bayes_index : forall n,
  (forall asserts s X ys v, length (g_mean s) = n -> gnb_predict asserts s X = Ok ys -> In v ys -> exists k, (k < n)%nat /\ v = INR k) /\
  (forall alpha s X ys v, length (m_labels s) = n -> mnb_predict alpha s X = Ok ys -> In v ys -> exists k, (k < n)%nat /\ v = INR k).
Proof.
  intros n. assert (G : forall jll ys v, (forall r, In r jll -> (length r <= n)%nat) -> predict_of jll = Ok ys -> In v ys -> exists k, (k < n)%nat /\ v = INR k).
  { intros jll ys v Hj E Hv. unfold predict_of in E. destruct (argmax_rows jll) as [ks| | |] eqn:Ek; cbn [bind] in E; try discriminate. injection E as <-.
    apply in_map_iff in Hv. destruct Hv as (k & <- & Hk). exists k. split; [|reflexivity]. destruct (mapM_In _ _ _ _ Ek Hk) as (r & Hr & Er).
    apply arg_best_lt in Er. specialize (Hj r Hr). lia. }
  split.
  - intros asserts s X ys v Hn E Hv. unfold gnb_predict in E. destruct (gnb_jll asserts s X) as [jll| | |] eqn:Ej; cbn [bind] in E; try discriminate.
    apply (G jll ys v); try assumption. intros r Hr. unfold gnb_jll in Ej. destruct (_ && _ && _); [discriminate|]. destruct (mapM_In _ _ _ _ Ej Hr) as (x & _ & Ex).
    apply mapM_length in Ex. rewrite Ex, combine_length. lia.
  - intros alpha s X ys v Hn E Hv. unfold mnb_predict in E. destruct (mnb_jll alpha s X) as [jll| | |] eqn:Ej; cbn [bind] in E; try discriminate.
    apply (G jll ys v); try assumption. intros r Hr. unfold mnb_jll in Ej. destruct (mapM_In _ _ _ _ Ej Hr) as (x & _ & Ex).
    apply mapM_length in Ex. rewrite Ex, seq_length. lia.
Qed.
Print Assumptions C47_naive_bayes_index.
(** So with labels that are not 0, 1, 2, ... a prediction is never one of the training labels, *)
Theorem C47_naive_bayes_labels_refuted : forall y, y <> [] -> (forall l k, In l y -> l <> INR k) ->
  (forall asserts eps nf X s Xn ys v, gnb_fit eps nf gnb0 X y = Ok s -> gnb_predict asserts s Xn = Ok ys -> In v ys -> ~ In v y) /\
  (forall asserts alpha nf X s Xn ys v, mnb_fit asserts nf mnb0 X y = Ok s -> mnb_predict alpha s Xn = Ok ys -> In v ys -> ~ In v y).
Proof.
  intros y Hy H. split.
  - intros asserts eps nf X s Xn ys v E Ep Hv Hin. destruct (proj1 (C47_naive_bayes_index _) asserts s Xn ys v eq_refl Ep Hv) as (k & _ & ->). now apply (H _ k Hin).
  - intros asserts alpha nf X s Xn ys v E Ep Hv Hin. destruct (proj2 (C47_naive_bayes_index _) alpha s Xn ys v eq_refl Ep Hv) as (k & _ & ->). now apply (H _ k Hin).
Qed.
Print Assumptions C47_naive_bayes_labels_refuted.
(** while it is one when the labels are 0, 1, ..., K-1. *)
Theorem C47_naive_bayes_labels : forall y K, labels_of y (map INR (seq 0 K)) ->
  (forall asserts alpha nf X s Xn ys v, mnb_fit asserts nf mnb0 X y = Ok s -> mnb_predict alpha s Xn = Ok ys -> In v ys -> In v y) /\
  (forall asserts eps nf X s Xn ys v, gnb_fit eps nf gnb0 X y = Ok s -> gnb_predict asserts s Xn = Ok ys -> In v ys -> In v y).
Proof.
  intros y K (ND & HK). destruct (count_labels_spec y) as ((ND' & HL) & _).
  assert (HN : length (nb_classes (count_labels [] y)) = K).
  { rewrite <- (map_length INR (seq 0 K)) || idtac. transitivity (length (map INR (seq 0 K))); [|now rewrite map_length, seq_length].
    apply Permutation_length. apply NoDup_Permutation; try assumption. intros l. now rewrite HK, HL. }
  assert (G : forall k, (k < K)%nat -> In (INR k) y) by (intros k Hk; apply HK; apply in_map; apply in_seq; lia).
  split.
  - intros asserts alpha nf X s Xn ys v E Ep Hv. unfold mnb_fit in E. destruct (negb _); [discriminate|]. destruct (mapM _ _); cbn [bind] in E; try discriminate. injection E as <-.
    destruct (proj2 (C47_naive_bayes_index _) alpha _ Xn ys v eq_refl Ep Hv) as (k & Hk & ->). apply G. cbn [m_labels mnb0] in Hk. unfold nb_classes in HN. rewrite map_length in HN. lia.
  - intros asserts eps nf X s Xn ys v E Ep Hv. unfold gnb_fit in E. destruct (negb _); [discriminate|]. destruct (mapM _ _) as [cs| | |] eqn:Ec; cbn [bind] in E; try discriminate.
    destruct (max_coeff _); cbn [bind] in E; try discriminate. injection E as <-.
    destruct (proj1 (C47_naive_bayes_index _) asserts _ Xn ys v eq_refl Ep Hv) as (k & Hk & ->). apply G. cbn [g_mean] in Hk. rewrite map_length in Hk.
    apply mapM_length in Ec. cbn [g_labels gnb0] in Ec. lia.
Qed.
Print Assumptions C47_naive_bayes_labels.
(** The labels 0 and 1: every prediction is one of them. *)
Example C47_naive_bayes_labels_case : exists s ks, mnb_fit false 2 mnb0 [[0; 1]; [2; 5]; [4; 4]] [0; 1; 0] = Ok s /\
  mnb_predict 1 s [[1; 1]; [3; 3]] = Ok (map INR ks) /\ (forall k, In k ks -> In (INR k) [0; 1; 0]) /\ forall k, In k ks -> exists i, (i < length (m_labels s))%nat /\ INR k = INR i.
Proof.
  assert (HS : shape (length [0; 1; 0]) 2 [[0; 1]; [2; 5]; [4; 4]]) by exact nb_shape.
  destruct (C46_multinomial 1 2 [[0; 1]; [2; 5]; [4; 4]] [0; 1; 0] [[1; 1]; [3; 3]] ltac:(lra) (le_n 2) HS ltac:(discriminate) nb_counts
    ltac:(intros r [<-|[<-|[]]]; reflexivity)) as (s & E & _ & _ & ks & K & _).
  assert (L : labels_of [0; 1; 0] (map INR (seq 0 2))).
  { split; [cbn; repeat constructor; cbn; lra|]. intros l. cbn. tauto. }
  exists s, ks. split; [exact E|]. split; [exact K|]. split.
  - intros k Hk. exact (proj1 (C47_naive_bayes_labels [0; 1; 0] 2 L) _ _ _ _ _ _ _ _ E K (in_map INR _ _ Hk)).
  - intros k Hk. exact (proj2 (C47_naive_bayes_index _) _ _ _ _ _ eq_refl K (in_map INR _ _ Hk)).
Qed.

(** The decision-tree classifier: after a second fit the labels are those of both label vectors, and the value of a
    node still has a count for each, 0 for those that only the first fit saw. *)
Theorem C47_tree_refit : forall c P nf1 nf X1 y1 X y l1 t1 labels t, matrix nf1 X1 -> length y1 = length X1 -> matrix nf X -> length y = length X ->
  classifier_fit c P nf1 [] X1 y1 = Ok (l1, t1) -> classifier_fit c P nf l1 X y = Ok (labels, t) ->
  labels_of (y1 ++ y) (map fst labels) /\ StronglySorted Rlt (map fst labels) /\
  forall p i l r, node_at t p = Node i l r ->
    let ys := map snd (rows_at Rltb t p (combine X y)) in
    fst (n_value i) = map (fun k => count_occ Req_EM_T ys k) (map fst labels) /\ first_max (fst (n_value i)) (snd (n_value i)).
Proof.
  intros c P nf1 nf X1 y1 X y l1 t1 labels t HM1 HL1 HM HL E1 E. unfold classifier_fit in E1. rewrite fit_labels_spec in E1 by assumption. cbn [bind] in E1.
  destruct (grow _ _ _ _ _ _ _ _ _ _) in E1; cbn [bind] in E1; try discriminate. injection E1 as <- _.
  unfold classifier_fit, fit_labels in E. rewrite <- HL in E. rewrite (mapM_vget 0) in E. cbn [bind] in E. rewrite <- fold_left_app in E.
  change (fold_left (count_label Rltb) (y1 ++ y) []) with (count_labels [] (y1 ++ y)) in E.
  destruct (grow _ _ _ _ _ _ _ _ _ _) as [t'| | |] eqn:Eg; cbn [bind] in E; try discriminate. injection E as <- <-.
  destruct (count_labels_spec (y1 ++ y)) as (S1 & S2 & _). split; [assumption|]. split; [assumption|].
  intros p i l r Hp. destruct (C24_structure _ _ _ _ _ _ _ _ _ _ _ _ _ _ Rltb_order Rgtb_order HM HL Eg) as (_ & H). specialize (H p i l r Hp).
  cbn zeta in H. destruct H as (_ & H1 & stop & H2 & _). cbn zeta.
  set (labels := count_labels [] (y1 ++ y)) in *. assert (Hne : labels <> []) by (intros Hn; rewrite Hn in H2; discriminate).
  destruct (class_value_spec (map snd (rows_at Rltb t' p (combine X y))) Hne) as (k & Ek & Hk). rewrite Ek in H2. injection H2 as H2 _. rewrite <- H2. auto.
Qed.
Print Assumptions C47_tree_refit.
(** Its predictions are positions in that list too: always smaller than the number of labels. *)
Theorem C47_tree_index : forall c P nf X y labels t Xn ks k, matrix nf X -> length y = length X ->
  classifier_fit c P nf [] X y = Ok (labels, t) -> predict_class Rltb t Xn = Ok ks -> In k ks -> (k < length labels)%nat.
Proof.
  intros c P nf X y labels t Xn ks k HM HL E Ep Hk. destruct (C24_classifier _ _ _ _ _ _ _ HM HL E) as (_ & _ & HC).
  unfold predict_class in Ep. destruct (predict_prob Rltb t Xn) as [ps| | |] eqn:Eq; cbn [bind] in Ep; try discriminate.
  destruct (mapM_In _ _ _ _ Ep Hk) as (pr & Hpr & Ek). unfold predict_prob in Eq. destruct (mapM_In _ _ _ _ Eq Hpr) as (x & _ & Ex).
  destruct (walk Rltb t x) as [i| | |] eqn:Ew; cbn [bind] in Ex; try discriminate. injection Ex as <-.
  destruct (walk_sound Rltb t x Ew) as (p & r & Hp & _). destruct (HC p i Null r Hp) as (_ & Hv & _).
  assert (HLn : length (probabilities (fst (n_value i))) = length labels) by (unfold probabilities; rewrite map_length, Hv, !map_length; reflexivity).
  rewrite <- HLn. clear - Ek. destruct (probabilities _) as [|a l]; [discriminate|]. simpl in Ek. injection Ek as <-.
  assert (G : forall l i bi b n, (bi < n)%nat -> (i + length l <= n)%nat -> (scan_best prob_gtb l i bi b < n)%nat).
  { clear. induction l as [|x l IH]; intros i bi b n H1 H2; simpl in *; [assumption|]. destruct (prob_gtb x b); apply IH; lia. }
  apply G; simpl; lia.
Qed.
Print Assumptions C47_tree_index.
(** A later fit is defined whatever labels the earlier ones left. *)
Theorem C47_tree_refit_defined : forall c P nf labels X y, matrix nf X -> length y = length X -> X <> [] ->
    c <> OtherCriterion -> (3 <= min_samples_split P)%nat -> exists labels' t, classifier_fit c P nf labels X y = Ok (labels', t).
Proof.
  intros c P nf labels X y HM Hl Hne Hc Hs. unfold classifier_fit, fit_labels. rewrite <- Hl, (mapM_vget 0). cbn [bind].
  set (lab := fold_left (count_label Rltb) y labels).
  assert (Hlab : lab <> []).
  { assert (G : forall ys m, m <> [] -> fold_left (count_label Rltb) ys m <> []).
    { induction ys as [|b ys IH]; intros m Hm; [exact Hm|]. apply IH. unfold count_label. destruct m as [|(k & n) m]; [congruence|]. cbn. destruct (cmp_of Rltb b k); discriminate. }
    unfold lab. destruct y as [|a y]; [destruct X; [congruence|discriminate]|]. cbn [fold_left]. apply G. unfold count_label.
    destruct labels as [|(k & n) m]; cbn; [discriminate|]. destruct (cmp_of Rltb a k); discriminate. }
  destruct (build_defined (mid := Rmid) Rltb_order Rgtb_order (imin := dbl_min) (gain := class_gain Rltb c) (class_value Rltb lab)
             P (fun _ => True) (nf := nf) (S (S (max_depth P)))) with (depth := 0%nat) (D := combine X y) as (t & Et);
    [..|trivial|lia|lia|].
  - intros D _. destruct (class_value_spec (map snd D) Hlab) as (k & -> & _). eauto.
  - intros D f t _ _ _. apply class_gain_defined. assumption.
  - auto.
  - assumption.
  - now rewrite combine_fst.
  - rewrite combine_fst, combine_snd in Et by assumption. unfold grow. rewrite Et. cbn [bind]. eauto.
Qed.
Print Assumptions C47_tree_refit_defined.
(** Fitting [5;5;6], predicting, and fitting the same object to [8;5;6]. *)
Example C47_tree_index_case : exists labels t ks, classifier_fit Gini (Params 3 0 4 0%R) 1 [] [[0];[1];[2]] [5;5;6] = Ok (labels, t) /\
  predict_class Rltb t [[0];[1];[2]] = Ok ks /\ (forall k, In k ks -> (k < length labels)%nat) /\
  exists labels' t', classifier_fit Gini (Params 3 0 4 0%R) 1 labels [[0];[1];[2]] [8;5;6] = Ok (labels', t') /\ labels_of ([5;5;6] ++ [8;5;6]) (map fst labels').
Proof.
  destruct C24_classifier_defined_case as (labels & t & E). destruct (Properties_TreeFit.C60_classifier _ _ _ _ _ _ _ three_rows three_len E eq_refl) as (ks & K & _).
  exists labels, t, ks. split; [exact E|]. split; [exact K|]. split.
  - intros k Hk. exact (C47_tree_index _ _ _ _ _ _ _ _ _ _ three_rows three_len E K Hk).
  - destruct (C47_tree_refit_defined Gini (Params 3 0 4 0%R) 1 labels [[0];[1];[2]] [8;5;6] three_rows eq_refl ltac:(discriminate) ltac:(discriminate) ltac:(cbn; lia)) as (l' & t' & E').
    exists l', t'. split; [exact E'|].
    exact (proj1 (C47_tree_refit _ _ _ _ _ _ _ _ _ _ _ _ three_rows three_len three_rows (eq_refl : length [8;5;6] = length [[0];[1];[2]]) E E')).
Qed.

Example C47_case : exists s1 s2, mnb_fit false 2 mnb0 prior_X prior_y = Ok s1 /\ mnb_fit false 2 s1 prior_X prior_y = Ok s2 /\ total (m_priors s2) = 2.
Proof.
  destruct prior_shape as (H1 & H2). assert (E1 := mnb_fit_spec _ (le_n 2) H2 H1).
  match type of E1 with _ = Ok ?s => set (s1 := s) in E1 end.
  assert (E2 : exists s2, mnb_fit false 2 s1 prior_X prior_y = Ok s2).
  { unfold mnb_fit. rewrite H1, Nat.eqb_refl. cbn [negb]. erewrite mapM_Ok; [cbn [bind]; eauto|]. intros l Hl. apply mnb_class_spec; [lia|assumption]. }
  destruct E2 as (s2 & E2). exists s1, s2. split; [exact E1|]. split; [exact E2|].
  destruct (C47_naive_bayes_refit prior_y prior_y) as (_ & H). destruct (H _ _ _ _ _ _ _ E1 E2) as (_ & _ & _ & T). rewrite T by discriminate. simpl. lra.
Qed.
