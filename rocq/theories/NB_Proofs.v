From Coq Require Import Reals Lra.
From Verif Require Import Base Common_Model CommonMisc_Proofs KDReal_Proofs Tree_Model Tree_Spec Tree_Proofs TreeReal_Proofs Impurity_Model Impurity_Spec Impurity_Proofs
  Vec MathFun_Model Loss_Spec Loss_Proofs LossSoftmax_Proofs Stats_Model Stats_Spec Stats_Proofs MathFun_Proofs NB_Model NB_Spec.
Local Open Scope R_scope.
Set Implicit Arguments.

(** * Largest of real numbers *)
Lemma scan_bestR l : forall pre bi b, (bi < length pre)%nat -> nth bi pre 0 = b ->
  (forall j, (j < length pre)%nat -> nth j pre 0 <= b) -> (forall j, (j < bi)%nat -> nth j pre 0 < b) ->
  first_largest (pre ++ l) (scan_best (fun a b => Rltb b a) l (length pre) bi b).
Proof.
  induction l as [|x l IH]; intros pre bi b Hbi Hb H1 H2; cbn [scan_best].
  - rewrite app_nil_r. subst b. split; [assumption|split; assumption].
  - replace (pre ++ x :: l) with ((pre ++ [x]) ++ l) by (rewrite <- app_assoc; reflexivity).
    replace (S (length pre)) with (length (pre ++ [x])) by (rewrite app_length; simpl; lia).
    assert (N : nth (length pre) (pre ++ [x]) 0 = x) by (rewrite app_nth2, Nat.sub_diag by lia; reflexivity).
    destruct (Rltb b x) eqn:E; [apply Rltb_true in E|apply Rltb_false in E]; apply IH; rewrite ?app_length; simpl; try lia; try assumption.
    + intros j Hj. destruct (Nat.eq_dec j (length pre)) as [->|]; [rewrite N; lra|]. rewrite app_nth1 by lia. specialize (H1 j). lra || (assert (j < length pre)%nat by lia; specialize (H1 H); lra).
    + intros j Hj. rewrite app_nth1 by lia. specialize (H1 j Hj). lra.
    + now rewrite app_nth1.
    + intros j Hj. destruct (Nat.eq_dec j (length pre)) as [->|]; [rewrite N; lra|]. rewrite app_nth1 by lia. apply H1. lia.
    + intros j Hj. rewrite app_nth1 by lia. apply H2. lia.
Qed.
Lemma arg_bestR l : l <> [] -> exists k, arg_best (fun a b => Rltb b a) l = Ok k /\ first_largest l k.
Proof.
  destruct l as [|x l]; [congruence|]. intros _. eexists. split; [reflexivity|].
  apply (@scan_bestR l [x] 0%nat x); simpl; try lia; try reflexivity; intros [|j] Hj; try lia; lra.
Qed.
Lemma first_largest_unique w i j : first_largest w i -> first_largest w j -> i = j.
Proof.
  intros (A1 & A2 & A3) (B1 & B2 & B3). destruct (Nat.lt_trichotomy i j) as [H|[H|H]]; auto.
  - specialize (B3 i H). specialize (A2 j B1). lra.
  - specialize (A3 j H). specialize (B2 i A1). lra.
Qed.
Lemma first_largest_mono (f : R -> R) w k : (forall a b, In a w -> In b w -> a < b -> f a < f b) -> first_largest w k -> first_largest (map f w) k.
Proof.
  intros Hf (H1 & H2 & H3). assert (N : forall j, (j < length w)%nat -> nth j (map f w) 0 = f (nth j w 0)).
  { intros j Hj. rewrite (nth_indep _ 0 (f 0)) by (now rewrite map_length). apply map_nth. }
  split; [now rewrite map_length|]. rewrite map_length. split; intros j Hj.
  - rewrite !N by assumption. destruct (H2 j Hj) as [H| ->]; [left; apply Hf; auto using nth_In|lra].
  - rewrite !N by lia. apply Hf; [apply nth_In; lia|apply nth_In; lia|auto].
Qed.

(** * Labels and priors *)
Lemma om_sorted_Rlt (m : list (R * nat)) : om_sorted (cmp_of Rltb) m -> StronglySorted Rlt (map fst m).
Proof.
  induction 1 as [|e m Hs IH Hall]; simpl; constructor; [assumption|]. rewrite Forall_forall in Hall |- *. intros k Hk.
  apply in_map_iff in Hk. destruct Hk as (e' & <- & He'). specialize (Hall e' He'). unfold cmp_of in Hall.
  destruct (Rltb (fst e) (fst e')) eqn:E; [now apply Rltb_true in E|]. destruct (Rltb (fst e') (fst e)); discriminate.
Qed.
Lemma count_labels_spec y : let m := count_labels [] y in
  labels_of y (map fst m) /\ StronglySorted Rlt (map fst m) /\ m = map (fun l => (l, rcount y l)) (map fst m).
Proof.
  cbv zeta. destruct (counts_nil Rltb_order Req_EM_T y) as (H1 & H2 & H3 & _). fold (count_labels [] y) in *.
  split; [assumption|]. split; [now apply om_sorted_Rlt|]. rewrite map_map. rewrite <- (map_id (count_labels [] y)) at 1.
  apply map_ext_in. intros (k, c) H. simpl. now rewrite (H3 k c H).
Qed.
Lemma count_labels_app y1 y2 : count_labels (count_labels [] y1) y2 = count_labels [] (y1 ++ y2).
Proof. unfold count_labels. now rewrite fold_left_app. Qed.
Lemma nb_priors_spec y y' : nb_priors (count_labels [] y) y' = map (fun l => INR (rcount y l) / INR (length y')) (nb_classes (count_labels [] y)).
Proof.
  destruct (count_labels_spec y) as (_ & _ & E). unfold nb_priors, nb_classes. rewrite E at 1. rewrite map_map. reflexivity.
Qed.
Lemma total_counts y ls : labels_of y ls -> total (map (fun l => INR (rcount y l)) ls) = INR (length y).
Proof.
  intros (ND & H). apply (count_total Req_EM_T); [assumption|]. intros; now apply H.
Qed.
Lemma labels_ne (y ls : list R) : labels_of y ls -> y <> [] -> ls <> [].
Proof. intros (_ & H) Hy ->. destruct y as [|a y]; [congruence|]. apply (H a). now left. Qed.

(** * Rows of a class *)
Lemma rows_with_In l : forall X y x, In x (rows_with l X y) -> In x X.
Proof. induction X as [|r X IH]; intros [|a y] x; simpl; try tauto. destruct (Req_EM_T a l); simpl; intros; intuition eauto. Qed.
Lemma rows_with_ne l : forall X y, length X = length y -> In l y -> rows_with l X y <> [].
Proof.
  induction X as [|r X IH]; intros [|a y] HL Hin; simpl in *; try tauto; try discriminate. destruct (Req_EM_T a l); [discriminate|].
  destruct Hin as [|Hin]; [congruence|]. apply IH; auto.
Qed.
Lemma rows_with_absent l : forall X y, ~ In l y -> rows_with l X y = [].
Proof.
  induction X as [|r X IH]; intros [|a y] Hin; simpl in *; try reflexivity. destruct (Req_EM_T a l) as [E|E]; [exfalso; tauto|]. apply IH. tauto.
Qed.
Lemma filter_rows l : forall X y, map fst (filter (fun e => Reqb (snd e) l) (combine X y)) = rows_with l X y.
Proof.
  induction X as [|r X IH]; intros [|a y]; simpl; try reflexivity. unfold Reqb at 1. destruct (Req_EM_T a l); simpl; now rewrite IH.
Qed.
Lemma rows_of_label_spec nf X y l : (2 <= nf)%nat -> width nf X -> rows_of_label nf X y l = Ok (rows_with l X y).
Proof.
  intros Hnf HW. unfold rows_of_label. rewrite lin_spaced_big by lia. rewrite <- filter_rows. apply mapM_Ok. intros (x, a) Hin. simpl.
  apply filter_In in Hin. destruct Hin as (Hin & _). apply in_combine_l in Hin. pose proof (HW x Hin) as HL.
  rewrite (mapM_Ok _ (fun i => nth i (x ++ [a]) 0)).
  - cbn [bind]. f_equal. replace (nf + 1)%nat with (length (x ++ [a])) by (rewrite app_length; simpl; lia).
    rewrite <- list_as_nths. rewrite <- HL. rewrite firstn_app, firstn_all, Nat.sub_diag. simpl. apply app_nil_r.
  - intros i Hi. apply in_seq in Hi. apply vget_Ok. rewrite app_length. simpl. lia.
Qed.
Lemma rows_of_label_one X y l : width 1 X -> length X = length y -> In l y -> rows_of_label 1 X y l = UB.
Proof.
  intros HW HL Hin. unfold rows_of_label. pose proof (rows_with_ne l X y HL Hin) as HN. rewrite <- filter_rows in HN.
  destruct (filter _ _) as [|(x, a) l'] eqn:E; [simpl in HN; congruence|]. simpl.
  assert (In (x, a) (filter (fun e => Reqb (snd e) l) (combine X y))) as H by (rewrite E; now left).
  apply filter_In in H. destruct H as (H & _). apply in_combine_l in H. apply HW in H. destruct x as [|x [|]]; try discriminate. reflexivity.
Qed.

(** * Normalising joint log likelihoods *)
Lemma exp_minus_lse r : r <> [] -> map exp (map (fun a => a - lse_of r) r) = softmax_of r.
Proof.
  intros H. unfold softmax_of. rewrite map_map. apply map_ext. intros a. pose proof (total_exp_pos H) as HP.
  unfold Rminus. rewrite exp_plus, exp_Ropp. unfold lse_of. rewrite exp_ln by assumption. reflexivity.
Qed.
Lemma log_prob_of_spec K jll : (forall r, In r jll -> r <> []) -> log_prob_of K jll = Ok (map (fun r => map (fun a => a - lse_of r) r) jll).
Proof.
  intros H. unfold log_prob_of, logsumexp. cbn [Z.eqb Pos.eqb]. destruct (max_coeff_rows jll H) as (c & -> & Hc). cbn [bind].
  rewrite lse_rows by assumption. f_equal. rewrite map2_map_r. clear. induction jll as [|r jll IH]; simpl; [reflexivity|]. now rewrite IH.
Qed.
Lemma prob_of_spec K jll : (forall r, In r jll -> r <> []) -> prob_of K jll = Ok (map softmax_of jll).
Proof.
  intros H. unfold prob_of. rewrite log_prob_of_spec by assumption. cbn [bind]. f_equal. rewrite map_map. apply map_ext_in.
  intros r Hr. apply exp_minus_lse. auto.
Qed.
Lemma softmax_of_ln w c : (forall a, In a w -> 0 < a) -> softmax_of (map (fun a => ln a + c) w) = normalise w.
Proof.
  intros H. unfold softmax_of, normalise. rewrite !map_map. apply map_ext_in. intros a Ha.
  rewrite (total_ext (fun x => exp (ln x + c)) (fun x => exp c * x)).
  2: { intros x Hx. rewrite exp_plus, exp_ln by auto. ring. }
  rewrite exp_plus, exp_ln by auto. rewrite (total_scal (exp c) (fun x => x)), map_id. pose proof (exp_pos c).
  assert (HT : 0 < total w).
  { destruct w as [|b w]; [destruct Ha|]. simpl. pose proof (H b (or_introl eq_refl)).
    assert (0 <= total w) by (rewrite <- (map_id w); apply total_nonneg; intros x Hx; left; apply H; now right). lra. }
  field. split; lra.
Qed.
Lemma normalise_distribution w : w <> [] -> (forall a, In a w -> 0 < a) -> total (normalise w) = 1 /\ forall a, In a (normalise w) -> 0 < a.
Proof.
  intros Hw H. assert (HT : 0 < total w).
  { destruct w as [|b w]; [congruence|]. simpl. pose proof (H b (or_introl eq_refl)).
    assert (0 <= total w) by (rewrite <- (map_id w); apply total_nonneg; intros x Hx; left; apply H; now right). lra. }
  unfold normalise. split.
  - rewrite (total_ext _ (fun a => / total w * a)) by (intros; field; lra). rewrite (total_scal _ (fun x => x)), map_id. field. lra.
  - intros a Ha. apply in_map_iff in Ha. destruct Ha as (b & <- & Hb). apply Rdiv_lt_0_compat; auto.
Qed.
Lemma softmax_normalise r : softmax_of r = normalise (map exp r).
Proof. unfold softmax_of, normalise. now rewrite map_map. Qed.
Lemma predict_of_spec jll : (forall r, In r jll -> r <> []) -> exists ks, predict_of jll = Ok (map INR ks) /\ Forall2 first_largest jll ks.
Proof.
  intros H. unfold predict_of, argmax_rows. assert (G : exists ks, mapM (arg_best (fun a b => Rltb b a)) jll = Ok ks /\ Forall2 first_largest jll ks).
  { induction jll as [|r jll IH]; [exists []; split; [reflexivity|constructor]|]. destruct (@arg_bestR r) as (k & E & Hk); [apply H; now left|].
    destruct IH as (ks & E2 & Hks); [intros; apply H; now right|]. exists (k :: ks). simpl. rewrite E, E2. split; [reflexivity|now constructor]. }
  destruct G as (ks & -> & G). exists ks. split; [reflexivity|assumption].
Qed.

(** * Gaussian: fit *)
Lemma fold_rmax_spec l : forall a, (fold_left Rmax l a = a \/ In (fold_left Rmax l a) l) /\ a <= fold_left Rmax l a /\ forall b, In b l -> b <= fold_left Rmax l a.
Proof.
  induction l as [|c l IH]; intros a; simpl; [repeat split; [now left|lra|tauto]|]. destruct (IH (Rmax a c)) as (H1 & H2 & H3).
  pose proof (Rmax_l a c). pose proof (Rmax_r a c). split; [|split; [lra|]].
  - destruct H1 as [-> | H1]; [|now right; right]. unfold Rmax. destruct (Rle_dec a c); [right; now left|now left].
  - intros b [<- | Hb]; [lra|auto].
Qed.
Lemma max_coeff_spec v : v <> [] -> exists m, max_coeff v = Ok m /\ In m v /\ forall a, In a v -> a <= m.
Proof.
  destruct v as [|a v]; [congruence|]. intros _. eexists. split; [reflexivity|]. destruct (fold_rmax_spec v a) as (H1 & H2 & H3). split.
  - destruct H1 as [-> | H1]; [now left|now right].
  - intros b [<- | Hb]; auto.
Qed.
Lemma width_rows nf X y l : width nf X -> width nf (rows_with l X y).
Proof. intros H r Hr. apply H. eapply rows_with_In; eauto. Qed.
Lemma cols_of_length nc x : length (cols_of nc x) = nc.
Proof. unfold cols_of. now rewrite map_length, seq_length. Qed.

Section Fit.
  Variables (nf : nat) (X : list (list R)) (y : list R).
  Hypothesis Hnf : (2 <= nf)%nat.
  Hypothesis HW : width nf X.
  Hypothesis HL : length X = length y.
  Hypothesis Hy : y <> [].
  Let classes := nb_classes (count_labels [] y).

  Lemma classes_labels : labels_of y classes.
  Proof. apply (count_labels_spec y). Qed.
  Lemma classes_ne : classes <> [].
  Proof. eapply labels_ne; [apply classes_labels|assumption]. Qed.
  Definition means_of (l : R) : list R := map avg (cols_of nf (rows_with l X y)).
  Definition vars_of (l : R) : list R := map mean_sq_dev (cols_of nf (rows_with l X y)).
  Lemma means_of_length l : length (means_of l) = nf.
  Proof. unfold means_of. now rewrite map_length, cols_of_length. Qed.
  Lemma vars_of_length l : length (vars_of l) = nf.
  Proof. unfold vars_of. now rewrite map_length, cols_of_length. Qed.

  Lemma gnb_class_spec l : In l y -> gnb_class nf X y l = Ok (means_of l, vars_of l).
  Proof.
    intros Hl. unfold gnb_class. rewrite rows_of_label_spec by assumption. cbn [bind]. pose proof (rows_with_ne l X y HL Hl) as HN.
    pose proof (width_rows y l HW) as HW'. unfold mean, var. cbn [Z.eqb bind only_row vget nth_error]. unfold only_row, vget. cbn [nth_error bind].
    rewrite var0_spec by assumption. rewrite col_means_spec by assumption. reflexivity.
  Qed.
  Lemma gnb_fit_spec eps : exists mx, gnb_fit eps nf gnb0 X y =
      Ok (Gnb (count_labels [] y) (map (freq Req_EM_T y) classes) (map means_of classes) (map (fun l => map (fun v => v + eps * mx) (vars_of l)) classes)) /\
    (exists l, In l y /\ In mx (vars_of l)) /\ (forall l v, In l y -> In v (vars_of l) -> v <= mx).
  Proof.
    unfold gnb_fit. cbn [g_labels gnb0]. rewrite HL, Nat.eqb_refl. cbn [negb].
    pose proof classes_labels as (_ & HC).
    rewrite (mapM_Ok _ (fun l => (means_of l, vars_of l))) by (intros l Hl; apply gnb_class_spec; now apply HC).
    cbn [bind]. rewrite !map_map. fold classes.
    destruct (@max_coeff_spec (concat (map vars_of classes))) as (mx & E & H1 & H2).
    { pose proof classes_ne as Hne. destruct classes as [|l ls]; [congruence|]. simpl. intros E. apply app_eq_nil in E. destruct E as (E & _).
      pose proof (vars_of_length l) as HV. rewrite E in HV. simpl in HV. lia. }
    exists mx. change (max_coeff _) with (max_coeff (concat (map vars_of classes))).
    rewrite E. cbn [bind]. split; [|split].
    - rewrite nb_priors_spec. unfold classes. rewrite !map_map. reflexivity.
    - apply in_concat in H1. destruct H1 as (vs & Hvs & Hin). apply in_map_iff in Hvs. destruct Hvs as (l & <- & Hl). exists l. split; [now apply HC|assumption].
    - intros l v Hl Hv. apply H2. apply in_concat. exists (vars_of l). split; [|assumption]. apply in_map. now apply HC.
  Qed.
  Lemma mnb_class_spec l : mnb_class false nf X y l =
    Ok (map (fun j => total (col j (rows_with l X y))) (seq 0 nf), total (map (fun j => total (col j (rows_with l X y))) (seq 0 nf))).
  Proof.
    unfold mnb_class. rewrite rows_of_label_spec by assumption. cbn [bind]. pose proof (width_rows y l HW) as HW'.
    unfold sum. cbn [Z.eqb Pos.eqb]. unfold only_row, vget. cbn [nth_error bind andb negb].
    rewrite col_sum_spec by assumption. unfold cols_of. rewrite map_map. do 2 f_equal. rewrite Rsum_total.
    set (rs := rows_with l X y) in *. clearbody rs. clear - HW'. induction rs as [|r rs IH].
    - simpl. rewrite total_const. ring.
    - apply width_cons in HW'. destruct HW' as (H1 & H2). simpl. rewrite total_app, IH by assumption.
      rewrite (total_plus (fun j => nth j r 0) (fun j => total (col j rs))). f_equal. symmetry. now apply total_nths.
  Qed.
  Lemma mnb_fit_spec : mnb_fit false nf mnb0 X y =
    Ok (Mnb (count_labels [] y) (map (freq Req_EM_T y) classes) nf
          (map (fun l => map (fun j => total (col j (rows_with l X y))) (seq 0 nf)) classes)
          (map (fun l => total (map (fun j => total (col j (rows_with l X y))) (seq 0 nf))) classes)).
  Proof.
    unfold mnb_fit. cbn [m_labels mnb0]. rewrite HL, Nat.eqb_refl. cbn [negb].
    rewrite (mapM_Ok _ (fun l => (map (fun j => total (col j (rows_with l X y))) (seq 0 nf), total (map (fun j => total (col j (rows_with l X y))) (seq 0 nf)))))
      by (intros l Hl; apply mnb_class_spec).
    cbn [bind]. rewrite !map_map. rewrite nb_priors_spec. reflexivity.
  Qed.
End Fit.

(** * Likelihoods *)
Lemma ln_product l : (forall a, In a l -> 0 < a) -> 0 < product l /\ ln (product l) = total (map ln l).
Proof.
  induction l as [|a l IH]; intros H; simpl; [split; [lra|apply ln_1]|]. destruct IH as (H1 & H2); [intros; apply H; now right|].
  pose proof (H a (or_introl eq_refl)). fold (product l). split; [now apply Rmult_lt_0_compat|]. rewrite ln_mult by assumption. now rewrite H2.
Qed.
Lemma normal_density_pos m v x : 0 < v -> 0 < normal_density m v x.
Proof.
  intros H. unfold normal_density. pose proof PI_RGT_0. apply Rmult_lt_0_compat; [|apply exp_pos]. apply Rinv_0_lt_compat, sqrt_lt_R0.
  apply Rmult_lt_0_compat; [|assumption]. lra.
Qed.
Lemma ln_sqrt a : 0 < a -> ln (sqrt a) = ln a / 2.
Proof.
  intros H. pose proof (sqrt_lt_R0 a H). replace (ln a) with (ln (sqrt a * sqrt a)) by (now rewrite sqrt_sqrt by lra). rewrite ln_mult by assumption. field.
Qed.
Lemma ln_normal_density m v x : 0 < v -> ln (normal_density m v x) = - (1 / 2) * ln (2 * PI * v) - (x - m) ^ 2 / v * (1 / 2).
Proof.
  intros H. unfold normal_density. pose proof PI_RGT_0. assert (0 < 2 * PI * v) by (apply Rmult_lt_0_compat; lra).
  rewrite ln_mult; [|now apply Rinv_0_lt_compat, sqrt_lt_R0|apply exp_pos]. rewrite ln_Rinv by now apply sqrt_lt_R0.
  rewrite ln_sqrt by assumption. rewrite ln_exp. field. lra.
Qed.
Lemma normal_likelihood_pos nf ms vs x : (forall j, (j < nf)%nat -> 0 < nth j vs 0) -> 0 < normal_likelihood nf ms vs x.
Proof.
  intros H. apply ln_product. intros a Ha. apply in_map_iff in Ha. destruct Ha as (j & <- & Hj). apply in_seq in Hj.
  apply normal_density_pos. apply H. lia.
Qed.
Lemma gnb_ll_spec ms : forall vs x, length vs = length ms -> length x = length ms -> (forall j, (j < length ms)%nat -> 0 < nth j vs 0) ->
  gnb_ll ms vs x = Ok (ln (normal_likelihood (length ms) ms vs x)).
Proof.
  intros vs x H1 H2 H. unfold gnb_ll. rewrite H2, Nat.eqb_refl. cbn [negb]. f_equal. unfold normal_likelihood.
  destruct (@ln_product (map (fun j => normal_density (nth j ms 0) (nth j vs 0) (nth j x 0)) (seq 0 (length ms)))) as (_ & ->).
  { intros a Ha. apply in_map_iff in Ha. destruct Ha as (j & <- & Hj). apply in_seq in Hj. apply normal_density_pos. apply H. lia. }
  rewrite map_map. rewrite !Rsum_total. revert vs x H1 H2 H. induction ms as [|m ms IH]; intros [|v vs] [|a x] H1 H2 H; simpl in H1, H2; try lia.
  - simpl. lra.
  - cbn [length seq map map2 vsub]. rewrite <- seq_shift, map_map. cbn [nth].
    injection H1 as H1; injection H2 as H2. specialize (IH vs x H1 H2). unfold vsub in IH. unfold total in *. cbn [fold_right].
    rewrite <- IH; [|intros j Hj; apply (H (S j)); simpl; lia].
    pose proof (H 0%nat ltac:(simpl; lia)) as Hv. simpl in Hv. rewrite ln_normal_density by assumption.
    replace (v * 2 * PI) with (2 * PI * v) by field. unfold sq, vsub. field. lra.
Qed.

(** * Joint log likelihoods *)
Lemma combine_maps {A B C} (f : A -> B) (g : A -> C) l : combine (map f l) (map g l) = map (fun a => (f a, g a)) l.
Proof. induction l as [|a l IH]; simpl; [reflexivity|]. now rewrite IH. Qed.
Lemma mapM_compose {A B C} (f : B -> outcome C) (g : A -> B) l : mapM f (map g l) = mapM (fun a => f (g a)) l.
Proof. induction l as [|a l IH]; simpl; [reflexivity|]. now rewrite IH. Qed.
Lemma gnb_jll_spec nf (classes : list R) (mf vf : R -> list R) lm p0 ps X : length lm = length classes ->
  (forall l, In l classes -> length (mf l) = nf /\ length (vf l) = nf /\ forall j, (j < nf)%nat -> 0 < nth j (vf l) 0) -> width nf X ->
  gnb_jll false (Gnb lm (p0 :: ps) (map mf classes) (map vf classes)) X =
    Ok (map (fun x => map (fun a => ln a + ln p0) (map (fun l => normal_likelihood nf (mf l) (vf l) x) classes)) X).
Proof.
  intros HK H HW. unfold gnb_jll. cbn [g_labels g_mean g_var g_priors andb]. apply mapM_Ok. intros x Hx. rewrite combine_maps, mapM_compose.
  cbn [fst snd vget nth_error bind]. rewrite map_map. apply mapM_Ok. intros l Hl. destruct (H l Hl) as (H1 & H2 & H3).
  rewrite gnb_ll_spec; [|congruence|rewrite H1; now apply HW|now rewrite H1]. cbn [bind]. now rewrite H1.
Qed.
Lemma mapM_vget {A} (d : A) (l : list A) : mapM (vget l) (seq 0 (length l)) = Ok l.
Proof.
  rewrite (mapM_Ok _ (fun i => nth i l d)) by (intros i Hi; apply in_seq in Hi; apply vget_Ok; lia). f_equal. symmetry. apply list_as_nths.
Qed.
Lemma foldM_sum (f : nat -> R) (g : R -> nat -> outcome R) l : (forall r i, In i l -> g r i = Ok (r + f i)) -> forall a, foldM g l a = Ok (a + total (map f l)).
Proof.
  induction l as [|i l IH]; intros H a; simpl; [f_equal; lra|]. rewrite H by now left. cbn [bind]. rewrite IH by (intros; apply H; now right). f_equal. lra.
Qed.
Lemma ln_multinomial nf theta x : (forall j, (j < nf)%nat -> 0 < theta j) ->
  0 < multinomial_likelihood nf theta x /\ ln (multinomial_likelihood nf theta x) = total (map (fun j => nth j x 0 * ln (theta j)) (seq 0 nf)).
Proof.
  intros H. unfold multinomial_likelihood. destruct (@ln_product (map (fun j => Rpower (theta j) (nth j x 0)) (seq 0 nf))) as (H1 & ->).
  { intros a Ha. apply in_map_iff in Ha. destruct Ha as (j & <- & _). apply exp_pos. }
  split; [assumption|]. rewrite map_map. f_equal. apply map_ext. intros j. unfold Rpower. now rewrite ln_exp.
Qed.
Lemma nth_map {A B} (f : A -> B) l i d d' : (i < length l)%nat -> nth i (map f l) d = f (nth i l d').
Proof. intros H. rewrite (nth_indep _ d (f d')) by (now rewrite map_length). apply map_nth. Qed.
Lemma mnb_jll_spec alpha nf (classes : list R) (pf : R -> R) (fc : R -> list R) (cc : R -> R) lm X : length lm = length classes ->
  (forall l, In l classes -> length (fc l) = nf /\ (forall j, (j < nf)%nat -> 0 < (nth j (fc l) 0 + alpha) / (cc l + alpha * INR nf)) /\ 0 < pf l) -> width nf X ->
  mnb_jll alpha (Mnb lm (map pf classes) nf (map fc classes) (map cc classes)) X =
    Ok (map (fun x => map ln (map (fun l => pf l * multinomial_likelihood nf (fun j => (nth j (fc l) 0 + alpha) / (cc l + alpha * INR nf)) x) classes)) X).
Proof.
  intros HK H HW. unfold mnb_jll. cbn [m_labels m_priors]. rewrite HK. apply mapM_Ok. intros x Hx. rewrite map_map.
  rewrite (mapM_Ok _ (fun c => ln (pf (nth c classes 0) * multinomial_likelihood nf (fun j => (nth j (fc (nth c classes 0)) 0 + alpha) / (cc (nth c classes 0) + alpha * INR nf)) x))).
  - f_equal. rewrite (list_as_nths 0 classes) at 2. rewrite map_map. reflexivity.
  - intros c Hc. apply in_seq in Hc. set (l := nth c classes 0). destruct (H l) as (H1 & H2 & H3); [apply nth_In; lia|].
    unfold mnb_ll. cbn [m_feature_count m_class_count m_nf]. rewrite !(vget_map _ _ _ (nth_error_some 0 classes (i := c) ltac:(lia))). fold l. cbn [bind].
    destruct (ln_multinomial (fun j => (nth j (fc l) 0 + alpha) / (cc l + alpha * INR nf)) x H2) as (P & E).
    rewrite (@foldM_sum (fun j => nth j x 0 * ln ((nth j (fc l) 0 + alpha) / (cc l + alpha * INR nf)))).
    2: { intros r i Hi. apply in_seq in Hi. pose proof (HW x Hx). rewrite (vget_Ok x 0), (vget_Ok (fc l) 0) by lia. reflexivity. }
    cbn [bind]. f_equal. rewrite ln_mult by assumption. rewrite E, (HW x Hx). ring.
Qed.
