(** Gaussian naive Bayes and least squares on converted features; distances. *)
From Coq Require Import Reals Lra.
From Verif Require Import Base Sorting Common_Model KDReal_Proofs KDHom_Proofs KDTree_Spec Tree_Model TreeReal_Proofs Impurity_Model Impurity_Spec Impurity_Proofs Vec
  MathFun_Model Stats_Spec Stats_Model LossSoftmax_Proofs Stats_Proofs NB_Model NB_Spec NB_Proofs Units_Spec Units_Proofs UnitsMore_Proofs.
Local Open Scope R_scope.
Set Implicit Arguments.

(** Subtracting one number from every entry of the joint log likelihood changes nothing. *)
Lemma fold_Rmax_shift k l : forall a, fold_left Rmax (map (fun b => b - k) l) (a - k) = fold_left Rmax l a - k.
Proof.
  induction l as [|b l IH]; intros a; cbn [map fold_left]; [reflexivity|]. rewrite <- IH. f_equal. unfold Rmax. destruct (Rle_dec (a - k) (b - k)), (Rle_dec a b); lra.
Qed.
Lemma max_coeff_shift k r : max_coeff (map (fun a => a - k) r) = omap (fun a => a - k) (max_coeff r).
Proof. destruct r as [|a r]; [reflexivity|]. cbn [map max_coeff omap]. f_equal. apply fold_Rmax_shift. Qed.
Lemma log_prob_shift K k jll : log_prob_of K (map (map (fun a => a - k)) jll) = log_prob_of K jll.
Proof.
  unfold log_prob_of, logsumexp. change (1 =? 1)%Z with true. cbv iota. rewrite (@mapM_hom _ _ _ _ (map (fun a => a - k)) (fun a => a - k) max_coeff) by (intros; apply max_coeff_shift).
  destruct (mapM max_coeff jll) as [cs| | |]; cbn [omap bind]; try reflexivity. f_equal.
  revert cs. induction jll as [|r jll IH]; intros [|m cs]; cbn [map map2]; try reflexivity. unfold vadd. cbn [map2]. f_equal; [|apply IH].
  rewrite map_map. apply map_ext. intros a. rewrite (map_map (fun a => a - k)). rewrite (map_ext (fun b => exp (b - k - (m - k))) (fun b => exp (b - m))) by (intros; f_equal; ring). ring.
Qed.
Lemma prob_shift K k jll : prob_of K (map (map (fun a => a - k)) jll) = prob_of K jll.
Proof. unfold prob_of. now rewrite log_prob_shift. Qed.
Lemma predict_shift k jll : predict_of (map (map (fun a => a - k)) jll) = predict_of jll.
Proof.
  unfold predict_of, argmax_rows. rewrite (@mapM_hom _ _ _ _ (map (fun a => a - k)) (fun i : nat => i) (arg_best (fun a b => Rltb b a))).
  - destruct (mapM _ jll); cbn [omap bind]; [now rewrite map_id|reflexivity..].
  - intros r _. destruct r as [|a r]; [reflexivity|]. cbn [map arg_best omap]. f_equal. apply (@scan_best_map _ _ (fun a => a - k)).
    intros x y. destruct (Rltb y x) eqn:E; [apply Rltb_true in E; apply Rltb_true|apply Rltb_false in E; apply Rltb_false]; lra.
Qed.

Section Gauss.
  Variable c : R.
  Variable b : nat -> R.
  Hypothesis Hc : c <> 0.
  Notation g := (units (fun _ => c) b).
  Notation conv := (map (convert g)).
  Lemma rows_with_convert l X : forall y, rows_with l (conv X) y = conv (rows_with l X y).
  Proof. induction X as [|x X IH]; intros [|a y]; cbn [map rows_with]; try reflexivity. destruct (Req_EM_T a l); cbn [map]; now rewrite IH. Qed.
  Lemma convert_const (k : R) v : convert (fun _ x => k * x) v = map (Rmult k) v.
  Proof.
    symmetry. apply convert_eq; [apply map_length|]. intros j Hj. rewrite (nth_indep _ 0 (k * 0)) by (now rewrite map_length). now rewrite map_nth.
  Qed.
  Definition hclass (p : list R * list R) : list R * list R := (convert g (fst p), map (Rmult (c ^ 2)) (snd p)).
  Lemma gnb_class_hom nf X y l : (2 <= nf)%nat -> width nf X -> length X = length y -> In l y ->
    gnb_class nf (conv X) y l = omap hclass (gnb_class nf X y l).
  Proof using.
    intros Hnf HW HL Hl. unfold gnb_class. rewrite !rows_of_label_spec by (auto using width_convert). cbn [bind]. rewrite rows_with_convert.
    pose proof (rows_with_ne l X y HL Hl) as HN. pose proof (width_rows y l HW) as HW'.
    unfold mean, var. cbn [Z.eqb bind]. unfold only_row, vget. cbn [nth_error bind omap]. rewrite var0_units, col_means_units by assumption.
    unfold hclass. cbn [fst snd]. now rewrite convert_const.
  Qed.
  Lemma fold_Rmax_scale l : forall a, fold_left Rmax (map (Rmult (c ^ 2)) l) (c ^ 2 * a) = c ^ 2 * fold_left Rmax l a.
  Proof using.
    clear Hc. induction l as [|x l IH]; intros a; cbn [map fold_left]; [reflexivity|]. rewrite <- IH. f_equal.
    rewrite RmaxRmult by (rewrite <- Rsqr_pow2; apply Rle_0_sqr). reflexivity.
  Qed.
  Definition hgnb (s : gnb) : gnb := Gnb (g_labels s) (g_priors s) (conv (g_mean s)) (map (map (Rmult (c ^ 2))) (g_var s)).
  Lemma gnb_fit_hom eps nf X y : (2 <= nf)%nat -> width nf X -> length X = length y ->
    gnb_fit eps nf gnb0 (conv X) y = omap hgnb (gnb_fit eps nf gnb0 X y).
  Proof using.
    intros Hnf HW HL. unfold gnb_fit. cbn [g_labels gnb0]. rewrite map_length, HL, Nat.eqb_refl. cbn [negb].
    rewrite (mapM_hom' hclass (gnb_class nf X y)).
    2: { intros l Hl. apply gnb_class_hom; try assumption. now apply (proj2 (classes_labels y)). }
    destruct (mapM (gnb_class nf X y) (nb_classes (count_labels [] y))) as [cs| | |]; cbn [bind omap]; try reflexivity.
    assert (E : concat (map snd (map hclass cs)) = map (Rmult (c ^ 2)) (concat (map snd cs))) by (rewrite concat_map, !map_map; reflexivity).
    rewrite E. destruct (concat (map snd cs)) as [|v0 vs]; [reflexivity|]. cbn [map max_coeff bind omap]. rewrite fold_Rmax_scale. f_equal. unfold hgnb. cbn [g_labels g_priors g_mean g_var].
    f_equal; rewrite !map_map; [reflexivity|]. apply map_ext. intros p. cbn [hclass snd]. rewrite !map_map. apply map_ext. intros v. ring.
  Qed.
  Lemma gnb_ll_hom m v x : length v = length m -> c = 1 \/ (forall a, In a v -> 0 < a) ->
    gnb_ll (convert g m) (map (Rmult (c ^ 2)) v) (convert g x) = omap (fun l => l - (1 / 2) * (INR (length m) * ln (c ^ 2))) (gnb_ll m v x).
  Proof using Hc.
    intros HL HP. unfold gnb_ll. rewrite !length_convert. destruct (Nat.eqb_spec (length x) (length m)) as [El|]; [|reflexivity]. cbn [negb omap]. f_equal.
    rewrite vsub_convert by assumption. rewrite !Rsum_total, map_map.
    assert (E1 : total (map (fun a => ln (c ^ 2 * a * 2 * PI)) v) = total (map (fun a => ln (a * 2 * PI)) v) + INR (length m) * ln (c ^ 2)).
    { rewrite <- HL. rewrite (total_ext _ (fun a => ln (a * 2 * PI) + ln (c ^ 2))).
      - now rewrite total_plus, total_const.
      - intros a Ha. destruct HP as [-> | HP]; [rewrite pow1, ln_1, Rmult_1_l; ring|].
        rewrite <- ln_mult; [f_equal; ring| |rewrite <- Rsqr_pow2; now apply Rlt_0_sqr]. pose proof PI_RGT_0. specialize (HP a Ha). apply Rmult_lt_0_compat; lra. }
    rewrite E1. assert (E2 : map2 Rdiv (map sq (vscale c (vsub x m))) (map (Rmult (c ^ 2)) v) = map2 Rdiv (map sq (vsub x m)) v).
    { unfold vscale. rewrite map_map, !map2_map_l, map2_map_r. generalize (vsub x m). clear - Hc HP. intros u. revert v HP. induction u as [|t u IH]; intros [|a v] HP; cbn [map2]; try reflexivity. f_equal.
      - cbv beta. unfold sq. destruct HP as [E | HP]; [rewrite E; replace (1 ^ 2 * a) with a by ring; f_equal; ring|]. specialize (HP a (or_introl eq_refl)). field. split; lra.
      - apply IH. destruct HP as [H|H]; [now left|right]. intros z Hz. apply H. now right. }
    rewrite E2. ring.
  Qed.
  Lemma gnb_jll_hom asserts nf s X : width nf (g_mean s) -> width nf (g_var s) -> c = 1 \/ (forall vs a, In vs (g_var s) -> In a vs -> 0 < a) ->
    gnb_jll asserts (hgnb s) (conv X) = omap (map (map (fun l => l - (1 / 2) * (INR nf * ln (c ^ 2))))) (gnb_jll asserts s X).
  Proof using Hc.
    intros HM HV HP. unfold gnb_jll, hgnb. cbn [g_labels g_priors g_mean g_var]. destruct (asserts && negb (length (g_labels s) =? 1)%nat && negb (length (g_labels s) =? 0)%nat); [reflexivity|].
    apply mapM_hom. intros x _.
    assert (E : combine (conv (g_mean s)) (map (map (Rmult (c ^ 2))) (g_var s)) = map hclass (combine (g_mean s) (g_var s))).
    { generalize (g_var s) (g_mean s). clear. intros vv mm. revert vv. induction mm as [|m ms IH]; intros [|v vs]; cbn [map combine]; try reflexivity. now rewrite IH. }
    rewrite E. apply mapM_hom. intros (m, v) Hin. cbn [hclass fst snd]. pose proof (HM m (in_combine_l _ _ _ _ Hin)) as H1. pose proof (HV v (in_combine_r _ _ _ _ Hin)) as H2.
    rewrite gnb_ll_hom; [|congruence|].
    - rewrite H1. apply bind_hom. intros l. destruct (vget (g_priors s) 0); cbn [bind omap]; try reflexivity. f_equal. ring.
    - destruct HP as [H|H]; [now left|right]. intros a Ha. apply (H v); [now apply in_combine_r in Hin|assumption].
  Qed.
End Gauss.

(** Distances. *)
Lemma combine_convert_diff (c : R) b x : forall y, length x = length y ->
  map (fun p => fst p - snd p) (combine (convert (units (fun _ => c) b) x) (convert (units (fun _ => c) b) y)) = map (Rmult c) (map (fun p => fst p - snd p) (combine x y)).
Proof.
  intros y H. assert (G : forall u v : list R, map (fun p => fst p - snd p) (combine u v) = vsub u v).
  { induction u as [|a u IH]; intros [|d v]; cbn; try reflexivity. now rewrite IH. }
  rewrite !G. now apply vsub_convert.
Qed.
Lemma norm_of_scale m c v : norm_of m (map (Rmult c) v) = Rabs c * norm_of m v.
Proof.
  destruct m; cbn [norm_of].
  - rewrite map_map. induction v as [|a v IH]; cbn; [ring|]. unfold KDTree_Spec.sum in *. rewrite IH, Rabs_mult. ring.
  - rewrite map_map. replace (KDTree_Spec.sum (map (fun x => Rsqr (c * x)) v)) with (Rsqr c * KDTree_Spec.sum (map Rsqr v)).
    + rewrite sqrt_mult_alt by apply Rle_0_sqr. now rewrite sqrt_Rsqr_abs.
    + induction v as [|a v IH]; cbn; [ring|]. unfold KDTree_Spec.sum in *. rewrite <- IH, Rsqr_mult. ring.
  - induction v as [|a v IH]; cbn; [ring|]. rewrite IH, Rabs_mult. rewrite RmaxRmult by apply Rabs_pos. reflexivity.
Qed.
Lemma dist_units m c b x y : length x = length y -> dist m (convert (units (fun _ => c) b) x) (convert (units (fun _ => c) b) y) = Rabs c * dist m x y.
Proof. intros H. unfold dist. rewrite combine_convert_diff by assumption. apply norm_of_scale. Qed.
Lemma matrix_units nf c b data : is_matrix nf data -> is_matrix nf (in_units (fun _ => c) b data).
Proof. intros H r Hr. unfold in_units in Hr. apply in_map_iff in Hr. destruct Hr as (x & <- & Hx). rewrite length_convert. auto. Qed.
Lemma column_units nf c b data j : is_matrix nf data -> (j < nf)%nat -> KDTree_Spec.column j (in_units (fun _ => c) b data) = map (fun x => c * x + b j) (KDTree_Spec.column j data).
Proof.
  intros H Hj. unfold KDTree_Spec.column, in_units. rewrite !map_map. apply map_ext_in. intros r Hr. rewrite nth_convert by (rewrite (H r Hr); assumption). reflexivity.
Qed.
Lemma spread_affine c u l s : 0 < c -> spread (map (fun x => c * x + u) l) s -> spread l (s / c).
Proof.
  intros Hc (lo & hi & H1 & H2 & H3 & ->). apply in_map_iff in H1. apply in_map_iff in H2. destruct H1 as (x & <- & Hx), H2 as (z & <- & Hz).
  exists x, z. repeat split; try assumption; [| |field; lra]; destruct (H3 (c * x0 + u) (in_map _ _ _ H)) as (A & B).
  - apply (Rmult_le_reg_l c); lra.
  - apply (Rmult_le_reg_l c); lra.
Qed.
Lemma widest_units nf c b data : 0 < c -> (0 < nf)%nat -> is_matrix nf data -> first_column_widest nf data -> first_column_widest nf (in_units (fun _ => c) b data).
Proof.
  intros Hc Hnf HM HW j s0 sj Hj H0 H1. rewrite (column_units c b HM Hnf) in H0. rewrite (column_units c b HM Hj) in H1. apply spread_affine in H0; [|assumption]. apply spread_affine in H1; [|assumption].
  pose proof (HW j _ _ Hj H0 H1) as H. apply (Rmult_le_compat_r c) in H; [|lra]. unfold Rdiv in H. rewrite !Rmult_assoc, !Rinv_l, !Rmult_1_r in H by lra. assumption.
Qed.
