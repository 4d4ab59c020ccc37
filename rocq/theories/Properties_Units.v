(** C67: other units of measurement.  Arithmetic is exact (over the reals). *)
From Coq Require Import Reals Lra QArith.
From Verif Require Import Base Sorting Common_Model Tree_Model Tree_Spec Tree_Proofs TreeReal_Proofs KDReal_Proofs KDHom_Proofs Impurity_Model Vec MathFun_Model Stats_Model
  Loss_Model NB_Model NB_Spec NB_Proofs Linear_Model Linear_Spec Linear_Proofs KMeans_Model KMeans_Spec Decomp_Model Units_Spec Units_Proofs UnitsMore_Proofs UnitsNB_Proofs UnitsLinear_Proofs
  UnitsLabels_Proofs Properties_Linear.
Local Open Scope R_scope.

Definition increasing (psi : R -> R) : Prop := forall u v, u < v -> psi u < psi v.
Lemma increasing_Rltb psi : increasing psi -> forall u v, Rltb (psi u) (psi v) = Rltb u v.
Proof.
  intros H u v. destruct (Rltb u v) eqn:E.
  - apply Rltb_true in E. apply Rltb_true. now apply H.
  - apply Rltb_false in E. apply Rltb_false. destruct E as [E | ->]; [left; now apply H|right; reflexivity].
Qed.
Lemma units_Rltb a b : (forall j, 0 < a j) -> forall f u v, Rltb (units a b f u) (units a b f v) = Rltb u v.
Proof. intros H f. apply increasing_Rltb. intros u v Huv. unfold units. pose proof (Rmult_lt_compat_l _ _ _ (H f) Huv). lra. Qed.
Lemma units_mid a b f u v : Rmid (units a b f u) (units a b f v) = units a b f (Rmid u v).
Proof. unfold Rmid, units. field. Qed.

(** Fitting a classification tree and asking for the probabilities and the classes of further rows: features in other units and
    increasing names for the labels change nothing, whatever the outcome. *)
Definition classify (c : class_criterion) (P : params R) (nf : nat) (X : list (list R)) (y : list R) (new : list (list R)) : outcome (list (list (option Q)) * list nat) :=
  let! (labels, t) := classifier_fit c P nf [] X y in
  let! p := predict_prob Rltb t new in
  let! k := predict_class Rltb t new in
  Ok (p, k).
Theorem C67_classifier : forall c P nf a b psi X y Q, (forall j, 0 < a j) -> increasing psi ->
  classify c P nf (in_units a b X) (map psi y) (in_units a b Q) = classify c P nf X y Q.
Proof.
  intros c P nf a b psi X y Q Ha Hp. unfold classify, classifier_fit. assert (Hl := increasing_Rltb psi Hp).
  assert (E := fit_labels_hom Rltb psi Hl [] X (in_units a b X) y (map_length _ _)). cbn [map] in E. rewrite E. clear E.
  destruct (fit_labels Rltb [] X y) as [labels| | |]; cbn [bind omap]; try reflexivity.
  change (in_units a b X) with (map (convert (units a b)) X).
  rewrite (@grow_hom R Rltb Rmid (units a b) (units_Rltb a b Ha) (units_mid a b) R Rgtb dbl_min psi (class_gain Rltb c) (class_gain Rltb c)
    (class_gain_hom Rltb psi Hl c) _ _ (fun v => v) (class_value Rltb labels)).
  - destruct (grow Rltb Rmid Rgtb dbl_min (class_gain Rltb c) (class_value Rltb labels) nf P X y) as [t| | |]; cbn [bind omap]; try reflexivity.
    assert (E : forall Q', predict_prob Rltb (htree (units a b) (fun v : list nat * nat => v) t) (in_units a b Q') = predict_prob Rltb t Q').
    { intros Q'. unfold predict_prob, in_units. induction Q' as [|x Q' IH]; [reflexivity|]. cbn [map mapM]. rewrite IH, (walk_hom _ _ (units_Rltb a b Ha)).
      destruct (walk Rltb t x); reflexivity. }
    unfold predict_class. rewrite E. reflexivity.
  - intros y'. rewrite (class_value_hom Rltb psi Hl). destruct (class_value Rltb labels y') as [((? & ?) & ?)| | |]; reflexivity.
Qed.
Print Assumptions C67_classifier.
(** Fitting a regression tree and predicting: moving every target by [t] moves every prediction by [t]. *)
Definition regress (c : reg_criterion) (min_stdev : R) (P : params R) (nf : nat) (X : list (list R)) (y : list R) (Q : list (list R)) : outcome (list R) :=
  let! t := regressor_fit c min_stdev P nf X y in regressor_predict t Q.
Theorem C67_regressor : forall c min_stdev P nf a b t X y Q, (forall j, 0 < a j) ->
  regress c min_stdev P nf (in_units a b X) (map (fun v => v + t) y) (in_units a b Q) =
  match regress c min_stdev P nf X y Q with Ok p => Ok (map (fun v => v + t) p) | o => o end.
Proof.
  intros c ms P nf a b t X y Q Ha. unfold regress, regressor_fit.
  change (in_units a b X) with (map (convert (units a b)) X).
  rewrite (@grow_hom R Rltb Rmid (units a b) (units_Rltb a b Ha) (units_mid a b) R Rgtb dbl_min (fun v => v + t) (reg_gain c) (reg_gain c)
    (reg_gain_shift c t) _ _ (fun v => v + t) (reg_value ms) (reg_value ms) (reg_value_shift ms t)).
  destruct (grow Rltb Rmid Rgtb dbl_min (reg_gain c) (reg_value ms) nf P X y) as [tr| | |]; cbn [bind omap]; try reflexivity.
  unfold regressor_predict, in_units. rewrite (mapM_hom (convert (units a b)) (fun v => v + t) (fun x => let! i := walk Rltb tr x in Ok (n_value i))).
  - destruct (mapM _ Q); reflexivity.
  - intros x _. rewrite (walk_hom _ _ (units_Rltb a b Ha)). destruct (walk Rltb tr x); reflexivity.
Qed.
Print Assumptions C67_regressor.

(** k-means.  All features in one common unit (any [c], even negative) and moved by any vector: the labels of further rows for given
    centroids, and the final centroids from given ones when the tolerance is converted too. *)
Theorem C67_kmeans_predict : forall c b K C X, c <> 0 ->
  KMeans_Model.predict K (in_units (fun _ => c) b C) (in_units (fun _ => c) b X) = KMeans_Model.predict K C X.
Proof. intros c b K C X Hc. now apply predict_hom. Qed.
Print Assumptions C67_kmeans_predict.
Theorem C67_kmeans_lloyd : forall c b asserts nf K tol X max_iter C, c <> 0 -> width nf X ->
  lloyd asserts nf K (Rabs c * tol) (in_units (fun _ => c) b X) max_iter (in_units (fun _ => c) b C) =
  match lloyd asserts nf K tol X max_iter C with Ok C' => Ok (in_units (fun _ => c) b C') | o => o end.
Proof. intros c b asserts nf K tol X n C Hc HW. unfold in_units. rewrite lloyd_hom by assumption. destruct (lloyd asserts nf K tol X n C); reflexivity. Qed.
Print Assumptions C67_kmeans_lloyd.
(** The whole fit, with every kind of initialisation and the same random draws, when the data are moved. *)
Theorem C67_kmeans_fit : forall b asserts nf K tol max_iter init X, width nf X ->
  kmeans_fit asserts nf K tol max_iter init (in_units (fun _ => 1) b X) =
  match kmeans_fit asserts nf K tol max_iter init X with Ok C => Ok (in_units (fun _ => 1) b C) | o => o end.
Proof.
  intros b asserts nf K tol n init X HW. unfold in_units. rewrite kmeans_fit_shift by assumption.
  destruct (kmeans_fit asserts nf K tol n init X); reflexivity.
Qed.
Print Assumptions C67_kmeans_fit.

(** Least squares with an intercept, each feature in its own units (any nonzero factors): singular for the one exactly when singular
    for the other, and the same predictions. *)
Theorem C67_least_squares : forall d a b X y, (forall j, (j < d)%nat -> a j <> 0) -> width d X -> length y = length X ->
  (linear_fit true d (in_units a b X) y = Ok None <-> linear_fit true d X y = Ok None) /\
  forall w w' Q, linear_fit true d X y = Ok (Some w) -> linear_fit true d (in_units a b X) y = Ok (Some w') -> width d Q ->
    predict_label true w' d (in_units a b Q) = predict_label true w d Q.
Proof.
  intros d a b X y Ha HW HL. pose proof (@fit_units a b d Ha X y HW HL) as F. fold (in_units a b X) in F. split.
  - destruct (linear_fit true d X y) as [[w|]| | |]; destruct (linear_fit true d (in_units a b X) y) as [[w'|]| | |]; try tauto; split; discriminate.
  - intros w w' Q E E' HQ. rewrite E, E' in F. destruct F as (Lw' & ->).
    assert (n_coef true d = S d) as En by (cbn; lia).
    rewrite !C49_prediction; rewrite ?En; auto using back_length; [|now apply width_convert].
    unfold in_units. rewrite map_map. f_equal. apply map_ext_in. intros x Hx. apply back_fun; auto.
Qed.
Print Assumptions C67_least_squares.
(** Targets in other units, with an intercept (or without one when they are only rescaled). *)
Theorem C67_targets : forall i d s t X y, i = true \/ t = 0 -> width d X -> length y = length X ->
  (linear_fit i d X y = Ok None -> linear_fit i d X (map (fun v => s * v + t) y) = Ok None) /\
  forall w, linear_fit i d X y = Ok (Some w) -> exists w', linear_fit i d X (map (fun v => s * v + t) y) = Ok (Some w') /\
    forall Q p, width d Q -> predict_label i w d Q = Ok p -> predict_label i w' d Q = Ok (map (fun v => s * v + t) p).
Proof.
  intros i d s t X y H HW HL. pose proof (@fit_retarget i d s t X y H HW HL) as E. split.
  - intros F. now rewrite F in E.
  - intros w F. rewrite F in E. cbn [omap option_map] in E. exists (retarget i s t w). split; [exact E|]. intros Q p HQ Ep.
    assert (Lw : length w = n_coef i d). { destruct (fit_cases i y HW HL) as [(F' & _)|(_ & w0 & F' & L & _)]; rewrite F in F'; [discriminate|]. now injection F' as ->. }
    rewrite C49_prediction in Ep |- * by (auto using retarget_length). injection Ep as <-. rewrite map_map. f_equal. apply map_ext. intros x. now apply retarget_fun.
Qed.
Print Assumptions C67_targets.

(** Statistics of the columns. *)
Theorem C67_statistics : forall nc a b X, width nc X -> X <> [] ->
  (exists m, mean nc X 0 = Ok [m] /\ mean nc (in_units a b X) 0 = Ok [convert (units a b) m]) /\
  (exists v, var nc X 0 = Ok [v] /\ var nc (in_units a b X) 0 = Ok [convert (fun j x => a j ^ 2 * x) v]) /\
  (forall i j, (i < nc)%nat -> (j < nc)%nat -> nth j (nth i (cov nc (in_units a b X)) []) 0 = a i * a j * nth j (nth i (cov nc X) []) 0) /\
  ((forall j, 0 < a j) -> exists m, median nc X 0 = Ok m /\ median nc (in_units a b X) 0 = Ok (convert (units a b) m)).
Proof.
  intros nc a b X HW HN. split; [|split; [|split]].
  - exists (col_means nc X). split; [reflexivity|]. unfold mean. cbn. do 2 f_equal. now apply col_means_units.
  - eexists. split; [reflexivity|]. unfold var, in_units. cbn. do 2 f_equal. now apply var0_units.
  - intros i j Hi Hj. unfold in_units. assert (0 < length X)%nat by (destruct X as [|x X]; [congruence|cbn; lia]). rewrite cov_units by assumption.
    now rewrite !nth_seq_map by assumption.
  - intros Ha. set (f := fun j => match median1 (Stats_Model.column 0 j X) with Ok m => m | _ => 0 end).
    assert (E : forall j, median1 (Stats_Model.column 0 j X) = Ok (f j)).
    { intros j. unfold f. assert (H : Stats_Model.column 0 j X <> []) by (unfold Stats_Model.column; destruct X; [congruence|discriminate]).
      revert H. generalize (Stats_Model.column 0 j X). intros l Hl. unfold median1. assert (HP := isort_perm Rltb l).
      assert (L : length (isort Rltb l) = length l) by (now rewrite (Permutation_length HP)).
      assert (0 < length l)%nat by (destruct l; [congruence|cbn; lia]).
      assert (length l / 2 < length l)%nat by (apply Nat.div_lt; lia). rewrite !(fun v i => @vget_Ok R v i 0) by (rewrite L; lia). cbn [bind]. destruct (_ =? 0)%nat; reflexivity. }
    exists (map f (seq 0 nc)). unfold median. cbn [Z.eqb]. split; [apply mapM_Ok; intros; apply E|].
    assert (EC : convert (units a b) (map f (seq 0 nc)) = map (fun j => units a b j (f j)) (seq 0 nc)).
    { unfold convert. rewrite map_length, seq_length. rewrite <- (map_id (seq 0 nc)) at 1. rewrite combine_maps, map_map. reflexivity. }
    rewrite EC. apply mapM_Ok. intros j Hj. apply in_seq in Hj.
    assert (EX : Stats_Model.column 0 j (in_units a b X) = map (fun x => a j * x + b j) (Stats_Model.column 0 j X)).
    { unfold Stats_Model.column, in_units. rewrite !map_map. apply map_ext_in. intros r Hr. apply nth_convert. rewrite (HW r Hr). lia. }
    rewrite EX, median1_units, E by apply Ha. reflexivity.
Qed.
Print Assumptions C67_statistics.

(** PCA on moved data: the fit and the projections are the same (whatever the decomposition routine returns). *)
Theorem C67_pca : forall svd solver k d m b X Z, width d X ->
  pca_fit svd solver k d m (in_units (fun _ => 1) b X) = pca_fit svd solver k d m X /\
  (width d Z -> forall m', pca_transform m' d (in_units (fun _ => 1) b Z) = pca_transform m' d Z).
Proof.
  intros svd solver k d m b X Z HX.
  assert (E : forall Y, width d Y -> center d (in_units (fun _ => 1) b Y) = center d Y).
  { intros Y HY. unfold in_units. rewrite center_units by assumption. rewrite <- (map_id (center d Y)) at 2. apply map_ext. intros r. rewrite convert_const.
    rewrite <- (map_id r) at 2. apply map_ext. intros x. ring. }
  split.
  - unfold pca_fit. rewrite E by assumption. unfold in_units. now rewrite map_length.
  - intros HZ m'. unfold pca_transform. now rewrite E by assumption.
Qed.
Print Assumptions C67_pca.

(** Gaussian naive Bayes, all features in one common unit and moved by any vector.  When the unit changes ([c] is not 1) the smoothed
    variances have to be positive: the logarithm of 0 is not a real number. *)
Theorem C67_naive_bayes : forall c b eps nf X y s new asserts, c <> 0 -> (2 <= nf)%nat -> width nf X -> length X = length y -> y <> [] ->
  gnb_fit eps nf gnb0 X y = Ok s -> c = 1 \/ (forall vs v, In vs (g_var s) -> In v vs -> 0 < v) ->
  exists s', gnb_fit eps nf gnb0 (in_units (fun _ => c) b X) y = Ok s' /\ nb_classes (g_labels s') = nb_classes (g_labels s) /\
    gnb_predict asserts s' (in_units (fun _ => c) b new) = gnb_predict asserts s new /\
    gnb_predict_prob asserts s' (in_units (fun _ => c) b new) = gnb_predict_prob asserts s new.
Proof.
  intros c b eps nf X y s new asserts Hc Hnf HW HL Hy E HP. exists (hgnb c b s). unfold in_units. split; [rewrite gnb_fit_hom, E by assumption; reflexivity|]. split; [reflexivity|].
  assert (HV : width nf (g_mean s) /\ width nf (g_var s)).
  { destruct (gnb_fit_spec Hnf HW HL Hy eps) as (mx & E' & _). rewrite E in E'. injection E' as ->. cbn [g_mean g_var].
    split; intros r Hr; apply in_map_iff in Hr; destruct Hr as (l & <- & _); [apply means_of_length|rewrite map_length; apply vars_of_length]. }
  unfold gnb_predict, gnb_predict_prob. rewrite (gnb_jll_hom b Hc asserts s new (proj1 HV) (proj2 HV) HP). cbn [hgnb g_labels].
  destruct (gnb_jll asserts s new) as [jll| | |]; cbn [bind omap]; try (split; reflexivity). split; [apply predict_shift|apply prob_shift].
Qed.
Print Assumptions C67_naive_bayes.

(** Rescaling one feature only changes which centroid is closest. *)
Theorem C67_one_feature_refuted : exists a K C X, (forall j, 0 < a j) /\
  KMeans_Model.predict K C X = Ok [0%nat] /\ KMeans_Model.predict K (in_units a (fun _ => 0) C) (in_units a (fun _ => 0) X) = Ok [1%nat].
Proof.
  exists (fun j => match j with O => 1 | _ => 10 end), 2%nat, [[0; 0]; [10; 1]], [[4; 1]]. split; [intros [|j]; lra|].
  assert (S : forall u v, 0 <= u < v -> Rltb (sqrt u) (sqrt v) = true) by (intros u v H; apply Rltb_true; now apply sqrt_lt_1_alt).
  assert (S' : forall u v, 0 <= v < u -> Rltb (sqrt u) (sqrt v) = false) by (intros u v H; apply Rltb_false; left; now apply sqrt_lt_1_alt).
  unfold in_units, convert, units, KMeans_Model.predict, closest, closest_step, row_sub, norm, below. cbn. split.
  - rewrite S' by lra. reflexivity.
  - rewrite S by lra. reflexivity.
Qed.
Print Assumptions C67_one_feature_refuted.
(** Ridge regression penalises the intercept, so moving the feature changes the predictions. *)
Theorem C67_ridge_refuted : exists X y b w w' p p', ridge_fit 1 true 1 X y = Ok (Some w) /\ ridge_fit 1 true 1 (in_units (fun _ => 1) b X) y = Ok (Some w') /\
  predict_label true w 1 X = Ok [p] /\ predict_label true w' 1 (in_units (fun _ => 1) b X) = Ok [p'] /\ p <> p'.
Proof.
  assert (W : forall x, width 1 [[x]]) by (intros x r [<-|[]]; reflexivity).
  destruct (C48_ridge 1 true 1 [[0]] [1] Rlt_0_1 (W 0) eq_refl) as (w & E & Lw & M). destruct (C48_ridge 1 true 1 [[1 * 0 + 1]] [1] Rlt_0_1 (W _) eq_refl) as (w' & E' & Lw' & M').
  assert (w = [0; 1/2]) as ->.
  { symmetry. apply M; [reflexivity|]. destruct w as [|u [|v [|]]]; cbn in Lw; try discriminate. unfold penalised_rss, rss, linear_fun, sqn. cbn. pose proof (Rle_0_sqr (v - 1/2)) as H1. pose proof (Rle_0_sqr u) as H2. unfold Rsqr in *. lra. }
  assert (w' = [1/3; 1/3]) as ->.
  { symmetry. apply M'; [reflexivity|]. destruct w' as [|u [|v [|]]]; cbn in Lw'; try discriminate. unfold penalised_rss, rss, linear_fun, sqn. cbn. pose proof (Rle_0_sqr (u - 1/3)) as H1. pose proof (Rle_0_sqr (v - 1/3)) as H2. pose proof (Rle_0_sqr (u + v - 2/3)) as H3. unfold Rsqr in *. lra. }
  exists [[0]], [1], (fun _ => 1), [0; 1/2], [1/3; 1/3]. do 2 eexists. unfold in_units, convert, units. cbn [map length seq combine fst snd].
  split; [exact E|]. split; [exact E'|]. split; [rewrite C49_prediction by (try reflexivity; apply W); reflexivity|]. split; [rewrite C49_prediction by (try reflexivity; apply W); reflexivity|].
  unfold linear_fun. cbn. lra.
Qed.
Print Assumptions C67_ridge_refuted.

(** Temperatures in degrees Fahrenheit, lengths in centimetres. *)
Definition f_units : nat -> R := fun j => match j with O => 9 / 5 | _ => 100 end.
Definition f_shift : nat -> R := fun j => match j with O => 32 | _ => 0 end.
Definition celsius : list (list R) := [[0; 1]; [10; 2]; [20; 5]].
Lemma celsius_ok : width 2 celsius /\ (forall j, 0 < f_units j) /\ (forall j, (j < 2)%nat -> f_units j <> 0).
Proof. split; [intros r [<-|[<-|[<-|[]]]]; reflexivity|]. split; [intros [|j]; cbn; lra|intros [|j] _; cbn; lra]. Qed.
Example C67_case : in_units f_units f_shift celsius = [[32; 100]; [50; 200]; [68; 500]] /\
  classify Gini (Params 2%nat 1%nat 5%nat 0) 2 (in_units f_units f_shift celsius) (map (fun v => 2 * v - 1) [0; 1; 1]) (in_units f_units f_shift [[4; 1]]) =
  classify Gini (Params 2%nat 1%nat 5%nat 0) 2 celsius [0; 1; 1] [[4; 1]] /\
  (exists w w', linear_fit true 2 celsius [1; 2; 4] = Ok (Some w) /\ linear_fit true 2 (in_units f_units f_shift celsius) [1; 2; 4] = Ok (Some w') /\
     predict_label true w' 2 (in_units f_units f_shift [[5; 5]]) = predict_label true w 2 [[5; 5]]).
Proof.
  destruct celsius_ok as (HW & Ha & Hn). split; [|split].
  - unfold in_units, celsius, convert, units, f_units, f_shift. cbn. repeat f_equal; field.
  - apply C67_classifier; [exact Ha|]. intros u v H. lra.
  - destruct (C67_least_squares 2 f_units f_shift celsius [1; 2; 4] Hn HW eq_refl) as (HS & HPr).
    assert (HI : independent true 2 celsius).
    { intros w Lw Hz. destruct w as [|w0 [|w1 [|w2 [|]]]]; cbn in Lw; try discriminate. unfold celsius in Hz.
      pose proof (Hz _ (or_introl eq_refl)) as Z1. pose proof (Hz _ (or_intror (or_introl eq_refl))) as Z2. pose proof (Hz _ (or_intror (or_intror (or_introl eq_refl)))) as Z3.
      unfold linear_fun in Z1, Z2, Z3. cbn in Z1, Z2, Z3. cbn. repeat f_equal; lra. }
    destruct (C48_linear true 2 celsius [1; 2; 4] HW eq_refl HI) as (w & E & _).
    pose proof (@fit_units f_units f_shift 2 Hn celsius [1; 2; 4] HW eq_refl) as F. rewrite E in F. fold (in_units f_units f_shift celsius) in F.
    destruct (linear_fit true 2 (in_units f_units f_shift celsius) [1; 2; 4]) as [[w'|]| | |] eqn:E'; try contradiction.
    exists w, w'. split; [exact E|]. split; [reflexivity|]. apply (HPr w w' [[5; 5]] E eq_refl). intros r [<-|[]]; reflexivity.
Qed.
