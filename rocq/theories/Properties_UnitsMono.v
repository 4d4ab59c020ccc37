(** C67, continued: decision trees under any increasing maps of the features. *)
From Coq Require Import Reals Lra QArith.
From Verif Require Import Base Sorting Common_Model Tree_Model Tree_Spec Tree_Proofs TreeReal_Proofs KDReal_Proofs KDHom_Proofs Impurity_Model Units_Spec Units_Proofs
  UnitsLabels_Proofs UnitsMono_Proofs UnitsCase_Proofs Properties_Units.
Local Open Scope R_scope.

(** Classification: trees alike but for the thresholds, and the same answers on the training rows. *)
Theorem C67_monotone_classifier : forall c P nf phi psi X y, (forall j, increasing (phi j)) -> increasing psi ->
  same_outcome (fun m m' => alike eq (snd m) (snd m')) (classifier_fit c P nf [] X y) (classifier_fit c P nf [] (map (convert phi) X) (map psi y)) /\
  forall rows, (forall r, In r rows -> In r X) -> classify c P nf (map (convert phi) X) (map psi y) (map (convert phi) rows) = classify c P nf X y rows.
Proof.
  intros c P nf phi psi X y Hphi Hpsi. assert (Hl := increasing_Rltb psi Hpsi). unfold classify, classifier_fit.
  assert (E := fit_labels_hom Rltb psi Hl [] X (map (convert phi) X) y (map_length _ _)). cbn [map] in E. rewrite E. clear E.
  destruct (fit_labels Rltb [] X y) as [labels| | |]; cbn [bind omap]; try (split; [reflexivity|]; reflexivity).
  assert (HG := @grow_mono phi Hphi psi (class_gain Rltb c) (class_gain Rltb c) (class_gain_hom Rltb psi Hl c) _ _ eq
    (class_value Rltb labels) (class_value Rltb (map (hpair psi) labels))
    ltac:(intros y'; rewrite (class_value_hom Rltb psi Hl); apply orel_refl; auto) nf P X y).
  destruct (grow Rltb Rmid Rgtb dbl_min (class_gain Rltb c) (class_value Rltb labels) nf P X y) as [t| | |];
    destruct (grow Rltb Rmid Rgtb dbl_min (class_gain Rltb c) (class_value Rltb (map (hpair psi) labels)) nf P (map (convert phi) X) (map psi y)) as [t'| | |];
    try contradiction HG; cbn [bind same_outcome snd]; try (split; [exact HG|]; reflexivity).
  - destruct HG as (HA & HWk). split; [exact HA|]. intros rows Hr.
    assert (E : predict_prob Rltb t' (map (convert phi) rows) = predict_prob Rltb t rows).
    { unfold predict_prob. induction rows as [|r rows IH]; [reflexivity|]. cbn [map mapM]. rewrite IH by (intros; apply Hr; now right). specialize (HWk r (Hr r (or_introl eq_refl))).
      destruct (walk Rltb t r) as [i| | |]; destruct (walk Rltb t' (convert phi r)) as [i'| | |]; try contradiction HWk; cbn [bind]; try reflexivity; [|now rewrite HWk].
      destruct HWk as (_ & <- & _). reflexivity. }
    unfold predict_class. now rewrite E.
  - split; [exact HG|]. intros. now rewrite HG.
Qed.
Print Assumptions C67_monotone_classifier.
(** Regression. *)
Theorem C67_monotone_regressor : forall c min_stdev P nf phi t X y, (forall j, increasing (phi j)) ->
  same_outcome (alike (fun v v' => v' = v + t)) (regressor_fit c min_stdev P nf X y) (regressor_fit c min_stdev P nf (map (convert phi) X) (map (fun v => v + t) y)) /\
  forall rows, (forall r, In r rows -> In r X) ->
    same_outcome (fun p p' => p' = map (fun v => v + t) p) (regress c min_stdev P nf X y rows)
      (regress c min_stdev P nf (map (convert phi) X) (map (fun v => v + t) y) (map (convert phi) rows)).
Proof.
  intros c ms P nf phi t X y Hphi. unfold regress, regressor_fit.
  assert (HG := @grow_mono phi Hphi (fun v => v + t) (reg_gain c) (reg_gain c) (reg_gain_shift c t) _ _ (fun v v' => v' = v + t) (reg_value ms) (reg_value ms)
    ltac:(intros y'; rewrite reg_value_shift; destruct (reg_value ms y') as [(? & ?)| | |]; cbn; auto) nf P X y).
  destruct (grow Rltb Rmid Rgtb dbl_min (reg_gain c) (reg_value ms) nf P X y) as [tr| | |];
    destruct (grow Rltb Rmid Rgtb dbl_min (reg_gain c) (reg_value ms) nf P (map (convert phi) X) (map (fun v => v + t) y)) as [tr'| | |];
    try contradiction HG; cbn [bind same_outcome]; try (split; [exact HG|]; intros; exact HG).
  destruct HG as (HA & HWk). split; [exact HA|]. intros rows Hr. unfold regressor_predict. induction rows as [|r rows IH]; [reflexivity|]. cbn [map mapM].
  specialize (IH (fun r0 H => Hr r0 (or_intror H))). specialize (HWk r (Hr r (or_introl eq_refl))).
  destruct (walk Rltb tr r) as [i| | |]; destruct (walk Rltb tr' (convert phi r)) as [i'| | |]; try contradiction HWk; cbn [bind same_outcome]; try exact HWk.
  destruct HWk as (_ & Ev & _).
  eapply orel_bind; [exact IH|]. intros p p' _ _ ->. cbn [same_outcome map]. now rewrite Ev.
Qed.
Print Assumptions C67_monotone_regressor.

(** The thresholds are halfway between observations, so for rows that were not in the training data the maps do matter. *)
Lemma three_classes a b c x : a < b -> b < c ->
  exists p, classify Gini (Params 2%nat 0%nat 0%nat 0) 1 [[a];[b];[c]] [0;0;1] [[x]] = Ok (p, [if Rltb (Rmid b c) x then 1%nat else 0%nat]).
Proof.
  intros H1 H2. unfold classify. rewrite three_fit by assumption. cbn [bind]. unfold predict_class, predict_prob. cbn [mapM walk n_split vget nth_error bind].
  unfold leb. destruct (Rltb (Rmid b c) x); cbn; eexists; reflexivity.
Qed.
Lemma cube_increasing (j : nat) : increasing (fun x => x * x * x).
Proof.
  intros u v H. assert (0 < (v - u) * ((v - u) * (v - u) + 3 * ((u + v) * (u + v)))).
  { apply Rmult_lt_0_compat; [lra|]. pose proof (Rle_0_sqr (u + v)) as H1. unfold Rsqr in H1. assert (0 < (v - u) * (v - u)) by (apply Rmult_lt_0_compat; lra). lra. }
  lra.
Qed.
Theorem C67_unseen_refuted : exists phi X y q p p', (forall j, increasing (phi j)) /\
  classify Gini (Params 2%nat 0%nat 0%nat 0) 1 X y [q] = Ok (p, [1%nat]) /\
  classify Gini (Params 2%nat 0%nat 0%nat 0) 1 (map (convert phi) X) y [convert phi q] = Ok (p', [0%nat]).
Proof.
  destruct (three_classes 0 2 10 7) as (p & E); [lra|lra|]. destruct (three_classes (0 * 0 * 0) (2 * 2 * 2) (10 * 10 * 10) (7 * 7 * 7)) as (p' & E'); [lra|lra|].
  exists (fun _ x => x * x * x), [[0]; [2]; [10]], [0; 0; 1], [7], p, p'. split; [|split].
  - exact cube_increasing.
  - rewrite E. unfold Rmid. replace (Rltb ((2 + 10) / 2) 7) with true; [reflexivity|]. symmetry. apply Rltb_true. lra.
  - unfold convert. cbn [map length seq combine fst snd]. rewrite E'. unfold Rmid. replace (Rltb _ _) with false; [reflexivity|]. symmetry. apply Rltb_false. lra.
Qed.
Print Assumptions C67_unseen_refuted.
Example C67_monotone_case :
  classify Gini (Params 2%nat 0%nat 0%nat 0) 1 (map (convert (fun _ x => x * x * x)) [[0]; [2]; [10]]) (map (fun v => v + 5) [0; 0; 1]) (map (convert (fun _ x => x * x * x)) [[10]; [0]]) =
  classify Gini (Params 2%nat 0%nat 0%nat 0) 1 [[0]; [2]; [10]] [0; 0; 1] [[10]; [0]].
Proof.
  apply (C67_monotone_classifier Gini (Params 2%nat 0%nat 0%nat 0) 1 (fun _ x => x * x * x) (fun v => v + 5) [[0]; [2]; [10]] [0; 0; 1]).
  - exact cube_increasing.
  - intros u v H. lra.
  - intros r [<-|[<-|[]]]; cbn; tauto.
Qed.
