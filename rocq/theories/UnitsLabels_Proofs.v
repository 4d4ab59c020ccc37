(** Decision trees when the labels are renamed increasingly or the targets moved. *)
From Coq Require Import Reals Lra QArith.
From Verif Require Import Base Sorting Common_Model Tree_Model Tree_Proofs TreeReal_Proofs Impurity_Model KDReal_Proofs KDHom_Proofs Stats_Proofs Loss_Proofs Impurity_Spec Impurity_Proofs Gain_Spec Gain_Proofs Units_Spec Units_Proofs.
Set Implicit Arguments.

Section OM.
  Variables (K V V' : Type) (cmp : K -> K -> comparison) (psi : K -> K).
  Hypothesis Hcmp : forall a b, cmp (psi a) (psi b) = cmp a b.
  Definition hpair (p : K * V) : K * V := (psi (fst p), snd p).
  Lemma om_find_hom k (m : list (K * V)) : om_find cmp (psi k) (map hpair m) = om_find cmp k m.
  Proof. induction m as [|(k', v) m IH]; cbn; [reflexivity|]. rewrite Hcmp, IH. reflexivity. Qed.
  Lemma om_set_hom k v (m : list (K * V)) : om_set cmp (psi k) v (map hpair m) = map hpair (om_set cmp k v m).
  Proof. induction m as [|(k', v') m IH]; cbn; [reflexivity|]. rewrite Hcmp. destruct (cmp k k'); cbn; try reflexivity. now rewrite IH. Qed.
End OM.

Section Labels.
  Variable T : Type.
  Variable ltb : T -> T -> bool.
  Variable psi : T -> T.
  Hypothesis Hlt : forall a b, ltb (psi a) (psi b) = ltb a b.
  Lemma cmp_hom a b : cmp_of ltb (psi a) (psi b) = cmp_of ltb a b.
  Proof. unfold cmp_of. now rewrite !Hlt. Qed.
  Lemma counts_hom y : forall m, fold_left (count_label ltb) (map psi y) (map (hpair psi) m) = map (hpair psi) (fold_left (count_label ltb) y m).
  Proof.
    induction y as [|a y IH]; intros m; cbn [map fold_left]; [reflexivity|]. rewrite <- IH. f_equal. unfold count_label.
    rewrite (om_find_hom (cmp_of ltb) psi cmp_hom). apply (om_set_hom (cmp_of ltb) psi cmp_hom).
  Qed.
  Lemma weights_hom y : forall m, fold_left (push_weight ltb) (map (hpair psi) y) (map (hpair psi) m) = map (hpair psi) (fold_left (push_weight ltb) y m).
  Proof.
    induction y as [|a y IH]; intros m; cbn [map fold_left]; [reflexivity|]. rewrite <- IH. f_equal. unfold push_weight. cbn [hpair fst snd].
    rewrite (om_find_hom (cmp_of ltb) psi cmp_hom). apply (om_set_hom (cmp_of ltb) psi cmp_hom).
  Qed.
  Lemma combine_hpair {V} y : forall w : list V, combine (map psi y) w = map (hpair psi) (combine y w).
  Proof. induction y as [|a y IH]; intros [|b w]; cbn; try reflexivity. now rewrite IH. Qed.
  Lemma class_probs_hom y w : class_probs ltb (map psi y) w = class_probs ltb y w.
  Proof.
    unfold class_probs. rewrite map_length. cbv zeta. set (ws := match w with [] => repeat 1%R (length y) | _ => w end).
    destruct (negb (length ws =? 0)%nat && negb (length ws =? length y)%nat); [reflexivity|]. f_equal.
    rewrite combine_hpair. change (@nil (T * nat)) with (map (@hpair T nat psi) []) at 1. change (@nil (T * list R)) with (map (@hpair T (list R) psi) []) at 1.
    rewrite counts_hom, weights_hom. generalize (fold_left (push_weight ltb) (combine y ws) []). generalize (fold_left (count_label ltb) y []).
    induction l as [|(k, n) l IH]; intros [|(k', v) l']; cbn; try reflexivity. now rewrite IH.
  Qed.
  Lemma class_gain_hom c y l r : class_gain ltb c (map psi y) (map psi l) (map psi r) = class_gain ltb c y l r.
  Proof. unfold class_gain, gini, entropy. rewrite !class_probs_hom, !map_length. reflexivity. Qed.
  Lemma class_value_hom labels y : class_value ltb (map (hpair psi) labels) (map psi y) = class_value ltb labels y.
  Proof.
    unfold class_value.
    assert (E : fold_left (count_label ltb) (map psi y) [] = map (hpair psi) (fold_left (count_label ltb) y [])) by (apply (counts_hom y [])).
    rewrite E, map_map. cbn [hpair fst].
    rewrite (map_ext (fun x => match om_find (cmp_of ltb) (psi (fst x)) (map (hpair psi) (fold_left (count_label ltb) y [])) with Some c => c | None => 0%nat end)
      (fun x => match om_find (cmp_of ltb) (fst x) (fold_left (count_label ltb) y []) with Some c => c | None => 0%nat end)); [reflexivity|].
    intros x. now rewrite (om_find_hom (cmp_of ltb) psi cmp_hom).
  Qed.
  Lemma fit_labels_hom labels (X X' : list (list T)) y : length X' = length X ->
    fit_labels ltb (map (hpair psi) labels) X' (map psi y) = omap (map (hpair psi)) (fit_labels ltb labels X y).
  Proof.
    intros H. unfold fit_labels. rewrite H. rewrite (mapM_hom' psi (vget y)) by (intros; apply vget_hom). apply bind_hom. intros ys. cbn [omap]. now rewrite counts_hom.
  Qed.
End Labels.

Local Open Scope R_scope.
Lemma Rsum_shift t l : Rsum (map (fun v => v + t) l) = Rsum l + INR (length l) * t.
Proof.
  rewrite !Rsum_total. induction l as [|a l IH]; [cbn; ring|]. change (total (map (fun v => v + t) (a :: l))) with ((a + t) + total (map (fun v => v + t) l)).
  change (total (a :: l)) with (a + total l). rewrite IH. change (length (a :: l)) with (S (length l)). rewrite S_INR. ring.
Qed.
Lemma mean_vec_shift t y : mean_vec (map (fun v => v + t) y) = omap (fun m => m + t) (mean_vec y).
Proof.
  unfold mean_vec. destruct y as [|a y]; [reflexivity|]. cbn [map omap]. f_equal. change (a + t :: map (fun v => v + t) y) with (map (fun v => v + t) (a :: y)).
  rewrite Rsum_shift, map_length. field. change (INR (length (a :: y)) <> 0). apply not_0_INR. discriminate.
Qed.
Lemma var_vec_shift t y : var_vec (map (fun v => v + t) y) = var_vec y.
Proof.
  destruct y as [|a y]; [reflexivity|]. assert (H : a :: y <> []) by discriminate. set (l := a :: y) in *. rewrite !var_vec_sse by (unfold l; discriminate).
  rewrite map_length. do 2 f_equal. unfold sse, mean_of. rewrite !map_length, map_map.
  assert (E : total (map (fun v => v + t) l) = total l + INR (length l) * t) by (rewrite <- !Rsum_total; apply Rsum_shift).
  rewrite E. f_equal. apply map_ext. intros v. assert (INR (length l) <> 0) by (apply not_0_INR; discriminate). field. assumption.
Qed.
Lemma reg_gain_shift c t y l r : reg_gain c (map (fun v => v + t) y) (map (fun v => v + t) l) (map (fun v => v + t) r) = reg_gain c y l r.
Proof. unfold reg_gain. rewrite !var_vec_shift, !map_length. reflexivity. Qed.
Lemma reg_value_shift ms t y : reg_value ms (map (fun v => v + t) y) = omap (hstop (fun m => m + t)) (reg_value ms y).
Proof.
  unfold reg_value. rewrite mean_vec_shift. apply bind_hom. intros m. cbn [omap hstop fst snd]. rewrite map_map, map_length.
  rewrite (map_ext (fun x => (x + t - (m + t)) * (x + t - (m + t))) (fun v => (v - m) * (v - m))); [reflexivity|]. intros. ring.
Qed.
