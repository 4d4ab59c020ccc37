(** C60: how well a fitted tree fits the data it was fitted on. *)
From Coq Require Import Reals Lra QArith.
From Verif Require Import Base Tree_Model Tree_Spec Tree_Proofs KDReal_Proofs Impurity_Model Impurity_Spec Impurity_Proofs TreeReal_Proofs TreeFit_Spec TreeFit_Proofs Properties_Tree.
Local Open Scope R_scope.

(** A fitted classifier (minimum leaf size 0, the default) classifies its training rows, and no
    assignment of labels that is constant on the leaves gets more training rows right. *)
Theorem C60_classifier :
  forall c P nf X y labels t, matrix nf X -> length y = length X ->
    classifier_fit c P nf [] X y = Ok (labels, t) -> min_samples_leaf P = 0%nat ->
    exists ks, predict_class Rltb t X = Ok ks /\
      forall guess : list R -> R,
        (forall x x', In x X -> In x' X -> same_leaf t x x' -> guess x = guess x') ->
        (hits (map guess X) y <= hits (map (fun k => nth k (map fst labels) 0%R) ks) y)%nat.
Proof.
  intros c P nf X y labels t HM Hl E Hm. pose proof (C24_classifier _ _ _ _ _ _ _ HM Hl E) as (HL & _ & HC). pose proof E as E0.
  unfold classifier_fit in E. rewrite fit_labels_spec in E by assumption. cbn [bind] in E.
  destruct (grow _ _ _ _ _ _ _ _ _ _) as [t'| | |] eqn:Eg; cbn [bind] in E; try discriminate. injection E as E1 E2. subst t'.
  assert (HB : forall k i l r, node_at t k = Node i l r -> l = Null -> r = Null).
  { intros k i l r Hk ->. destruct (C24_structure _ _ _ _ _ _ _ _ _ _ _ _ _ _ Rltb_order Rgtb_order HM Hl Eg) as (_ & Hs).
    specialize (Hs k i Null r Hk). cbn zeta in Hs. destruct Hs as (_ & _ & stop & _ & Hs).
    destruct (n_split i) as [[[f th] g]|]; [|tauto]. destruct Hs as (_ & _ & _ & _ & _ & _ & H & _). exfalso. apply (proj2 H); [lia|reflexivity]. }
  assert (HW : forall e, In e (combine X y) -> exists i, walk Rltb t (fst e) = Ok i).
  { intros (x & b) He. apply in_combine_l in He. destruct (C25_total _ _ _ _ _ _ _ _ _ _ _ _ _ _ _ Rltb_order Rgtb_order HM Hl Eg Hm (HM x He)) as (p & i & Ew & _). eauto. }
  set (pred := fun x => match walk Rltb t x with Ok i => match arg_best prob_gtb (probabilities (fst (n_value i))) with Ok k => k | _ => 0%nat end | _ => 0%nat end).
  assert (HG : forall p i r, node_at t p = Node i Null r -> rows_at Rltb t p (combine X y) <> [] ->
             exists k, arg_best prob_gtb (probabilities (fst (n_value i))) = Ok k /\
               forall c, (count_occ Req_EM_T (map snd (rows_at Rltb t p (combine X y))) c <= count_occ Req_EM_T (map snd (rows_at Rltb t p (combine X y))) (nth k (map fst labels) 0%R))%nat).
  { intros p i r Hp Hne. destruct (HC p i Null r Hp) as (_ & Hv & _). cbn zeta in Hv. set (ys := map snd _) in *. set (ls := map fst labels) in *.
    assert (Inc : incl ys y). { intros u Hu. apply in_map_iff in Hu. destruct Hu as ((a & b) & <- & Hu). apply filter_In in Hu. destruct Hu as (Hu & _). now apply in_combine_r in Hu. }
    assert (Hy : exists u, In u ys) by (unfold ys; destruct (rows_at _ _ _ _) as [|e D]; [congruence|exists (snd e); now left]).
    destruct Hy as (u & Hu). assert (Hul : In u ls) by (apply HL, Inc, Hu).
    rewrite argmax_probabilities. rewrite Hv.
    assert (Hs : fold_right plus 0%nat (map (fun k => count_occ Req_EM_T ys k) ls) <> 0%nat).
    { apply (count_occ_In Req_EM_T) in Hu. clear - Hu Hul. induction ls as [|a ls IH]; [destruct Hul|]. cbn. destruct Hul as [->|Hul]; [lia|]. specialize (IH Hul). lia. }
    apply Nat.eqb_neq in Hs. rewrite Hs.
    destruct (@arg_best_spec (map (fun k => count_occ Req_EM_T ys k) ls)) as (k & Ek & m & Hk & Hmax); [destruct ls; [destruct Hul|discriminate]|].
    exists k. split; [exact Ek|]. intros w. rewrite nth_error_map in Hk. destruct (nth_error ls k) as [lk|] eqn:El; cbn in Hk; [|discriminate]. injection Hk as <-.
    rewrite (nth_error_nth _ _ _ El). destruct (in_dec Req_EM_T w ls) as [Hw|Hw].
    - apply In_nth_error in Hw. destruct Hw as (j & Hj). apply (Hmax j). rewrite nth_error_map, Hj. reflexivity.
    - rewrite (proj1 (count_occ_not_In Req_EM_T ys w)); [lia|]. intros Hy. apply Hw, HL, Inc, Hy. }
  assert (HX : forall x, In x X -> exists i, walk Rltb t x = Ok i /\ arg_best prob_gtb (probabilities (fst (n_value i))) = Ok (pred x)).
  { intros x Hx. rewrite <- (combine_fst X y Hl) in Hx. apply in_map_iff in Hx. destruct Hx as (e & <- & He). destruct (HW e He) as (i & Ei).
    exists i. split; [exact Ei|]. destruct (walk_leaf_path t (fst e) Ei) as (r & Hn & Hf).
    destruct (HG _ i r Hn) as (k & Ek & _).
    { intros Z. assert (In e (rows_at Rltb t (leaf_path t (fst e)) (combine X y))) as Hin by (apply filter_In; auto). rewrite Z in Hin. destruct Hin. }
    unfold pred. rewrite Ei, Ek. reflexivity. }
  exists (map pred X). split.
  { unfold predict_class, predict_prob. clear - HX. induction X as [|x X IH]; [reflexivity|]. destruct (HX x (or_introl eq_refl)) as (i & Ei & Ek).
    specialize (IH (fun z Hz => HX z (or_intror Hz))). cbn [mapM map]. rewrite Ei. cbn [bind].
    destruct (mapM _ X) as [ps| | |]; cbn [bind] in *; try discriminate. cbn [mapM]. rewrite Ek, IH. reflexivity. }
  intros guess Hg. apply INR_le. rewrite !hits_total by (rewrite !map_length; auto). rewrite map_map, !combine_map_l, !map_map. cbn [fst snd].
  apply (leaf_groups t _ _ _ HW). intros p i r Hp Hne HA. destruct (HG p i r Hp Hne) as (k & Ek & Hmax).
  set (D := rows_at Rltb t p (combine X y)) in *. destruct D as [|e0 D0] eqn:ED; [congruence|]. rewrite <- ED in *.
  assert (He0 : In e0 D) by (rewrite ED; now left).
  assert (HinX : forall e, In e D -> In (fst e) X). { intros (a & b) He. apply filter_In in He. destruct He as (He & _). now apply in_combine_l in He. }
  rewrite (map_ext_in _ (fun e => if Req_EM_T (guess (fst e0)) (snd e) then 1 else 0)).
  2: { intros e He. rewrite (Hg (fst e) (fst e0)); auto. apply leaf_same; [exact HB|]. destruct (HA e He) as (_ & ->). destruct (HA e0 He0) as (_ & ->). reflexivity. }
  rewrite (map_ext_in (fun x : list R * R => if Req_EM_T (nth (pred (fst x)) (map fst labels) 0%R) (snd x) then 1 else 0) (fun e => if Req_EM_T (nth k (map fst labels) 0%R) (snd e) then 1 else 0)).
  2: { intros e He. unfold pred. destruct (HA e He) as (-> & _). rewrite Ek. reflexivity. }
  rewrite <- !(map_map snd (fun y => if Req_EM_T _ y then 1 else 0)), !total_count. apply le_INR, Hmax.
Qed.
Print Assumptions C60_classifier.

(** In particular the tree gets at least as many training rows right as answering one label for
    every row. *)
Theorem C60_majority :
  forall c P nf X y labels t, matrix nf X -> length y = length X ->
    classifier_fit c P nf [] X y = Ok (labels, t) -> min_samples_leaf P = 0%nat ->
    exists ks, predict_class Rltb t X = Ok ks /\
      forall label, (count_occ Req_EM_T y label <= hits (map (fun k => nth k (map fst labels) 0%R) ks) y)%nat.
Proof.
  intros c P nf X y labels t HM Hl E Hm. destruct (C60_classifier _ _ _ _ _ _ _ HM Hl E Hm) as (ks & Ek & H). exists ks. split; [exact Ek|].
  intros label. eapply Nat.le_trans; [|apply (H (fun _ => label)); auto]. apply Nat.eq_le_incl, INR_eq.
  rewrite hits_total, combine_map_l, map_map by (rewrite map_length; auto). cbn [fst snd].
  rewrite <- (map_map snd (fun v => if Req_EM_T label v then 1 else 0)), combine_snd by assumption. symmetry. apply total_count.
Qed.
Print Assumptions C60_majority.

(** A fitted regressor (minimum leaf size 0 or 1) predicts its training rows, and no assignment of
    values that is constant on the leaves has a smaller sum of squared errors. *)
Theorem C60_regressor :
  forall c ms P nf X y t, matrix nf X -> length y = length X ->
    regressor_fit c ms P nf X y = Ok t -> (min_samples_leaf P <= 1)%nat ->
    exists vs, regressor_predict t X = Ok vs /\
      forall guess : list R -> R,
        (forall x x', In x X -> In x' X -> same_leaf t x x' -> guess x = guess x') ->
        squared_errors vs y <= squared_errors (map guess X) y.
Proof.
  intros c ms P nf X y t HM Hl E Hm. pose proof E as Eg. unfold regressor_fit in Eg.
  destruct (C24_structure _ _ _ _ _ _ _ _ _ _ _ _ _ _ Rltb_order Rgtb_order HM Hl Eg) as (_ & Hs).
  assert (HB : forall k i l r, node_at t k = Node i l r -> l = Null -> r = Null).
  { intros p i l r Hp ->. specialize (Hs p i Null r Hp). cbn zeta in Hs. destruct Hs as (_ & _ & stop & _ & Hs).
    destruct (n_split i) as [[[f th] g]|] eqn:Es; [|tauto]. destruct Hs as (_ & _ & _ & Hf & _ & _ & H & _). exfalso. apply (proj2 H); [|reflexivity].
    destruct Hf as (_ & _ & Hg & _). unfold gain_at in Hg.
    assert (Hr : left_targets Rltb (rows_at Rltb t p (combine X y)) f th <> []).
    { intros Hr. rewrite Hr in Hg. unfold reg_gain in Hg. destruct c; [| |discriminate].
      - destruct (var_vec _); [cbn in Hg; discriminate|discriminate..].
      - cbn [length Nat.eqb] in Hg. rewrite andb_false_r in Hg. discriminate. }
    assert (El : (length (left_targets Rltb (rows_at Rltb t p (combine X y)) f th) = length (rows_at Rltb t (p ++ [true]) (combine X y)))%nat).
    { unfold left_targets. rewrite map_length. clear - Hp Es. revert t Hp. generalize (combine X y).
      induction p as [|b p IH]; intros D t Hp.
      - cbn in Hp. subst t. destruct i as [n v s]. cbn in Es. subst s. cbn [app]. rewrite rows_at_left, !rows_at_nil. reflexivity.
      - rewrite node_at_cons in Hp. destruct t as [|i0 l0 r0]; [cbn [child] in Hp; rewrite node_at_null in Hp; discriminate|].
        destruct i0 as [n0 v0 [[[f0 t0] g0]|]].
        + cbn [app]. destruct b; cbn [child] in Hp; rewrite ?rows_at_left, ?rows_at_right; now apply IH.
        + assert (Z : forall q, rows_at Rltb (Node (Info n0 v0 None) l0 r0) (b :: q) D = []).
          { intros q. unfold rows_at. cbn. clear. induction D; auto. }
          cbn [app]. rewrite !Z. reflexivity. }
    rewrite <- El. destruct (left_targets _ _ _ _); [congruence|]. cbn [length]. lia. }
  assert (HWX : forall x, In x X -> exists i, walk Rltb t x = Ok i).
  { intros x Hx. destruct (C26_total _ _ _ _ _ _ _ _ HM Hl E Hm (HM x Hx)) as (v & Hv). unfold regressor_predict in Hv. cbn [mapM] in Hv.
    destruct (walk Rltb t x) as [i| | |]; try discriminate. eauto. }
  assert (HW : forall e, In e (combine X y) -> exists i, walk Rltb t (fst e) = Ok i).
  { intros (x & b) He. apply in_combine_l in He. now apply HWX. }
  set (pred := fun x => match walk Rltb t x with Ok i => n_value i | _ => 0 end).
  exists (map pred X). split.
  { unfold regressor_predict. apply mapM_Ok. intros x Hx. destruct (HWX x Hx) as (i & Ei). unfold pred. rewrite Ei. reflexivity. }
  intros guess Hg. unfold squared_errors. rewrite !combine_map_l, !map_map. cbn [fst snd].
  apply (leaf_groups t _ _ _ HW). intros p i r Hp Hne HA. specialize (Hs p i Null r Hp). cbn zeta in Hs. destruct Hs as (_ & _ & stop & Hv & _).
  apply reg_value_inv in Hv. destruct Hv as (Hy & Hv).
  set (D := rows_at Rltb t p (combine X y)) in *. destruct D as [|e0 D0] eqn:ED; [congruence|]. rewrite <- ED in *.
  assert (He0 : In e0 D) by (rewrite ED; now left).
  assert (HinX : forall e, In e D -> In (fst e) X). { intros (a & b) He. apply filter_In in He. destruct He as (He & _). now apply in_combine_l in He. }
  rewrite (map_ext_in _ (fun e => (n_value i - snd e) * (n_value i - snd e))).
  2: { intros e He. unfold pred. destruct (HA e He) as (-> & _). reflexivity. }
  rewrite (map_ext_in (fun x : list R * R => (guess (fst x) - snd x) * (guess (fst x) - snd x)) (fun e => (guess (fst e0) - snd e) * (guess (fst e0) - snd e))).
  2: { intros e He. rewrite (Hg (fst e) (fst e0)); auto. apply leaf_same; [exact HB|]. destruct (HA e He) as (_ & ->). destruct (HA e0 He0) as (_ & ->). reflexivity. }
  rewrite <- (map_map snd (fun v => (n_value i - v) * (n_value i - v))), <- (map_map snd (fun v => (guess (fst e0) - v) * (guess (fst e0) - v))).
  rewrite Hv. apply mean_best. exact Hy.
Qed.
Print Assumptions C60_regressor.

(** In particular the tree's squared error on the training data is at most that of any constant. *)
Theorem C60_constant :
  forall c ms P nf X y t, matrix nf X -> length y = length X ->
    regressor_fit c ms P nf X y = Ok t -> (min_samples_leaf P <= 1)%nat ->
    exists vs, regressor_predict t X = Ok vs /\ forall a, squared_errors vs y <= total (map (fun v => (a - v) * (a - v)) y).
Proof.
  intros c ms P nf X y t HM Hl E Hm. destruct (C60_regressor _ _ _ _ _ _ _ HM Hl E Hm) as (vs & Ev & H). exists vs. split; [exact Ev|].
  intros a. eapply Rle_trans; [apply (H (fun _ => a)); auto|]. unfold squared_errors. rewrite combine_map_l, map_map. cbn [fst snd].
  rewrite <- (map_map snd (fun v => (a - v) * (a - v))), combine_snd by assumption. lra.
Qed.
Print Assumptions C60_constant.

(** Raising max_depth alone never makes the fit to the training data worse. *)
Theorem C60_deeper_classifier :
  forall c mss md d1 d2 nf X y labels1 labels2 t1 t2, matrix nf X -> length y = length X -> (d1 <= d2)%nat ->
    classifier_fit c (Params mss 0 d1 md) nf [] X y = Ok (labels1, t1) -> classifier_fit c (Params mss 0 d2 md) nf [] X y = Ok (labels2, t2) ->
    labels1 = labels2 /\
    exists ks1 ks2, predict_class Rltb t1 X = Ok ks1 /\ predict_class Rltb t2 X = Ok ks2 /\
      (hits (map (fun k => nth k (map fst labels1) 0%R) ks1) y <= hits (map (fun k => nth k (map fst labels2) 0%R) ks2) y)%nat.
Proof.
  intros c mss md d1 d2 nf X y labels1 labels2 t1 t2 HM Hl Hd E1 E2.
  destruct (C60_classifier _ _ _ _ _ _ _ HM Hl E1 eq_refl) as (ks1 & K1 & _). destruct (C60_classifier _ _ _ _ _ _ _ HM Hl E2 eq_refl) as (ks2 & K2 & H).
  unfold classifier_fit in E1, E2. rewrite fit_labels_spec in E1, E2 by assumption. cbn [bind] in E1, E2.
  destruct (grow _ _ _ _ _ _ _ (Params mss 0 d1 md) _ _) as [t1'| | |] eqn:G1; cbn [bind] in E1; try discriminate. injection E1 as E1 ->.
  destruct (grow _ _ _ _ _ _ _ (Params mss 0 d2 md) _ _) as [t2'| | |] eqn:G2; cbn [bind] in E2; try discriminate. injection E2 as E2 ->.
  split; [congruence|]. exists ks1, ks2. split; [exact K1|]. split; [exact K2|].
  pose proof (build_pruned _ _ _ _ _ _ _ _ Hd _ _ _ _ _ G1 G2) as Hp.
  set (pred := fun x => match walk Rltb t1 x with Ok i => match arg_best prob_gtb (probabilities (fst (n_value i))) with Ok k => nth k (map fst labels1) 0 | _ => 0 end | _ => 0 end).
  assert (Ep : map (fun k => nth k (map fst labels1) 0%R) ks1 = map pred X).
  { clear - K1. unfold predict_class, predict_prob in K1. revert ks1 K1. induction X as [|x X IH]; intros ks1 K1; [injection K1 as <-; reflexivity|].
    cbn [mapM map] in *. unfold pred at 1. destruct (walk Rltb t1 x) as [i| | |]; cbn [bind] in K1; try discriminate.
    destruct (mapM _ X) as [ps| | |]; cbn [bind mapM] in *; try discriminate. destruct (arg_best _ _) as [k| | |]; cbn [bind] in K1; try discriminate.
    destruct (mapM _ ps) as [ks| | |]; cbn [bind] in K1; try discriminate. injection K1 as <-. cbn [map]. f_equal. now apply IH. }
  rewrite Ep. apply H. intros x x' Hx Hx' HS. apply (pruned_same_leaf Hp) in HS.
  destruct (C25_total _ _ _ _ _ _ _ _ _ _ _ _ _ _ _ Rltb_order Rgtb_order HM Hl G1 eq_refl (HM x Hx)) as (p & i & Ew & _).
  destruct (C25_total _ _ _ _ _ _ _ _ _ _ _ _ _ _ _ Rltb_order Rgtb_order HM Hl G1 eq_refl (HM x' Hx')) as (p' & i' & Ew' & _).
  unfold pred. rewrite (same_leaf_walk Ew Ew' HS) in Ew. rewrite Ew, Ew'. reflexivity.
Qed.
Print Assumptions C60_deeper_classifier.
Theorem C60_deeper_regressor :
  forall c ms mss msl md d1 d2 nf X y t1 t2, matrix nf X -> length y = length X -> (d1 <= d2)%nat -> (msl <= 1)%nat ->
    regressor_fit c ms (Params mss msl d1 md) nf X y = Ok t1 -> regressor_fit c ms (Params mss msl d2 md) nf X y = Ok t2 ->
    exists vs1 vs2, regressor_predict t1 X = Ok vs1 /\ regressor_predict t2 X = Ok vs2 /\ squared_errors vs2 y <= squared_errors vs1 y.
Proof.
  intros c ms mss msl md d1 d2 nf X y t1 t2 HM Hl Hd Hm E1 E2.
  destruct (C60_regressor _ _ _ _ _ _ _ HM Hl E1 Hm) as (vs1 & V1 & _). destruct (C60_regressor _ _ _ _ _ _ _ HM Hl E2 Hm) as (vs2 & V2 & H).
  exists vs1, vs2. split; [exact V1|]. split; [exact V2|]. pose proof (build_pruned _ _ _ _ _ _ _ _ Hd _ _ _ _ _ E1 E2) as Hp.
  set (pred := fun x => match walk Rltb t1 x with Ok i => n_value i | _ => 0 end).
  assert (HWX : forall x, In x X -> exists i, walk Rltb t1 x = Ok i).
  { intros x Hx. destruct (C26_total _ _ _ _ _ _ _ _ HM Hl E1 Hm (HM x Hx)) as (v & Hv). unfold regressor_predict in Hv. cbn [mapM] in Hv.
    destruct (walk Rltb t1 x) as [i| | |]; try discriminate. eauto. }
  assert (Ep : vs1 = map pred X).
  { unfold regressor_predict in V1. rewrite (mapM_Ok _ pred) in V1; [congruence|]. intros x Hx. destruct (HWX x Hx) as (i & Ei). unfold pred. rewrite Ei. reflexivity. }
  rewrite Ep. apply H. intros x x' Hx Hx' HS. apply (pruned_same_leaf Hp) in HS.
  destruct (HWX x Hx) as (i & Ei). destruct (HWX x' Hx') as (i' & Ei'). unfold pred. rewrite (same_leaf_walk Ei Ei' HS) in Ei. rewrite Ei, Ei'. reflexivity.
Qed.
Print Assumptions C60_deeper_regressor.

(** Both kinds of tree can be fitted to four rows, with depth bounds 1 and 4; the classifier gets
    three or more of the four labels right, and the sum of squared errors of the regressor is at most 3. *)
Example C60_case :
  let X := [[1];[2];[3];[4]] in let y := [7;5;5;5] in
  (exists labels t1 t2, classifier_fit Gini (Params 3 0 1 0) 1 [] X y = Ok (labels, t1) /\ classifier_fit Gini (Params 3 0 4 0) 1 [] X y = Ok (labels, t2) /\
     exists ks, predict_class Rltb t1 X = Ok ks /\ (3 <= hits (map (fun k => nth k (map fst labels) 0%R) ks) y)%nat) /\
  (exists t1 t2, regressor_fit SquaredError (1/1000) (Params 3 1 1 0) 1 X y = Ok t1 /\ regressor_fit SquaredError (1/1000) (Params 3 1 4 0) 1 X y = Ok t2 /\
     exists vs, regressor_predict t1 X = Ok vs /\ squared_errors vs y <= 3).
Proof.
  intros X y. assert (HM : matrix 1 X) by (intros r [<- | [<- | [<- | [<- | []]]]]; reflexivity). assert (HL : length y = length X) by reflexivity. split.
  - destruct (C24_classifier_defined Gini (Params 3 0 1 0) 1 X y HM HL) as (labels & t1 & E1); [discriminate|discriminate|cbn; lia|].
    destruct (C24_classifier_defined Gini (Params 3 0 4 0) 1 X y HM HL) as (labels2 & t2 & E2); [discriminate|discriminate|cbn; lia|].
    destruct (C60_deeper_classifier _ _ _ 1%nat 4%nat _ _ _ _ _ _ _ HM HL ltac:(lia) E1 E2) as (<- & _).
    exists labels, t1, t2. split; [exact E1|]. split; [exact E2|]. destruct (C60_majority _ _ _ _ _ _ _ HM HL E1 eq_refl) as (ks & K & H).
    exists ks. split; [exact K|]. eapply Nat.le_trans; [|apply (H 5)]. cbn [count_occ y]. destruct (Req_EM_T 7 5); [lra|]. destruct (Req_EM_T 5 5); [lia|congruence].
  - assert (HD : forall f, (f < 1)%nat -> NoDup (map (fun r => nth_error r f) X)).
    { intros [|f] Hf; [|lia]. cbn. repeat constructor; cbn; intros H; repeat destruct H as [H|H]; try contradiction; injection H; lra. }
    destruct (C26_defined (1/1000) (Params 3 1 1 0) 1 X y HM HL) as (t1 & E1); [discriminate|cbn; lia|exact HD|].
    destruct (C26_defined (1/1000) (Params 3 1 4 0) 1 X y HM HL) as (t2 & E2); [discriminate|cbn; lia|exact HD|].
    exists t1, t2. split; [exact E1|]. split; [exact E2|]. destruct (C60_constant _ _ _ _ _ _ _ HM HL E1 (le_n 1)) as (vs & V & H).
    exists vs. split; [exact V|]. eapply Rle_trans; [apply (H (11/2))|]. cbn. lra.
Qed.

Example C60_all_case : let X := [[1];[2];[3];[4]] in let y := [7;5;5;5] in
  (exists labels t ks, classifier_fit Gini (Params 3 0 1 0) 1 [] X y = Ok (labels, t) /\ predict_class Rltb t X = Ok ks /\
     (hits (map (fun _ => 5%R) X) y <= hits (map (fun k => nth k (map fst labels) 0%R) ks) y)%nat) /\
  (exists t1 t2 vs1 vs2, regressor_fit SquaredError (1/1000) (Params 3 1 1 0) 1 X y = Ok t1 /\ regressor_fit SquaredError (1/1000) (Params 3 1 4 0) 1 X y = Ok t2 /\
     regressor_predict t1 X = Ok vs1 /\ regressor_predict t2 X = Ok vs2 /\ squared_errors vs2 y <= squared_errors vs1 y /\
     exists vs, regressor_predict t1 X = Ok vs /\ squared_errors vs y <= squared_errors (map (fun _ => 5%R) X) y).
Proof.
  destruct C60_case as ((labels & t1 & t2 & E1 & _) & (r1 & r2 & F1 & F2 & _)).
  assert (HM : matrix 1 [[1];[2];[3];[4]]) by (intros r [<-|[<-|[<-|[<-|[]]]]]; reflexivity).
  assert (HL : length [7;5;5;5] = length [[1];[2];[3];[4]]) by reflexivity. split.
  - destruct (C60_classifier _ _ _ _ _ _ _ HM HL E1 eq_refl) as (ks & K & H). exists labels, t1, ks. split; [exact E1|]. split; [exact K|]. apply H. reflexivity.
  - destruct (C60_deeper_regressor _ _ _ _ _ _ _ _ _ _ _ _ HM HL (le_S _ _ (le_S _ _ (le_S _ _ (le_n 1)))) (le_n 1) F1 F2) as (vs1 & vs2 & V1 & V2 & L).
    exists r1, r2, vs1, vs2. split; [exact F1|]. split; [exact F2|]. split; [exact V1|]. split; [exact V2|]. split; [exact L|].
    destruct (C60_regressor _ _ _ _ _ _ _ HM HL F1 (le_n 1)) as (vs & V & H). exists vs. split; [exact V|]. apply H. reflexivity.
Qed.
