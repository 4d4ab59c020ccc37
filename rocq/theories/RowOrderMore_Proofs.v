From Coq Require Import Reals Lra Lia FunctionalExtensionality.
From Verif Require Import Base Sorting Common_Model RDR_Proofs KDReal_Proofs Impurity_Model Impurity_Spec Impurity_Proofs Vec MathFun_Model Stats_Model
  Loss_Model Loss_Spec Loss_Proofs LossHinge_Proofs LossSoftmax_Proofs Shuffle_Model Shuffle_Proofs Optim_Model Optim_Spec NB_Model Linear_Model
  KMeans_Model KMeans_Spec KMeans_Proofs RowOrder_Spec RowOrder_Proofs.
Local Open Scope R_scope.
Set Implicit Arguments.

Lemma same_rows_X {A B} (X : list A) (y : list B) X' y' : same_rows X y X' y' -> Permutation X X'.
Proof. intros H. destruct (same_rows_pairs H) as (D & D' & -> & -> & -> & -> & HP). now apply Permutation_map. Qed.
Lemma same_rows_y {A B} (X : list A) (y : list B) X' y' : same_rows X y X' y' -> Permutation y y'.
Proof. intros H. destruct (same_rows_pairs H) as (D & D' & -> & -> & -> & -> & HP). now apply Permutation_map. Qed.
Lemma width_perm d X X' : Permutation X X' -> width d X -> width d X'.
Proof. intros H HW x Hx. apply HW. eapply Permutation_in; [symmetry; exact H|exact Hx]. Qed.
Lemma perm_nil_iff {A} (X X' : list A) : Permutation X X' -> X <> [] -> X' <> [].
Proof. intros H N ->. symmetry in H. apply Permutation_nil in H. auto. Qed.
Lemma map2_maps {A B C E} (f : B -> C -> E) (g : A -> B) (h : A -> C) l : map2 f (map g l) (map h l) = map (fun a => f (g a) (h a)) l.
Proof. induction l as [|a l IH]; simpl; congruence. Qed.
Lemma combine_self {A B} (D : list (A * B)) : combine (map fst D) (map snd D) = D.
Proof. induction D as [|(a, b) D IH]; simpl; congruence. Qed.

(** * Losses *)
Lemma glm_perm {T} (phi : T -> R -> R) c lambda X y X' y' W : same_rows X y X' y' -> glm phi c lambda X y W = glm phi c lambda X' y' W.
Proof.
  intros H. unfold glm, over_samples. rewrite (Permutation_length (same_rows_X H)). do 2 f_equal. apply total_perm, Permutation_map, H.
Qed.
Lemma glm_grad_perm {T} (phi : T -> R -> R) c lambda X y X' y' W : same_rows X y X' y' -> glm_grad phi c lambda X y W = glm_grad phi c lambda X' y' W.
Proof.
  intros H. unfold glm_grad. rewrite (Permutation_length (same_rows_X H)). do 2 f_equal.
  destruct (same_rows_pairs H) as (D & D' & -> & -> & -> & -> & HP). rewrite !map2_maps. apply vsum_perm. now apply Permutation_map.
Qed.
Lemma shapes_perm {T} X (y : list T) X' y' W : same_rows X y X' y' -> shapes X y W -> shapes X' y' W.
Proof.
  intros H (H1 & H2 & H3). pose proof (same_rows_X H) as HP. split; [exact (perm_nil_iff HP H1)|]. split; [exact (width_perm HP H2)|]. apply H.
Qed.
Lemma shapes_cases {T} d X (y : list T) X' y' W : width d X -> same_rows X y X' y' ->
  (X = [] /\ y = [] /\ X' = [] /\ y' = []) \/ (shapes X y W /\ shapes X' y' W) \/ (d <> length W /\ exists x X1 x' X1', X = x :: X1 /\ X' = x' :: X1' /\ length x = d /\ length x' = d).
Proof.
  intros HW H. pose proof (same_rows_X H) as HP. destruct X as [|x X1].
  - left. destruct H as (L & L' & H). destruct y; [|discriminate]. apply Permutation_nil in HP. subst. destruct y'; [auto|discriminate].
  - right. destruct (Nat.eq_dec d (length W)) as [->|Hne].
    + left. assert (HS : shapes (x :: X1) y W) by (split; [discriminate|]; split; [assumption|apply H]). split; [assumption|exact (shapes_perm H HS)].
    + right. split; [assumption|]. pose proof (width_perm HP HW) as HW'.
      assert (N : X' <> []) by (apply (perm_nil_iff HP); discriminate). destruct X' as [|x' X1']; [congruence|].
      exists x, X1, x', X1'. split; [reflexivity|]. split; [reflexivity|]. split; [apply HW; now left|apply HW'; now left].
Qed.
Lemma mv_UB x X W : length x <> length W -> mv (x :: X) W = UB.
Proof. intros H. unfold mv. cbn [mapM]. apply Nat.eqb_neq in H. now rewrite H. Qed.

Section Losses.
  Variables (d : nat) (lambda : R) (X X' : list (list R)) (y y' : list R).
  Hypothesis HW : width d X.
  Hypothesis H : same_rows X y X' y'.
  Lemma lens : length X = length X'.
  Proof. exact (Permutation_length (same_rows_X H)). Qed.
  Lemma mse_evaluate_perm W : mse_evaluate lambda X y W = mse_evaluate lambda X' y' W.
  Proof.
    destruct (shapes_cases W HW H) as [(-> & -> & -> & ->)|[(HS & HS')|(Hd & x & X1 & x' & X1' & -> & -> & L1 & L2)]].
    - reflexivity.
    - rewrite !mse_evaluate_glm by assumption. unfold mse_c. rewrite lens. now rewrite (glm_perm _ _ _ _ H).
    - unfold mse_evaluate. now rewrite !mv_UB by congruence.
  Qed.
  Lemma mse_gradient_perm W : mse_gradient lambda X y W = mse_gradient lambda X' y' W.
  Proof.
    destruct (shapes_cases W HW H) as [(-> & -> & -> & ->)|[(HS & HS')|(Hd & x & X1 & x' & X1' & -> & -> & L1 & L2)]].
    - reflexivity.
    - rewrite !mse_gradient_glm by assumption. unfold mse_c. rewrite lens. now rewrite (glm_grad_perm _ _ _ _ H).
    - unfold mse_gradient. now rewrite !mv_UB by congruence.
  Qed.
  Lemma log_evaluate_perm W : log_evaluate lambda X y W = log_evaluate lambda X' y' W.
  Proof.
    destruct (shapes_cases W HW H) as [(-> & -> & -> & ->)|[(HS & HS')|(Hd & x & X1 & x' & X1' & -> & -> & L1 & L2)]].
    - reflexivity.
    - rewrite !log_evaluate_glm by assumption. rewrite lens. now rewrite (glm_perm _ _ _ _ H).
    - unfold log_evaluate. now rewrite !mv_UB by congruence.
  Qed.
  Lemma log_gradient_perm W : log_gradient lambda X y W = log_gradient lambda X' y' W.
  Proof.
    destruct (shapes_cases W HW H) as [(-> & -> & -> & ->)|[(HS & HS')|(Hd & x & X1 & x' & X1' & -> & -> & L1 & L2)]].
    - reflexivity.
    - rewrite !log_gradient_glm by assumption. rewrite lens. now rewrite (glm_grad_perm _ _ _ _ H).
    - unfold log_gradient. now rewrite !mv_UB by congruence.
  Qed.
  Lemma hinge_evaluate_perm th W : hinge_evaluate lambda th X y W = hinge_evaluate lambda th X' y' W.
  Proof.
    destruct (shapes_cases W HW H) as [(-> & -> & -> & ->)|[(HS & HS')|(Hd & x & X1 & x' & X1' & -> & -> & L1 & L2)]].
    - reflexivity.
    - rewrite !hinge_evaluate_glm by assumption. now rewrite (glm_perm _ _ _ _ H).
    - unfold hinge_evaluate. now rewrite !mv_UB by congruence.
  Qed.
  Lemma hinge_gradient_perm th grad0 W : hinge_gradient grad0 lambda th X y W = hinge_gradient grad0 lambda th X' y' W.
  Proof.
    destruct (shapes_cases W HW H) as [(-> & -> & -> & ->)|[(HS & HS')|(Hd & x & X1 & x' & X1' & -> & -> & L1 & L2)]].
    - reflexivity.
    - destruct (Nat.eq_dec (length grad0) (length W)) as [E|E].
      + rewrite !hinge_gradient_glm by assumption. now rewrite (glm_grad_perm _ _ _ _ H).
      + assert (G : forall Z z, shapes Z z W -> hinge_gradient grad0 lambda th Z z W = UB).
        { clear - E. intros Z z HS. pose proof HS as (H1 & H2 & H3). unfold hinge_gradient. rewrite mv_ok by assumption. cbn [bind]. rewrite (cols_ok HS).
          destruct Z as [|x Z]; [congruence|]. destruct z as [|b z]; [discriminate|]. cbn [length seq foldM map]. unfold vget at 1 2 3. cbn [nth_error bind].
          assert (Hx : length x = length W) by (apply H2; now left). unfold add. rewrite zeros_length, vscale_length, Hx.
          apply Nat.eqb_neq in E. rewrite E. now destruct (Rltb _ _). }
        now rewrite !G by assumption.
    - unfold hinge_gradient. now rewrite !mv_UB by congruence.
  Qed.
  Lemma norm2_perm u v : Permutation u v -> norm2 u = norm2 v.
  Proof. intros HP. unfold norm2. f_equal. now apply Rsum_map_perm. Qed.
  Lemma huber_evaluate_perm delta W : huber_evaluate lambda delta X y W = huber_evaluate lambda delta X' y' W.
  Proof.
    destruct (shapes_cases W HW H) as [(-> & -> & -> & ->)|[(HS & HS')|(Hd & x & X1 & x' & X1' & -> & -> & L1 & L2)]].
    - reflexivity.
    - destruct HS as (S1 & S2 & S3), HS' as (S1' & S2' & S3'). unfold huber_evaluate. rewrite !mv_ok by assumption. cbn [bind].
      rewrite !sub_ok by (rewrite map_length; assumption). cbn [bind]. rewrite lens.
      assert (HP : Permutation (vsub y (map (fun x => dot x W) X)) (vsub y' (map (fun x => dot x W) X'))).
      { destruct (same_rows_pairs H) as (D & D' & -> & -> & -> & -> & HP). rewrite !map_map. unfold vsub. rewrite !map2_maps. now apply Permutation_map. }
      rewrite (norm2_perm HP), (Rsum_map_perm (fun a => Rabs (a - 1 / 2 * delta)) HP). reflexivity.
    - unfold huber_evaluate. now rewrite !mv_UB by congruence.
  Qed.
  Lemma huber_gradient_perm delta W : huber_gradient lambda delta X y W = huber_gradient lambda delta X' y' W.
  Proof.
    destruct (shapes_cases W HW H) as [(-> & -> & -> & ->)|[(HS & HS')|(Hd & x & X1 & x' & X1' & -> & -> & L1 & L2)]].
    - reflexivity.
    - pose proof HS as (S1 & S2 & S3). pose proof HS' as (S1' & S2' & S3'). unfold huber_gradient. rewrite !mv_ok by assumption. cbn [bind].
      rewrite !sub_ok by (rewrite map_length; auto). cbn [bind]. rewrite lens, (cols_ok HS), (cols_ok HS').
      assert (HP : Permutation (vsub y (map (fun x => dot x W) X)) (vsub y' (map (fun x => dot x W) X'))).
      { destruct (same_rows_pairs H) as (D & D' & -> & -> & -> & -> & HP). rewrite !map_map. unfold vsub. rewrite !map2_maps. now apply Permutation_map. }
      rewrite (norm2_perm HP).
      assert (T : forall f, tmv (length W) X (map f (vsub (map (fun x => dot x W) X) y)) = tmv (length W) X' (map f (vsub (map (fun x => dot x W) X') y'))).
      { intros f. rewrite !tmv_ok by (unfold vsub; rewrite map_length, map2_length; rewrite map_length; auto). f_equal.
        destruct (same_rows_pairs H) as (D & D' & -> & -> & -> & -> & HP'). rewrite !map_map. unfold vsub. rewrite !map2_maps, !map_map, !map2_maps.
        apply vsum_perm. now apply Permutation_map. }
      pose proof (T (fun a => a)) as T1. rewrite !map_id in T1. rewrite T1, (T Rsign). reflexivity.
    - unfold huber_gradient. now rewrite !mv_UB by congruence.
  Qed.
End Losses.

Lemma softmax_perm K lambda X (y : list nat) X' y' W : shapes_mat K X y W -> same_rows X y X' y' ->
  softmax_evaluate K lambda X y W = softmax_evaluate K lambda X' y' W /\ softmax_gradient K lambda X y W = softmax_gradient K lambda X' y' W.
Proof.
  intros HS H. pose proof (same_rows_X H) as HP.
  assert (HS' : shapes_mat K X' y' W).
  { destruct HS as (H1 & H2 & H3 & H4 & H5 & H6). split; [exact (perm_nil_iff HP H1)|]. split; [assumption|]. split; [exact (width_perm HP H3)|].
    split; [assumption|]. split; [apply H|]. intros c Hc. apply H6. eapply Permutation_in; [symmetry; exact (same_rows_y H)|exact Hc]. }
  rewrite !softmax_evaluate_ok, !softmax_gradient_ok by assumption. unfold data_loss, sm_grad_row. rewrite (Permutation_length HP). split.
  - do 3 f_equal. apply total_perm, Permutation_map, H.
  - f_equal. apply map_ext. intros (j, w). cbn [fst snd]. do 2 f_equal.
    destruct (same_rows_pairs H) as (D & D' & -> & -> & -> & -> & HD). rewrite !combine_self, !map_map, !map2_maps. apply vsum_perm. now apply Permutation_map.
Qed.

(** * Least squares *)
Lemma with_ones_same b X (y : list R) X' y' : same_rows X y X' y' -> same_rows (with_ones b X) y (with_ones b X') y'.
Proof.
  intros H. destruct b; [|exact H]. destruct (same_rows_pairs H) as (D & D' & -> & -> & -> & -> & HP). unfold with_ones, same_rows. rewrite !map_length.
  split; [reflexivity|]. split; [reflexivity|]. rewrite !map_map.
  assert (E : forall D : list (list R * R), combine (map (fun e => fst e ++ [1]) D) (map snd D) = map (fun e => (fst e ++ [1], snd e)) D).
  { clear. induction D as [|e D IH]; simpl; congruence. }
  rewrite !E. now apply Permutation_map.
Qed.
Lemma gram_perm d X X' : Permutation X X' -> gram d X = gram d X'.
Proof. intros H. unfold gram. apply map_ext. intros i. apply map_ext. intros j. now apply Rsum_map_perm. Qed.
Lemma tmv_perm d X (y : list R) X' y' : same_rows X y X' y' -> tmv d X y = tmv d X' y'.
Proof.
  intros H. destruct (same_rows_pairs H) as (D & D' & -> & -> & -> & -> & HP). unfold tmv. rewrite !map_length, !Nat.eqb_refl, !map2_maps. f_equal.
  apply vsum_perm. now apply Permutation_map.
Qed.
Lemma normal_solution_perm d A X (y : list R) X' y' : same_rows X y X' y' -> normal_solution d A X y = normal_solution d A X' y'.
Proof. intros H. unfold normal_solution. now rewrite (tmv_perm d H). Qed.

(** * Naive Bayes *)
Lemma mapM_cases {A B} (f : A -> outcome B) : (forall a, f a = UB \/ exists b, f a = Ok b) -> forall l, mapM f l = UB \/ exists r, mapM f l = Ok r.
Proof.
  intros Hf l. induction l as [|a l IH]; cbn [mapM]; [right; eauto|]. destruct (Hf a) as [-> |(b & ->)]; [now left|]. cbn [bind].
  destruct IH as [-> |(r & ->)]; [now left|right; cbn; eauto].
Qed.
Lemma mapM_perm {A B} (f : A -> outcome B) : (forall a, f a = UB \/ exists b, f a = Ok b) -> forall l l', Permutation l l' ->
  (mapM f l = UB /\ mapM f l' = UB) \/ exists r r', mapM f l = Ok r /\ mapM f l' = Ok r' /\ Permutation r r'.
Proof.
  intros Hf l l' HP. induction HP as [|a l l' HP IH|a b l|l l' l'' H1 IH1 H2 IH2].
  - right. exists [], []. cbn. auto.
  - cbn [mapM]. destruct (Hf a) as [-> |(b & ->)]; [left; auto|]. cbn [bind]. destruct IH as [(-> & ->)|(r & r' & -> & -> & P)]; [left; auto|].
    right. cbn. exists (b :: r), (b :: r'). auto.
  - cbn [mapM]. destruct (Hf a) as [Ea|(u & Ea)], (Hf b) as [Eb|(v & Eb)]; rewrite Ea, Eb; cbn [bind]; [now left..|].
    destruct (mapM_cases f Hf l) as [-> |(r & ->)]; cbn [bind]; [now left|]. right. do 2 eexists. split; [reflexivity|]. split; [reflexivity|]. apply perm_swap.
  - destruct IH1 as [(E1 & E2)|(r & r' & E1 & E2 & P)], IH2 as [(E3 & E4)|(s & s' & E3 & E4 & Q)]; try congruence; [left; auto|].
    right. exists r, s'. split; [assumption|]. split; [assumption|]. rewrite E2 in E3. injection E3 as <-. eauto using Permutation_trans.
Qed.
Lemma vgets_cases {A} (v : list A) is : mapM (vget v) is = UB \/ exists r, mapM (vget v) is = Ok r.
Proof. apply mapM_cases. intros i. unfold vget. destruct (nth_error v i); eauto. Qed.
Lemma rows_of_label_perm nf X y X' y' l : same_rows X y X' y' ->
  (rows_of_label nf X y l = UB /\ rows_of_label nf X' y' l = UB) \/
  exists r r', rows_of_label nf X y l = Ok r /\ rows_of_label nf X' y' l = Ok r' /\ Permutation r r'.
Proof.
  intros H. unfold rows_of_label. apply mapM_perm.
  - intros e. destruct (vgets_cases (fst e ++ [snd e]) (lin_spaced_0_n (nf + 1))) as [-> |(r & ->)]; cbn; eauto.
  - apply perm_filter, H.
Qed.
Lemma mean0_perm nc l l' : Permutation l l' -> mean nc l 0 = mean nc l' 0.
Proof. intros H. unfold mean. cbn. now rewrite (col_means_perm nc H). Qed.
Lemma var0_perm nc l l' : Permutation l l' -> var nc l 0 = var nc l' 0.
Proof. intros H. unfold var. cbn. now rewrite (col_means_perm nc H), (col_means_perm nc (Permutation_map (map sq) H)). Qed.
Lemma sum0_perm nc l l' : Permutation l l' -> sum nc l 0 = sum nc l' 0.
Proof. intros H. unfold sum. cbn. now rewrite (col_sum_perm nc H). Qed.
Lemma sum1_perm nc l l' : Permutation l l' -> sum nc l (-1) = sum nc l' (-1).
Proof. intros H. unfold sum. cbn. now rewrite (Rsum_perm (concat_perm H)). Qed.
Lemma gnb_fit_perm eps nf X y X' y' : same_rows X y X' y' -> gnb_fit eps nf gnb0 X y = gnb_fit eps nf gnb0 X' y'.
Proof.
  intros H. unfold gnb_fit, count_labels, nb_priors. cbn [g_labels gnb0].
  pose proof H as (L & L' & _). rewrite L, L', !Nat.eqb_refl. cbn [negb]. rewrite (counts_perm (same_rows_y H)), (Permutation_length (same_rows_X H)).
  assert (E : gnb_class nf X y = gnb_class nf X' y'); [|now rewrite E].
  apply functional_extensionality. intros l. unfold gnb_class. destruct (rows_of_label_perm nf l H) as [(-> & ->)|(r & r' & -> & -> & P)]; [reflexivity|].
  cbn [bind]. now rewrite (mean0_perm nf P), (var0_perm nf P).
Qed.
Lemma mnb_fit_perm asserts nf X y X' y' : same_rows X y X' y' -> mnb_fit asserts nf mnb0 X y = mnb_fit asserts nf mnb0 X' y'.
Proof.
  intros H. unfold mnb_fit, count_labels, nb_priors. cbn [m_labels mnb0].
  pose proof H as (L & L' & _). rewrite L, L', !Nat.eqb_refl. cbn [negb]. rewrite (counts_perm (same_rows_y H)), (Permutation_length (same_rows_X H)).
  assert (E : mnb_class asserts nf X y = mnb_class asserts nf X' y'); [|now rewrite E].
  apply functional_extensionality. intros l. unfold mnb_class. destruct (rows_of_label_perm nf l H) as [(-> & ->)|(r & r' & -> & -> & P)]; [reflexivity|].
  cbn [bind]. now rewrite (sum0_perm nf P), (sum1_perm nf P).
Qed.

(** * k-means *)
Lemma nth_ext_error {A} (l l' : list A) : (forall k, nth_error l k = nth_error l' k) -> l = l'.
Proof.
  revert l'. induction l as [|a l IH]; intros [|a' l'] H; [reflexivity|discriminate (H 0%nat)|discriminate (H 0%nat)|].
  pose proof (H 0%nat) as H0. injection H0 as <-. f_equal. apply IH. intros k. exact (H (S k)).
Qed.
Lemma iteration_perm asserts nf X X' C : rows nf X -> rows nf C -> C <> [] -> Permutation X X' ->
  iteration asserts nf (length C) X C = iteration asserts nf (length C) X' C.
Proof.
  intros HX HC Hne HP. assert (HX' : rows nf X') by (intros r Hr; apply HX; eapply Permutation_in; [symmetry; exact HP|exact Hr]).
  pose proof (label_of_spec HX HC Hne) as L1. pose proof (label_of_spec HX' HC Hne) as L2.
  destruct (Bool.bool_dec asserts false) as [Ha|Ha]; [|destruct (Nat.eq_dec nf 1) as [Hn|Hn]].
  3: { destruct asserts; [|congruence]. destruct X as [|x X]; [apply Permutation_nil in HP; now subst|].
       assert (N : X' <> []) by (apply (perm_nil_iff HP); discriminate).
       rewrite (iteration_UB (label_of C) HX HC L1 Hn) by discriminate. now rewrite (iteration_UB (label_of C) HX' HC L2 Hn). }
  1, 2: assert (Hc : asserts = false \/ nf = 1%nat) by tauto;
    destruct (iteration_spec (label_of C) HX HC L1 Hc) as (C1 & -> & N1 & E1); destruct (iteration_spec (label_of C) HX' HC L2 Hc) as (C2 & -> & N2 & E2);
    assert (C1 = C2) as <-; [|reflexivity];
    apply nth_ext_error; intros k; rewrite E1, E2; destruct (nth_error C k) as [c|]; [|reflexivity]; cbn [option_map]; f_equal;
    unfold moved; pose proof (perm_filter (fun x => label_of C x =? k)%nat HP) as HF;
    unfold vmean; rewrite (vsum_perm nf HF), (Permutation_length HF);
    destruct (filter (fun x => label_of C x =? k)%nat X); [apply Permutation_nil in HF; now rewrite HF|];
    destruct (filter (fun x => label_of C x =? k)%nat X'); [symmetry in HF; apply Permutation_nil in HF; discriminate|reflexivity].
Qed.
Lemma iteration_rows asserts nf X C C' e : rows nf X -> rows nf C -> C <> [] -> X <> [] ->
  iteration asserts nf (length C) X C = Ok (C', e) -> rows nf C' /\ length C' = length C.
Proof.
  intros HX HC Hne HN E. pose proof (label_of_spec HX HC Hne) as L1.
  destruct (Bool.bool_dec asserts false) as [Ha|Ha]; [|destruct (Nat.eq_dec nf 1) as [Hn|Hn]].
  3: { destruct asserts; [|congruence]. rewrite (iteration_UB (label_of C) HX HC L1 Hn HN) in E. discriminate. }
  1, 2: assert (Hc : asserts = false \/ nf = 1%nat) by tauto;
    destruct (iteration_spec (label_of C) HX HC L1 Hc) as (C1 & E1 & N1 & M1); rewrite E1 in E; injection E as <- _;
    split; [exact (moved_rows (label_of C) _ HX HC N1 M1)|assumption].
Qed.
Lemma lloyd_perm asserts nf tol n X X' : rows nf X -> Permutation X X' ->
  forall C, rows nf C -> C <> [] -> lloyd asserts nf (length C) tol X n C = lloyd asserts nf (length C) tol X' n C.
Proof.
  intros HX HP. destruct X as [|x X]; [apply Permutation_nil in HP; now subst|].
  induction n as [|n IH]; intros C HC Hne; [reflexivity|]. cbn [lloyd]. rewrite <- (iteration_perm asserts HX HC Hne HP).
  destruct (iteration asserts nf (length C) (x :: X) C) as [[C' e]| | |] eqn:E; cbn [bind]; try reflexivity. destruct (Rltb e tol); [reflexivity|].
  destruct (iteration_rows _ HX HC Hne ltac:(discriminate) E) as (R1 & L1). rewrite <- L1. apply IH; [assumption|]. destruct C'; [|discriminate].
  destruct C; [congruence|discriminate].
Qed.

(** * Coordinate descent *)
Lemma scd_perm {Row Lab} (gradient : list Row -> list Lab -> list R -> outcome (list R)) lambda l1 nf (X0 : list Row) (y0 : list Lab) (p p' : nat -> list nat) (b b' : bool) :
  (forall X y W, same_rows X0 y0 X y -> gradient X0 y0 W = gradient X y W) ->
  (forall i, is_perm (length X0) (p i)) -> (forall i, is_perm (length X0) (p' i)) ->
  forall iters X y X' y' w, same_rows X0 y0 X y -> same_rows X0 y0 X' y' ->
  scd_loop gradient lambda l1 nf p b iters X y w = scd_loop gradient lambda l1 nf p' b' iters X' y' w.
Proof.
  intros Hg Hp Hp'.
  assert (S : forall (q : nat -> list nat) (c : bool), (forall i, is_perm (length X0) (q i)) -> forall i X y, same_rows X0 y0 X y ->
     exists X1 y1, reshuffle q c i X y = Ok (X1, y1) /\ same_rows X0 y0 X1 y1).
  { intros q c Hq i X y H. unfold reshuffle. destruct c; [|exists X, y; auto]. destruct H as (K1 & K2 & K3).
    assert (L : length X = length X0) by (apply Permutation_length in K3; rewrite !combine_length in K3; lia).
    destruct (@shuffle2_spec Row Lab (length X0) (q i) X y (Hq i) L ltac:(congruence)) as (X1 & y1 & E & (R1 & R2 & R3) & _).
    exists X1, y1. split; [assumption|]. split; [assumption|]. split; [congruence|]. eauto using Permutation_trans. }
  induction iters as [|i iters IH]; intros X y X' y' w H H'; cbn [scd_loop]; [reflexivity|].
  destruct (S p b Hp i X y H) as (X1 & y1 & -> & H1). destruct (S p' b' Hp' i X' y' H') as (X2 & y2 & -> & H2). cbn [bind fst snd].
  assert (E : scd_step gradient lambda l1 nf X1 y1 w = scd_step gradient lambda l1 nf X2 y2 w).
  { unfold scd_step. now rewrite <- (Hg X1 y1 w H1), <- (Hg X2 y2 w H2). }
  rewrite E. destruct (scd_step gradient lambda l1 nf X2 y2 w); cbn [bind]; auto.
Qed.
