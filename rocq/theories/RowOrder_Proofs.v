From Coq Require Import Reals Lra.
From Verif Require Import Base Sorting Common_Model Tree_Model Tree_Spec Tree_Proofs KDReal_Proofs Impurity_Model Impurity_Spec Impurity_Proofs TreeReal_Proofs
  RowOrder_Spec Vec MathFun_Model Stats_Model.
Local Open Scope R_scope.
Set Implicit Arguments.

Lemma same_rows_pairs {A B} (X : list A) (y : list B) X' y' : same_rows X y X' y' ->
  exists D D', X = map fst D /\ y = map snd D /\ X' = map fst D' /\ y' = map snd D' /\ Permutation D D'.
Proof.
  intros (H1 & H2 & H3). exists (combine X y), (combine X' y'). rewrite !combine_fst, !combine_snd by assumption. auto.
Qed.
Lemma perm_filter {A} (g : A -> bool) l l' : Permutation l l' -> Permutation (filter g l) (filter g l').
Proof.
  intros H. induction H; simpl; [constructor| | |eauto using Permutation_trans].
  - destruct (g x); [now constructor|assumption].
  - destruct (g x), (g y); try apply Permutation_refl. apply perm_swap.
Qed.
Lemma sorted_set_unique {A} (R : A -> A -> Prop) : (forall a, ~ R a a) -> (forall a b, R a b -> R b a -> False) ->
  forall l l', StronglySorted R l -> StronglySorted R l' -> (forall a, In a l <-> In a l') -> l = l'.
Proof.
  intros Hi Ha. induction l as [|a l IH]; intros [|b l'] H H' E.
  - reflexivity.
  - destruct (proj2 (E b) (or_introl eq_refl)).
  - destruct (proj1 (E a) (or_introl eq_refl)).
  - inversion H as [|? ? S1 F1]; inversion H' as [|? ? S2 F2]; subst. rewrite Forall_forall in F1, F2.
    assert (a = b) as <-.
    { destruct (proj1 (E a) (or_introl eq_refl)) as [->|I1]; [reflexivity|].
      destruct (proj2 (E b) (or_introl eq_refl)) as [->|I2]; [reflexivity|]. exfalso. eauto. }
    f_equal. apply IH; [assumption|assumption|]. intros c. split; intros Hc.
    + destruct (proj1 (E c) (or_intror Hc)) as [->|]; [|assumption]. destruct (Hi c). auto.
    + destruct (proj2 (E c) (or_intror Hc)) as [->|]; [|assumption]. destruct (Hi c). auto.
Qed.

(** * Trees *)
Section Grow.
  Variable T : Type.
  Variable lt : T -> T -> bool.
  Variable mid : T -> T -> T.
  Hypothesis HT : total_order lt.
  Variable I : Type.
  Variable gt : I -> I -> bool.
  Hypothesis HI : weak_order gt.
  Variable imin : I.
  Variable gain : list T -> list T -> list T -> outcome I.
  Variable V : Type.
  Variable node_value : list T -> outcome (V * bool).
  Variable nf : nat.
  Variable P : params I.
  Hypothesis Hgain : forall y l r y' l' r', Permutation y y' -> Permutation l l' -> Permutation r r' -> gain y l r = gain y' l' r'.
  Hypothesis Hvalue : forall y y', Permutation y y' -> node_value y = node_value y'.

  Lemma gain_at_perm D D' f t : Permutation D D' -> gain_at lt gain D f t = gain_at lt gain D' f t.
  Proof. intros H. unfold gain_at, left_targets, right_targets. apply Hgain; apply Permutation_map; [assumption| |]; now apply perm_filter. Qed.
  Lemma candidate_perm D D' f t : Permutation D D' -> candidate lt mid D f t -> candidate lt mid D' f t.
  Proof.
    intros H (s & i & a & b & H1 & R). exists s, i, a, b. split; [|exact R]. eapply Permutation_trans; [exact H1|]. now apply Permutation_map.
  Qed.
  Lemma matrix_perm (D D' : list (list T * T)) : Permutation D D' -> matrix nf (map fst D) -> matrix nf (map fst D').
  Proof. intros H HM r Hr. apply HM. eapply Permutation_in; [|exact Hr]. apply Permutation_map. now symmetry. Qed.
  Lemma best_split_perm D D' : matrix nf (map fst D) -> Permutation D D' ->
    best_split lt mid gt imin gain nf (map fst D) (map snd D) = best_split lt mid gt imin gain nf (map fst D') (map snd D').
  Proof.
    intros HM HP. pose proof (matrix_perm HP HM) as HM'. pose proof (Permutation_length HP) as HL.
    destruct (le_lt_dec 3 (length D)) as [H3|H3].
    - destruct (best_split_scan mid HT gt imin gain D HM H3) as (cs & -> & S1 & I1).
      destruct (best_split_scan mid HT gt imin gain D' HM' ltac:(lia)) as (cs' & -> & S2 & I2).
      assert (cs = cs') as <-.
      { apply (sorted_set_unique (R := earlier lt)); [| |assumption|assumption|].
        - intros (f, t) [H|(_ & H)]; cbn in H; [lia|]. now rewrite (to_irrefl HT) in H.
        - intros (f, t) (f', t') [H|(E & H)] [H'|(E' & H')]; cbn in *; try lia.
          pose proof (to_trans HT _ _ _ H H') as F. now rewrite (to_irrefl HT) in F.
        - intros (f, t). rewrite I1, I2. split; intros (Hf & Hc); (split; [assumption|]); [exact (candidate_perm HP Hc)|exact (candidate_perm (Permutation_sym HP) Hc)]. }
      unfold scan. apply foldM_ext. intros s c _. now rewrite (gain_at_perm _ _ HP).
    - destruct D as [|e D].
      + apply Permutation_nil in HP. now subst.
      + destruct nf as [|n]; [reflexivity|]. simpl in HL, H3.
        rewrite (@best_split_small _ lt mid _ gt imin gain (S n) (e :: D)) by (assumption || (simpl; lia)).
        rewrite (@best_split_small _ lt mid _ gt imin gain (S n) D') by (assumption || lia). reflexivity.
  Qed.
  Lemma build_perm fuel : forall depth D D', matrix nf (map fst D) -> Permutation D D' ->
    build_tree lt mid gt imin gain node_value nf P fuel (map fst D) (map snd D) depth =
    build_tree lt mid gt imin gain node_value nf P fuel (map fst D') (map snd D') depth.
  Proof.
    induction fuel as [|fuel IH]; intros depth D D' HM HP; [reflexivity|].
    pose proof (matrix_perm HP HM) as HM'. pose proof (Permutation_length HP) as HL.
    cbn [build_tree]. rewrite (Hvalue (Permutation_map snd HP)), !map_length, <- HL.
    destruct (node_value (map snd D')) as [[v stop]| | |]; cbn [bind]; try reflexivity.
    destruct stop; [reflexivity|]. destruct (_ <? _)%nat; [reflexivity|]. destruct (_ <? _)%nat; [reflexivity|].
    rewrite <- (best_split_perm HM HP).
    destruct (best_split lt mid gt imin gain nf (map fst D) (map snd D)) as [[b w]| | |] eqn:Eb; cbn [bind]; try reflexivity.
    destruct w as [[f th]|]; [|reflexivity]. destruct (negb _); [reflexivity|].
    pose proof (best_split_Ok mid HT HI imin gain D HM Eb) as (_ & Hfb).
    assert (C : forall D : list (list T * T), matrix nf (map fst D) -> exists c, column_of (map fst D) f = Ok c /\
       rows_where (map (fun v0 => leb lt v0 th) c) (map fst D) = Ok (map fst (filter (fun e => goes_left lt f th (fst e)) D)) /\
       rows_where (map (fun v0 => leb lt v0 th) c) (map snd D) = Ok (map snd (filter (fun e => goes_left lt f th (fst e)) D)) /\
       rows_where (map (fun v0 => lt th v0) c) (map fst D) = Ok (map fst (filter (fun e => negb (goes_left lt f th (fst e))) D)) /\
       rows_where (map (fun v0 => lt th v0) c) (map snd D) = Ok (map snd (filter (fun e => negb (goes_left lt f th (fst e))) D))).
    { clear - Hfb HT. intros E HE. destruct (column_spec HE (f := f)) as (c & C1 & C2 & C3); [apply Hfb|].
      exists c. split; [assumption|]. destruct (column_bools lt c th HE (proj1 Hfb) C2) as (B1 & B2). rewrite B1, B2. unfold rows_where.
      rewrite where_select_fst, where_select_snd.
      rewrite (where_select_fst (fun x => negb (goes_left lt f th x))), (where_select_snd (fun x => negb (goes_left lt f th x))). auto. }
    destruct (C D HM) as (c & E0 & E1 & E2 & E3 & E4). destruct (C D' HM') as (c' & F0 & F1 & F2 & F3 & F4).
    rewrite E0, F0. cbn [bind]. rewrite E1, E2, E3, E4, F1, F2, F3, F4. cbn [bind].
    set (L := filter (fun e => goes_left lt f th (fst e)) D). set (L' := filter (fun e => goes_left lt f th (fst e)) D').
    set (R := filter (fun e => negb (goes_left lt f th (fst e))) D). set (R' := filter (fun e => negb (goes_left lt f th (fst e))) D').
    assert (PL : Permutation L L') by now apply perm_filter. assert (PR : Permutation R R') by (apply (perm_filter (fun e => negb (goes_left lt f th (fst e)))); assumption).
    rewrite !map_length, (Permutation_length PL), (Permutation_length PR).
    rewrite (IH (S depth) L L') by (assumption || now apply matrix_filter).
    rewrite (IH (S depth) R R'); [reflexivity| |assumption]. unfold R. apply (matrix_filter (fun e => negb (goes_left lt f th (fst e)))). assumption.
  Qed.
  Lemma grow_perm X y X' y' : matrix nf X -> same_rows X y X' y' ->
    grow lt mid gt imin gain node_value nf P X y = grow lt mid gt imin gain node_value nf P X' y'.
  Proof. intros HM H. destruct (same_rows_pairs H) as (D & D' & -> & -> & -> & -> & HP). now apply build_perm. Qed.
End Grow.

(** * Sums *)
Lemma Rsum_perm l l' : Permutation l l' -> Rsum l = Rsum l'.
Proof. intros H. rewrite !Rsum_total. now apply total_perm. Qed.
Lemma Rsum_map_perm {A} (f : A -> R) l l' : Permutation l l' -> Rsum (map f l) = Rsum (map f l').
Proof. intros H. apply Rsum_perm. now apply Permutation_map. Qed.
Lemma mean_vec_perm y y' : Permutation y y' -> mean_vec y = mean_vec y'.
Proof.
  intros H. unfold mean_vec. rewrite (Rsum_perm H), (Permutation_length H).
  destruct y; [apply Permutation_nil in H; subst; reflexivity|]. destruct y'; [|reflexivity]. symmetry in H. apply Permutation_nil in H. discriminate.
Qed.
Lemma var_vec_perm y y' : Permutation y y' -> var_vec y = var_vec y'.
Proof. intros H. unfold var_vec. rewrite (mean_vec_perm H). now rewrite (mean_vec_perm (Permutation_map (fun v => v * v) H)). Qed.
Lemma reg_gain_perm c y l r y' l' r' : Permutation y y' -> Permutation l l' -> Permutation r r' -> reg_gain c y l r = reg_gain c y' l' r'.
Proof.
  intros H1 H2 H3. unfold reg_gain. rewrite (var_vec_perm H1), (var_vec_perm H2), (var_vec_perm H3).
  now rewrite (Permutation_length H1), (Permutation_length H2), (Permutation_length H3).
Qed.
Lemma reg_value_perm ms y y' : Permutation y y' -> reg_value ms y = reg_value ms y'.
Proof.
  intros H. unfold reg_value. rewrite (mean_vec_perm H), (Permutation_length H). destruct (mean_vec y') as [m| | |]; cbn [bind]; try reflexivity.
  now rewrite (Rsum_map_perm (fun v => (v - m) * (v - m)) H).
Qed.

(** * Labels *)
Lemma labels_of_perm (x x' ls : list R) : Permutation x x' -> labels_of x ls -> labels_of x' ls.
Proof. intros H (H1 & H2). split; [assumption|]. intros l. rewrite H2. split; apply Permutation_in; [assumption|now symmetry]. Qed.
Lemma rcount_perm (y y' : list R) k : Permutation y y' -> rcount y k = rcount y' k.
Proof. intros H. now apply (proj1 (Permutation_count_occ Req_EM_T y y')). Qed.
Lemma freq_perm (x x' : list R) l : Permutation x x' -> freq Req_EM_T x l = freq Req_EM_T x' l.
Proof. intros H. unfold freq. now rewrite (rcount_perm _ H), (Permutation_length H). Qed.
Lemma gini_perm (x x' : list R) : Permutation x x' -> gini Rltb x [] = gini Rltb x' [].
Proof.
  intros H. destruct (counts_nil Rltb_order Req_EM_T x) as (_ & HL & _). rewrite (gini_formula Rltb_order Req_EM_T HL), (gini_formula Rltb_order Req_EM_T (labels_of_perm H HL)).
  unfold gini_index. f_equal. f_equal. apply total_ext. intros l _. now rewrite (freq_perm _ H).
Qed.
Lemma entropy_perm (x x' : list R) : Permutation x x' -> entropy Rltb x [] = entropy Rltb x' [].
Proof.
  intros H. destruct (counts_nil Rltb_order Req_EM_T x) as (_ & HL & _). rewrite (entropy_formula Rltb_order Req_EM_T HL), (entropy_formula Rltb_order Req_EM_T (labels_of_perm H HL)).
  unfold shannon. f_equal. apply total_ext. intros l _. now rewrite (freq_perm _ H).
Qed.
Lemma class_gain_perm c (y l r y' l' r' : list R) : Permutation y y' -> Permutation l l' -> Permutation r r' -> class_gain Rltb c y l r = class_gain Rltb c y' l' r'.
Proof.
  intros H1 H2 H3. unfold class_gain.
  now rewrite (entropy_perm H1), (entropy_perm H2), (entropy_perm H3), (gini_perm H2), (gini_perm H3), (Permutation_length H1), (Permutation_length H2), (Permutation_length H3).
Qed.
Lemma om_ext (m m' : list (R * nat)) : om_sorted (cmp_of Rltb) m -> om_sorted (cmp_of Rltb) m' ->
  (forall k, om_find (cmp_of Rltb) k m = om_find (cmp_of Rltb) k m') -> m = m'.
Proof.
  intros S1 S2 E. pose proof (cmp_of_eq Rltb_order) as C1. pose proof (cmp_of_antisym Rltb_order) as C2.
  apply (sorted_set_unique (R := fun a b => cmp_of Rltb (fst a) (fst b) = Lt)); [| |assumption|assumption|].
  - intros a H. now rewrite (proj2 (C1 _ _) eq_refl) in H.
  - intros a b H H'. rewrite C2, H in H'. discriminate.
  - assert (N1 : NoDup (map fst m)) by (eapply om_sorted_NoDup; [apply C1|exact S1]).
    assert (N2 : NoDup (map fst m')) by (eapply om_sorted_NoDup; [apply C1|exact S2]).
    intros (k, c). split; intros H.
    + apply (om_In_find _ C1) in H; [|assumption]. rewrite E in H. apply om_find_In in H; [assumption|apply C1].
    + apply (om_In_find _ C1) in H; [|assumption]. rewrite <- E in H. apply om_find_In in H; [assumption|apply C1].
Qed.
Lemma counts_perm (y y' : list R) : Permutation y y' -> fold_left (count_label Rltb) y [] = fold_left (count_label Rltb) y' [].
Proof.
  intros H. destruct (counts_nil Rltb_order Req_EM_T y) as (S1 & _ & _ & F1). destruct (counts_nil Rltb_order Req_EM_T y') as (S2 & _ & _ & F2).
  apply om_ext; [assumption|assumption|]. intros k. now rewrite F1, F2, (rcount_perm _ H).
Qed.
Lemma class_value_perm labels (y y' : list R) : Permutation y y' -> class_value Rltb labels y = class_value Rltb labels y'.
Proof. intros H. unfold class_value. now rewrite (counts_perm H). Qed.

(** * Vectors *)
Lemma vadd_comm u : forall v, vadd u v = vadd v u.
Proof. induction u as [|a u IH]; intros [|b v]; try reflexivity. cbn. f_equal; [ring|apply IH]. Qed.
Lemma vadd_assoc u : forall v w, vadd (vadd u v) w = vadd u (vadd v w).
Proof. induction u as [|a u IH]; intros [|b v] [|c w]; try reflexivity. cbn. f_equal; [ring|apply IH]. Qed.
Lemma vsum_perm d l l' : Permutation l l' -> vsum d l = vsum d l'.
Proof.
  intros H. unfold vsum. induction H; cbn [fold_right]; [reflexivity|now f_equal| |congruence].
  rewrite <- !vadd_assoc. f_equal. apply vadd_comm.
Qed.
Lemma col_sum_perm nc l l' : Permutation l l' -> col_sum nc l = col_sum nc l'.
Proof.
  intros H. unfold col_sum. generalize (zeros nc). induction H; intros z; cbn [fold_left]; [reflexivity|apply IHPermutation| |congruence].
  f_equal. rewrite !vadd_assoc. f_equal. apply vadd_comm.
Qed.
Lemma col_means_perm nc l l' : Permutation l l' -> col_means nc l = col_means nc l'.
Proof. intros H. unfold col_means. now rewrite (col_sum_perm nc H), (Permutation_length H). Qed.
Lemma concat_perm {A} (l l' : list (list A)) : Permutation l l' -> Permutation (concat l) (concat l').
Proof.
  intros H. induction H; cbn [concat]; [constructor|now apply Permutation_app_head| |eauto using Permutation_trans].
  rewrite !app_assoc. apply Permutation_app_tail, Permutation_app_comm.
Qed.
Lemma mean1_perm l l' : Permutation l l' -> mean1 l = mean1 l'.
Proof. intros H. unfold mean1. now rewrite (Rsum_perm H), (Permutation_length H). Qed.
Lemma center_perm nc l l' : Permutation l l' -> Permutation (center nc l) (center nc l').
Proof. intros H. unfold center. rewrite (col_means_perm nc H). now apply Permutation_map. Qed.
Lemma isort_perm_eq (v v' : list R) : Permutation v v' -> isort Rltb v = isort Rltb v'.
Proof.
  intros H. apply (sorted_perm_unique Rltb_order); [apply (sort_sorted Rltb_order)|apply (sort_sorted Rltb_order)|].
  rewrite <- (isort_perm Rltb v), <- (isort_perm Rltb v'). assumption.
Qed.
Lemma median1_perm v v' : Permutation v v' -> median1 v = median1 v'.
Proof. intros H. unfold median1. now rewrite (isort_perm_eq H), (Permutation_length H). Qed.
