From Coq Require Import Reals Lra Lia FunctionalExtensionality.
From Verif Require Import Base Sorting Common_Model RDR_Proofs KDReal_Proofs Tree_Model Tree_Spec Tree_Proofs Impurity_Model Impurity_Spec Impurity_Proofs TreeReal_Proofs Vec MathFun_Model Stats_Model
  Loss_Model Loss_Spec Loss_Proofs LossHinge_Proofs LossSoftmax_Proofs Shuffle_Model Shuffle_Proofs Optim_Model Optim_Spec Stats_Spec Stats_Proofs NB_Model NB_Spec NB_Proofs Linear_Model Linear_Spec
  KMeans_Model KMeans_Spec KMeans_Proofs RowOrder_Spec RowOrder_Proofs RowOrderMore_Proofs Copies_Spec.
Local Open Scope R_scope.
Set Implicit Arguments.

(** * Lists *)
Lemma copies_0 {A} (l : list A) : copies 0 l = [].
Proof. reflexivity. Qed.
Lemma copies_S {A} k (l : list A) : copies (S k) l = l ++ copies k l.
Proof. reflexivity. Qed.
Lemma copies_length {A} k (l : list A) : length (copies k l) = (k * length l)%nat.
Proof. induction k as [|k IH]; [reflexivity|]. rewrite copies_S, app_length, IH. lia. Qed.
Lemma copies_map {A B} (f : A -> B) k l : copies k (map f l) = map f (copies k l).
Proof. induction k as [|k IH]; [reflexivity|]. rewrite !copies_S, map_app, IH. reflexivity. Qed.
Lemma copies_filter {A} (f : A -> bool) k l : filter f (copies k l) = copies k (filter f l).
Proof. induction k as [|k IH]; [reflexivity|]. rewrite !copies_S, filter_app, IH. reflexivity. Qed.
Lemma copies_in {A} k (l : list A) x : (0 < k)%nat -> (In x (copies k l) <-> In x l).
Proof.
  intro H. destruct k as [|k]; [lia|]. clear H. induction k as [|k IH]; rewrite copies_S, in_app_iff; [rewrite copies_0; cbn; tauto|]. rewrite IH. tauto.
Qed.
Lemma combine_app2 {A B} (a a' : list A) : forall (b b' : list B), length b = length a -> combine (a ++ a') (b ++ b') = combine a b ++ combine a' b'.
Proof. induction a as [|x a IH]; intros [|z b] b' H; cbn in *; try lia; [reflexivity|]. f_equal. apply IH. lia. Qed.
Lemma copies_combine {A B} k (X : list A) (y : list B) : length y = length X -> combine (copies k X) (copies k y) = copies k (combine X y).
Proof. intro H. induction k as [|k IH]; [reflexivity|]. rewrite !copies_S, combine_app2 by assumption. now rewrite IH. Qed.
Lemma copies_concat {A} k (l : list (list A)) : concat (copies k l) = copies k (concat l).
Proof. induction k as [|k IH]; [reflexivity|]. rewrite !copies_S, concat_app, IH. reflexivity. Qed.
Lemma copies_nil {A} k (l : list A) : (0 < k)%nat -> (copies k l = [] <-> l = []).
Proof. intro H. split; intro E; [|subst; clear H; induction k; auto]. apply (f_equal (@length A)) in E. rewrite copies_length in E. cbn in E. destruct l; [reflexivity|cbn in E; lia]. Qed.
Lemma copies_count {A} (dec : forall a b : A, {a = b} + {a <> b}) k l x : count_occ dec (copies k l) x = (k * count_occ dec l x)%nat.
Proof. induction k as [|k IH]; [reflexivity|]. rewrite copies_S, count_occ_app, IH. lia. Qed.
Lemma repeated_pairs {A B} k (X : list A) (y : list B) X' y' : repeated k X y X' y' ->
  exists D D', X = map fst D /\ y = map snd D /\ X' = map fst D' /\ y' = map snd D' /\ Permutation (copies k D) D'.
Proof.
  intros (Hk & L & (H1 & H2 & H3)). exists (combine X y), (combine X' y'). rewrite !combine_fst, !combine_snd by assumption. rewrite copies_combine in H3 by assumption. auto.
Qed.
Lemma repeated_self {A B} k (X : list A) (y : list B) : (0 < k)%nat -> length y = length X -> repeated k X y (copies k X) (copies k y).
Proof. intros H L. split; [assumption|]. split; [assumption|]. split; [rewrite !copies_length; congruence|]. split; [rewrite !copies_length; congruence|apply Permutation_refl]. Qed.
Lemma repeated_X {A B} k (X : list A) (y : list B) X' y' : repeated k X y X' y' -> Permutation (copies k X) X'.
Proof. intros (_ & _ & H). exact (same_rows_X H). Qed.
Lemma repeated_y {A B} k (X : list A) (y : list B) X' y' : repeated k X y X' y' -> Permutation (copies k y) y'.
Proof. intros (_ & _ & H). exact (same_rows_y H). Qed.

(** * Sums *)
Lemma total_copies k l : total (copies k l) = INR k * total l.
Proof. induction k as [|k IH]; [cbn; ring|]. rewrite copies_S, total_app, IH, S_INR. ring. Qed.
Lemma Rsum_copies k l : Rsum (copies k l) = INR k * Rsum l.
Proof. rewrite !Rsum_total. apply total_copies. Qed.
Lemma vscale_add a b v : vadd (vscale a v) (vscale b v) = vscale (a + b) v.
Proof. induction v as [|x v IH]; [reflexivity|]. cbn. f_equal; [ring|exact IH]. Qed.
Lemma vsum_app d a b : width d a -> width d b -> vsum d (a ++ b) = vadd (vsum d a) (vsum d b).
Proof.
  intros Ha Hb. induction a as [|x a IH].
  - cbn [app vsum fold_right]. fold (vsum d b). assert (L : length (vsum d b) = d) by now apply vsum_length. revert L. generalize (vsum d b). clear.
    induction d as [|d IH]; intros [|x v] L; cbn in *; try lia; [reflexivity|]. f_equal; [ring|]. apply IH. lia.
  - cbn [app vsum fold_right]. fold (vsum d (a ++ b)) (vsum d a). rewrite IH by (intros z Hz; apply Ha; now right). rewrite vadd_assoc. reflexivity.
Qed.
Lemma width_copies d k X : width d X -> width d (copies k X).
Proof. intros H x Hx. destruct k; [destruct Hx|]. apply copies_in in Hx; [auto|lia]. Qed.
Lemma vsum_copies d k l : width d l -> vsum d (copies k l) = vscale (INR k) (vsum d l).
Proof.
  intro H. induction k as [|k IH].
  - cbn. assert (L : length (vsum d l) = d) by now apply vsum_length. revert L. generalize (vsum d l). clear. unfold vsum; cbn. induction d as [|d IH]; intros [|x v] L; cbn in *; try lia; [reflexivity|].
    f_equal; [ring|]. apply IH. lia.
  - rewrite copies_S, vsum_app, IH by (auto; now apply width_copies). rewrite S_INR. rewrite <- (vscale_1 (vsum d l)) at 1. rewrite vscale_add. f_equal. ring.
Qed.

(** * Losses *)
Lemma cases_copies {T} d k X (y : list T) X' y' (W : list R) : width d X -> repeated k X y X' y' ->
  (X = [] /\ y = [] /\ X' = [] /\ y' = []) \/ (shapes X y W /\ shapes X' y' W) \/
  (d <> length W /\ exists x X1 x' X1', X = x :: X1 /\ X' = x' :: X1' /\ length x = d /\ length x' = d).
Proof.
  intros HW (Hk & L & H). pose proof (width_copies k HW) as HC.
  destruct (shapes_cases W HC H) as [(E1 & E2 & E3 & E4)|[(HS & HS')|(Hd & x & X1 & x' & X1' & E1 & E2 & L1 & L2)]].
  - left. apply copies_nil in E1; auto. apply copies_nil in E2; auto.
  - right. left. split; [|assumption]. destruct HS as (H1 & H2 & _). split; [intro E; apply H1; now apply copies_nil|]. split; [|assumption].
    intros r Hr. apply H2. now apply copies_in.
  - right. right. split; [assumption|]. destruct X as [|a X]; [rewrite (proj2 (copies_nil (@nil (list R)) Hk) eq_refl) in E1; discriminate|].
    exists a, X, x', X1'. split; [reflexivity|]. split; [assumption|]. split; [apply HW; now left|assumption].
Qed.
Lemma glm_copies {T} (phi : T -> R -> R) c lambda k X (y : list T) X' y' W : repeated k X y X' y' -> 0 < INR (length X) ->
  glm phi (c / INR k) (INR k * lambda) X' y' W = glm phi c lambda X y W.
Proof.
  intros (Hk & L & H) Hn. assert (Pk : 0 < INR k) by (apply lt_0_INR; auto). rewrite <- (glm_perm _ _ _ _ H). unfold glm, over_samples, penalty.
  rewrite copies_combine, <- copies_map, total_copies, copies_length, mult_INR by assumption. field. lra.
Qed.
Lemma copies_map2 {A B C} (f : A -> B -> C) k X y : length y = length X -> map2 f (copies k X) (copies k y) = copies k (map2 f X y).
Proof.
  intro H. assert (G : forall X y, map2 f X y = map (fun p => f (fst p) (snd p)) (combine X y)).
  { clear. induction X as [|x X IH]; intros [|b y]; try reflexivity. cbn. f_equal. apply IH. }
  rewrite !G, copies_combine, copies_map by assumption. reflexivity.
Qed.
Lemma in_map2 {A B C} (f : A -> B -> C) X : forall y r, In r (map2 f X y) -> exists a b, In a X /\ In b y /\ r = f a b.
Proof.
  induction X as [|x X IH]; intros [|b y] r H; cbn in H; try contradiction. destruct H as [<-|H]; [exists x, b; cbn; auto|].
  destruct (IH _ _ H) as (a & c & H1 & H2 & ->). exists a, c. cbn. auto.
Qed.
Lemma glm_grad_copies {T} (dphi : T -> R -> R) c lambda k X (y : list T) X' y' W : repeated k X y X' y' -> shapes X y W ->
  glm_grad dphi (c / INR k) (INR k * lambda) X' y' W = glm_grad dphi c lambda X y W.
Proof.
  intros (Hk & L & H) HS. assert (Pk : 0 < INR k) by (apply lt_0_INR; auto). rewrite <- (glm_grad_perm _ _ _ _ H). pose proof HS as (H1 & H2 & H3).
  assert (Hn : 0 < INR (length X)) by (apply lt_0_INR; destruct X; [congruence|cbn; lia]).
  unfold glm_grad. rewrite copies_length, mult_INR. rewrite copies_map2 by assumption. rewrite copies_map2 by (rewrite map2_length; auto).
  rewrite vsum_copies.
  - rewrite vscale_vscale. f_equal; f_equal; field; lra.
  - intros r Hr. apply in_map2 in Hr. destruct Hr as (a & x & _ & Hx & ->). rewrite vscale_length. apply H2. exact Hx.
Qed.

Section Losses.
  Variables (d k : nat) (lambda : R) (X X' : list (list R)) (y y' : list R).
  Hypothesis HW : width d X.
  Hypothesis N : X <> [].
  Hypothesis H : repeated k X y X' y'.
  Let Pk : 0 < INR k.
  Proof. apply lt_0_INR. apply H. Qed.
  Lemma length_copies : length X' = (k * length X)%nat.
  Proof. rewrite <- (Permutation_length (repeated_X H)). apply copies_length. Qed.
  Lemma mse_copies W : mse_evaluate (INR k * lambda) X' y' W = mse_evaluate lambda X y W /\ mse_gradient (INR k * lambda) X' y' W = mse_gradient lambda X y W.
  Proof.
    destruct (cases_copies W HW H) as [(-> & -> & -> & ->)|[(HS & HS')|(Hd & x & X1 & x' & X1' & -> & -> & L1 & L2)]].
    - congruence.
    - assert (Hn : 0 < INR (length X)) by (apply lt_0_INR; destruct X; [destruct HS; congruence|cbn; lia]).
      assert (Ec : mse_c X' = mse_c X / INR k) by (unfold mse_c; rewrite length_copies, mult_INR; field; lra).
      rewrite !mse_evaluate_glm, !mse_gradient_glm by assumption. rewrite Ec. split; f_equal; [now apply glm_copies|now apply glm_grad_copies].
    - unfold mse_evaluate, mse_gradient. rewrite !mv_UB by congruence. split; reflexivity.
  Qed.
  Lemma log_copies W : log_evaluate (INR k * lambda) X' y' W = log_evaluate lambda X y W /\ log_gradient (INR k * lambda) X' y' W = log_gradient lambda X y W.
  Proof.
    destruct (cases_copies W HW H) as [(-> & -> & -> & ->)|[(HS & HS')|(Hd & x & X1 & x' & X1' & -> & -> & L1 & L2)]].
    - congruence.
    - assert (Hn : 0 < INR (length X)) by (apply lt_0_INR; destruct X; [destruct HS; congruence|cbn; lia]).
      assert (Ec : / INR (length X') = / INR (length X) / INR k) by (rewrite length_copies, mult_INR; field; lra).
      rewrite !log_evaluate_glm, !log_gradient_glm by assumption. rewrite Ec. split; f_equal; [now apply glm_copies|now apply glm_grad_copies].
    - unfold log_evaluate, log_gradient. rewrite !mv_UB by congruence. split; reflexivity.
  Qed.
End Losses.

Lemma softmax_copies K lambda k X (y : list nat) X' y' W : shapes_mat K X y W -> repeated k X y X' y' ->
  softmax_evaluate K (INR k * lambda) X' y' W = softmax_evaluate K lambda X y W /\ softmax_gradient K (INR k * lambda) X' y' W = softmax_gradient K lambda X y W.
Proof.
  intros HS (Hk & L & H). assert (Pk : 0 < INR k) by (apply lt_0_INR; auto). pose proof HS as (H1 & H2 & H3 & H4 & H5 & H6).
  assert (Hn : 0 < INR (length X)) by (apply lt_0_INR; destruct X; [congruence|cbn; lia]).
  assert (HC : shapes_mat K (copies k X) (copies k y) W).
  { split; [intro E; apply H1; now apply (copies_nil X Hk)|]. split; [assumption|]. split; [now apply width_copies|]. split; [assumption|].
    split; [rewrite !copies_length; congruence|]. intros c Hc. apply H6. now apply (copies_in y c Hk). }
  destruct (softmax_perm (INR k * lambda) HC H) as (<- & <-). rewrite !softmax_evaluate_ok, !softmax_gradient_ok by assumption. split; f_equal.
  - unfold data_loss. rewrite copies_combine, <- copies_map, total_copies, copies_length, mult_INR by assumption. field. lra.
  - apply map_ext. intros (j, w). cbn [fst snd]. unfold sm_grad_row. rewrite copies_length, mult_INR, copies_combine, <- !copies_map by assumption.
    rewrite copies_map2 by (rewrite !map_length, combine_length; lia). rewrite vsum_copies.
    + rewrite vscale_vscale. f_equal; f_equal; field; lra.
    + intros r Hr. apply in_map2 in Hr. destruct Hr as (a & b & _ & Hb & ->). rewrite vscale_length. apply in_map_iff in Hb. destruct Hb as ((x, c) & <- & Hc). cbn [fst snd].
      rewrite residual_length. now apply zrow_length.
Qed.

(** * k-means *)
Lemma vmean_copies nf k l : width nf l -> (0 < k)%nat -> l <> [] -> vmean nf (copies k l) = vmean nf l.
Proof.
  intros HW Hk N. assert (Pk : 0 < INR k) by (apply lt_0_INR; auto). unfold vmean. rewrite vsum_copies, copies_length, mult_INR, vscale_vscale by assumption.
  f_equal. assert (0 < INR (length l)) by (apply lt_0_INR; destruct l; [congruence|cbn; lia]). field. lra.
Qed.
Lemma iteration_copies asserts nf k X C : rows nf X -> rows nf C -> C <> [] -> (0 < k)%nat ->
  iteration asserts nf (length C) (copies k X) C = iteration asserts nf (length C) X C.
Proof.
  intros HX HC Hne Hk. assert (HX' : rows nf (copies k X)) by (apply width_copies; exact HX).
  pose proof (label_of_spec HX HC Hne) as L1. pose proof (label_of_spec HX' HC Hne) as L2.
  destruct (Bool.bool_dec asserts false) as [Ha|Ha]; [|destruct (Nat.eq_dec nf 1) as [Hn|Hn]].
  3: { destruct asserts; [|congruence]. destruct X as [|x X]; [now rewrite (proj2 (copies_nil (@nil (list R)) Hk) eq_refl)|].
       rewrite (iteration_UB (label_of C) HX HC L1 Hn) by discriminate. rewrite (iteration_UB (label_of C) HX' HC L2 Hn); [reflexivity|]. intro E. apply copies_nil in E; [discriminate|assumption]. }
  1, 2: assert (Hc : asserts = false \/ nf = 1%nat) by tauto;
    destruct (iteration_spec (label_of C) HX HC L1 Hc) as (C1 & -> & N1 & E1); destruct (iteration_spec (label_of C) HX' HC L2 Hc) as (C2 & -> & N2 & E2);
    assert (C1 = C2) as <-; [|reflexivity];
    apply nth_ext_error; intros j; rewrite E1, E2; destruct (nth_error C j) as [c|]; [|reflexivity]; cbn [option_map]; f_equal;
    unfold moved; rewrite copies_filter;
    assert (Wf : width nf (filter (fun x => label_of C x =? j)%nat X)) by (intros r Hr; apply filter_In in Hr; apply HX, Hr);
    destruct (filter (fun x => label_of C x =? j)%nat X) as [|a l] eqn:Ef; [now rewrite (proj2 (copies_nil (@nil (list R)) Hk) eq_refl)|];
    destruct (copies k (a :: l)) as [|b m] eqn:Ec; [apply copies_nil in Ec; [discriminate|assumption]|];
    rewrite <- Ec, vmean_copies; auto; discriminate.
Qed.
Lemma lloyd_copies asserts nf tol n k X : rows nf X -> (0 < k)%nat ->
  forall C, rows nf C -> C <> [] -> lloyd asserts nf (length C) tol (copies k X) n C = lloyd asserts nf (length C) tol X n C.
Proof.
  intros HX Hk. destruct X as [|x X]; [intros; now rewrite (proj2 (copies_nil (@nil (list R)) Hk) eq_refl)|].
  induction n as [|n IH]; intros C HC Hne; [reflexivity|]. cbn [lloyd]. rewrite (iteration_copies asserts HX HC Hne Hk).
  destruct (iteration asserts nf (length C) (x :: X) C) as [[C' e]| | |] eqn:E; cbn [bind]; try reflexivity. destruct (Rltb e tol); [reflexivity|].
  destruct (iteration_rows _ HX HC Hne ltac:(discriminate) E) as (R1 & L1). rewrite <- L1. apply IH; [assumption|]. destruct C'; [|discriminate].
  destruct C; [congruence|discriminate].
Qed.

(** * Statistics *)
Lemma col_copies j k X : col j (copies k X) = copies k (col j X).
Proof. unfold col. symmetry. apply copies_map. Qed.
Lemma mean1_copies k v : (0 < k)%nat -> mean1 (copies k v) = mean1 v.
Proof.
  intros Hk. destruct v as [|a v]; [now rewrite (proj2 (copies_nil (@nil R) Hk) eq_refl)|]. assert (Pk : 0 < INR k) by (apply lt_0_INR; auto).
  assert (0 < INR (length (a :: v))) by (apply lt_0_INR; cbn; lia). unfold mean1. rewrite Rsum_copies, copies_length, mult_INR. field. lra.
Qed.
Lemma col_sum_copies nc k X : width nc X -> col_sum nc (copies k X) = map (fun s => INR k * s) (col_sum nc X).
Proof.
  intros HW. rewrite !col_sum_spec by (try apply width_copies; assumption). unfold cols_of. rewrite !map_map. apply map_ext. intros j. now rewrite col_copies, total_copies.
Qed.
Lemma col_means_copies nc k X : (0 < k)%nat -> X <> [] -> width nc X -> col_means nc (copies k X) = col_means nc X.
Proof.
  intros Hk N HW. assert (Pk : 0 < INR k) by (apply lt_0_INR; auto). assert (0 < INR (length X)) by (apply lt_0_INR; destruct X; [congruence|cbn; lia]).
  unfold col_means. rewrite col_sum_copies, map_map, copies_length, mult_INR by assumption. apply map_ext. intros s. field. lra.
Qed.
Lemma entry_table (g : nat -> nat -> R) n m i j : (i < n)%nat -> (j < m)%nat -> entry (map (fun i => map (g i) (seq 0 m)) (seq 0 n)) i j = g i j.
Proof.
  intros Hi Hj. unfold entry. rewrite (nth_indep _ [] (map (g 0%nat) (seq 0 m))) by (now rewrite map_length, seq_length).
  rewrite (map_nth (fun i => map (g i) (seq 0 m))), seq_nth by assumption. rewrite (nth_indep _ 0 (g i 0%nat)) by (now rewrite map_length, seq_length).
  rewrite (map_nth (g (0 + i)%nat)), seq_nth by assumption. reflexivity.
Qed.
Lemma cov_copies nc k X i j : (0 < k)%nat -> (2 <= length X)%nat -> width nc X -> (i < nc)%nat -> (j < nc)%nat ->
  entry (cov nc (copies k X)) i j = entry (cov nc X) i j * (INR k * (INR (length X) - 1) / (INR k * INR (length X) - 1)).
Proof.
  intros Hk N HW Hi Hj. assert (NX : X <> []) by (destruct X; [cbn in N; lia|discriminate]). unfold cov, center. rewrite col_means_copies, <- copies_map by assumption.
  rewrite !entry_table by assumption.
  rewrite <- copies_map, Rsum_copies, copies_length, mult_INR. assert (Pk : 1 <= INR k) by (apply (le_INR 1); lia). assert (2 <= INR (length X)) by (apply (le_INR 2); lia).
  assert (1 * 2 <= INR k * INR (length X)) by (apply Rmult_le_compat; lra). field. lra.
Qed.
(** The sorted column of the copies repeats every entry of the sorted column. *)
Definition stretch {A} (k : nat) (l : list A) : list A := flat_map (fun a => repeat a k) l.
Lemma stretch_length {A} k (l : list A) : length (stretch k l) = (k * length l)%nat.
Proof. induction l as [|a l IH]; [cbn; lia|]. cbn [stretch flat_map length]. fold (stretch k l). rewrite app_length, repeat_length, IH. lia. Qed.
Lemma stretch_perm {A} k (l : list A) : Permutation (stretch k l) (copies k l).
Proof.
  induction k as [|k IH]; [induction l; cbn; auto|]. rewrite copies_S. rewrite <- IH. clear IH. induction l as [|a l IH]; [reflexivity|].
  cbn [stretch flat_map repeat app]. constructor. fold (stretch (S k) l) (stretch k l). rewrite IH. rewrite app_assoc, (Permutation_app_comm (repeat a k) l), <- app_assoc. reflexivity.
Qed.
Lemma stretch_nth {A} k (l : list A) : (0 < k)%nat -> forall i, nth_error (stretch k l) i = nth_error l (i / k).
Proof.
  intros Hk. induction l as [|a l IH]; intros i; cbn [stretch flat_map]; [destruct (i / k)%nat; now destruct i|]. fold (stretch k l).
  destruct (Nat.lt_ge_cases i k) as [H|H].
  - rewrite nth_error_app1, Nat.div_small by (rewrite ?repeat_length; assumption). cbn. now apply nth_error_repeat.
  - rewrite nth_error_app2, repeat_length, IH by (now rewrite repeat_length). replace (i / k)%nat with (S ((i - k) / k)); [reflexivity|].
    replace i with ((i - k) + 1 * k)%nat at 2 by lia. rewrite Nat.div_add by lia. lia.
Qed.
Lemma stretch_In {A} k (l : list A) x : In x (stretch k l) -> In x l.
Proof. intros H. apply in_flat_map in H. destruct H as (a & Ha & Hx). apply repeat_spec in Hx. now subst. Qed.
Lemma stretch_sorted {A} (le : A -> A -> Prop) k l : (forall a, le a a) -> StronglySorted le l -> StronglySorted le (stretch k l).
Proof.
  intros Hr H. induction H as [|a l Hs IH Ha]; [constructor|]. cbn [stretch flat_map]. fold (stretch k l). rewrite Forall_forall in Ha.
  assert (Hk : forall k', StronglySorted le (repeat a k' ++ stretch k l)); [|apply Hk].
  induction k' as [|k' IH']; [exact IH|]. cbn [repeat app]. constructor; [exact IH'|]. apply Forall_forall. intros x Hx. apply in_app_or in Hx.
  destruct Hx as [Hx|Hx]; [apply repeat_spec in Hx; subst; apply Hr|apply Ha; now apply stretch_In in Hx].
Qed.
Lemma isort_copies k v : isort Rltb (copies k v) = stretch k (isort Rltb v).
Proof.
  apply (sorted_perm_unique Rltb_order); [apply (sort_sorted Rltb_order)|apply stretch_sorted; [intros a; apply Rltb_order|apply (sort_sorted Rltb_order)]|].
  rewrite <- isort_perm, stretch_perm. unfold copies. generalize (isort_perm Rltb v). generalize (isort Rltb v). intros w H. clear - H. induction k; cbn; [constructor|]. now apply Permutation_app.
Qed.
Lemma median1_copies k v : (0 < k)%nat -> median1 (copies k v) = median1 v.
Proof.
  intros Hk. unfold median1. rewrite isort_copies, copies_length. set (n := length v). set (s := isort Rltb v). unfold vget. rewrite !stretch_nth by assumption.
  assert (E1 : (k * n / 2 / k = n / 2)%nat).
  { rewrite Nat.div_div by lia. rewrite (Nat.mul_comm 2 k). now apply Nat.div_mul_cancel_l; lia. }
  rewrite E1. destruct (nth_error s (n / 2)) as [a|] eqn:Ea; cbn [bind]; [|reflexivity].
  assert (Hn : (n / 2 < n)%nat). { assert (Ea' : (n / 2 < length s)%nat) by (apply nth_error_Some; congruence). unfold s in Ea'. now rewrite isort_length in Ea'. }
  destruct (Nat.eqb_spec (n mod 2) 0) as [He|He].
  - assert (E2 : n = (2 * (n / 2))%nat) by (pose proof (Nat.div_mod n 2); lia). assert (E3 : ((k * n) mod 2 = 0)%nat) by (rewrite E2; replace (k * (2 * (n / 2)))%nat with (k * (n / 2) * 2)%nat by lia; now apply Nat.mod_mul).
    rewrite E3. cbn [Nat.eqb]. replace ((k * n / 2 - 1) / k)%nat with (n / 2 - 1)%nat; [reflexivity|].
    replace (k * n / 2)%nat with (k * (n / 2))%nat by (rewrite E2 at 2; replace (k * (2 * (n / 2)))%nat with (k * (n / 2) * 2)%nat by lia; now rewrite Nat.div_mul by lia).
    apply (@Nat.div_unique _ k _ (k - 1)%nat); [lia|]. assert (1 <= n / 2)%nat by lia. nia.
  - destruct (Nat.eqb_spec ((k * n) mod 2) 0) as [Hk2|Hk2]; [|reflexivity].
    assert (E2 : n = (2 * (n / 2) + 1)%nat) by (pose proof (Nat.div_mod n 2 ltac:(lia)); pose proof (Nat.mod_upper_bound n 2 ltac:(lia)); lia).
    assert (E3 : (k = 2 * (k / 2))%nat).
    { pose proof (Nat.div_mod k 2 ltac:(lia)) as D. pose proof (Nat.mod_upper_bound k 2 ltac:(lia)) as U. destruct (k mod 2)%nat as [|[|r]] eqn:Er; [lia| |lia]. exfalso.
      rewrite Nat.mul_mod, Er in Hk2 by lia. assert (n mod 2 = 1)%nat by (pose proof (Nat.mod_upper_bound n 2 ltac:(lia)); lia). rewrite H in Hk2. discriminate. }
    replace ((k * n / 2 - 1) / k)%nat with (n / 2)%nat.
    + rewrite Ea. cbn [bind]. f_equal. lra.
    + assert (E4 : (k * n / 2 = k / 2 * n)%nat) by (rewrite E3 at 1; replace (2 * (k / 2) * n)%nat with (k / 2 * n * 2)%nat by lia; now rewrite Nat.div_mul by lia).
      rewrite E4. apply (@Nat.div_unique _ k _ (k / 2 - 1)%nat); [lia|]. assert (1 <= k / 2)%nat by lia. nia.
Qed.

(** * Naive Bayes *)
Lemma rows_with_copies k l X y : length y = length X -> rows_with l (copies k X) (copies k y) = copies k (rows_with l X y).
Proof. intros L. rewrite <- !filter_rows, copies_combine, copies_filter, copies_map by assumption. reflexivity. Qed.
Lemma sorted_same_R : forall a b, StronglySorted Rlt a -> StronglySorted Rlt b -> (forall l, In l a <-> In l b) -> a = b.
Proof.
  intros a b Ha Hb H. apply (sorted_set_unique (R := Rlt)); auto; [intros x; apply Rlt_irrefl|intros x z H1 H2; exact (Rlt_asym _ _ H1 H2)].
Qed.
Lemma classes_copies k y : (0 < k)%nat -> nb_classes (count_labels [] (copies k y)) = nb_classes (count_labels [] y).
Proof.
  intros Hk. unfold nb_classes. destruct (count_labels_spec y) as ((_ & A1) & A2 & _). destruct (count_labels_spec (copies k y)) as ((_ & B1) & B2 & _).
  apply sorted_same_R; [assumption|assumption|]. intros l. rewrite A1, B1. now apply copies_in.
Qed.
Lemma freq_copies k y l : (0 < k)%nat -> y <> [] -> freq Req_EM_T (copies k y) l = freq Req_EM_T y l.
Proof.
  intros Hk N. assert (Pk : 0 < INR k) by (apply lt_0_INR; auto). assert (0 < INR (length y)) by (apply lt_0_INR; destruct y; [congruence|cbn; lia]).
  unfold freq. rewrite copies_count, copies_length, !mult_INR. field. lra.
Qed.
Lemma avg_copies k v : (0 < k)%nat -> avg (copies k v) = avg v.
Proof.
  intros Hk. destruct v as [|a v]; [now rewrite (proj2 (copies_nil (@nil R) Hk) eq_refl)|]. assert (Pk : 0 < INR k) by (apply lt_0_INR; auto).
  assert (0 < INR (length (a :: v))) by (apply lt_0_INR; cbn; lia). unfold avg. rewrite total_copies, copies_length, mult_INR. field. lra.
Qed.
Lemma msd_copies k v : (0 < k)%nat -> mean_sq_dev (copies k v) = mean_sq_dev v.
Proof. intros Hk. unfold mean_sq_dev. rewrite avg_copies, <- copies_map, avg_copies by assumption. reflexivity. Qed.
Lemma max_unique (P : R -> Prop) a b : P a -> P b -> (forall v, P v -> v <= a) -> (forall v, P v -> v <= b) -> a = b.
Proof. intros Ha Hb H1 H2. apply Rle_antisym; auto. Qed.
Lemma total_times {A} (c : R) (f : A -> R) l : total (map (fun p => c * f p) l) = c * total (map f l).
Proof. induction l as [|a l IH]; [cbn; ring|]. cbn [map]. change (c * f a + total (map (fun p => c * f p) l) = c * (f a + total (map f l))). rewrite IH. ring. Qed.
Section Bayes.
  Variables (nf k : nat) (X : list (list R)) (y : list R) (X' : list (list R)) (y' : list R).
  Hypothesis Hnf : (2 <= nf)%nat.
  Hypothesis HW : width nf X.
  Hypothesis Hy : y <> [].
  Hypothesis H : repeated k X y X' y'.
  Lemma gnb_copies eps : exists s s', gnb_fit eps nf gnb0 X y = Ok s /\ gnb_fit eps nf gnb0 X' y' = Ok s' /\
    nb_classes (g_labels s') = nb_classes (g_labels s) /\ g_priors s' = g_priors s /\ g_mean s' = g_mean s /\ g_var s' = g_var s.
  Proof.
    destruct H as (Hk & L & HS). rewrite <- (gnb_fit_perm eps nf HS).
    assert (HW' : width nf (copies k X)) by now apply width_copies. assert (L' : length (copies k X) = length (copies k y)) by (rewrite !copies_length; congruence).
    assert (Hy' : copies k y <> []) by (intro E; now apply copies_nil in E).
    assert (EM : forall l, means_of nf (copies k X) (copies k y) l = means_of nf X y l).
    { intros l. unfold means_of, cols_of. rewrite !map_map. apply map_ext. intros j. now rewrite rows_with_copies, col_copies, avg_copies. }
    assert (EV : forall l, vars_of nf (copies k X) (copies k y) l = vars_of nf X y l).
    { intros l. unfold vars_of, cols_of. rewrite !map_map. apply map_ext. intros j. now rewrite rows_with_copies, col_copies, msd_copies. }
    destruct (gnb_fit_spec Hnf HW (eq_sym L) Hy eps) as (m1 & -> & A1 & A2). destruct (gnb_fit_spec Hnf HW' L' Hy' eps) as (m2 & -> & B1 & B2).
    assert (m1 = m2) as <-.
    { apply (max_unique (fun v => exists l, In l y /\ In v (vars_of nf X y l))).
      - exact A1.
      - destruct B1 as (l & I1 & I2). exists l. rewrite EV in I2. apply copies_in in I1; auto.
      - intros v (l & I1 & I2). now apply (A2 l).
      - intros v (l & I1 & I2). apply (B2 l); [now apply copies_in|]. now rewrite EV. }
    do 2 eexists. split; [reflexivity|]. split; [reflexivity|]. cbn [g_labels g_priors g_mean g_var]. rewrite classes_copies by assumption.
    split; [reflexivity|]. split; [apply map_ext; intros; now apply freq_copies|]. split; [apply map_ext; intros; apply EM|]. apply map_ext. intros l. now rewrite EV.
  Qed.
  Lemma mnb_copies : exists s s', mnb_fit false nf mnb0 X y = Ok s /\ mnb_fit false nf mnb0 X' y' = Ok s' /\
    nb_classes (m_labels s') = nb_classes (m_labels s) /\ m_priors s' = m_priors s /\
    m_feature_count s' = map (vscale (INR k)) (m_feature_count s) /\ m_class_count s' = vscale (INR k) (m_class_count s).
  Proof.
    destruct H as (Hk & L & HS). rewrite <- (mnb_fit_perm false nf HS).
    assert (HW' : width nf (copies k X)) by now apply width_copies. assert (L' : length (copies k X) = length (copies k y)) by (rewrite !copies_length; congruence).
    assert (ET : forall l j, total (col j (rows_with l (copies k X) (copies k y))) = INR k * total (col j (rows_with l X y))).
    { intros l j. now rewrite rows_with_copies, col_copies, total_copies. }
    rewrite !mnb_fit_spec by auto.
    do 2 eexists. split; [reflexivity|]. split; [reflexivity|]. cbn [m_labels m_priors m_feature_count m_class_count]. rewrite classes_copies by assumption.
    split; [reflexivity|]. split; [apply map_ext; intros; now apply freq_copies|]. unfold vscale. rewrite !map_map. split; apply map_ext; intros l.
    - rewrite map_map. apply map_ext. intros j. apply ET.
    - rewrite (map_ext _ _ (ET l)). apply (total_times (INR k) (fun j => total (col j (rows_with l X y)))).
  Qed.
End Bayes.
Lemma share_copies k alpha nf rs j : (0 < k)%nat -> total (map (fun k => total (col k rs)) (seq 0 nf)) + alpha * INR nf <> 0 ->
  smoothed_share (INR k * alpha) nf (copies k rs) j = smoothed_share alpha nf rs j.
Proof.
  intros Hk N. assert (Pk : 0 < INR k) by (apply lt_0_INR; auto). unfold smoothed_share. rewrite col_copies, total_copies.
  rewrite (map_ext _ (fun i => INR k * total (col i rs)) (fun i => eq_trans (f_equal total (col_copies i k rs)) (total_copies k (col i rs)))).
  rewrite (total_times (INR k) (fun i => total (col i rs))). revert N. generalize (total (map (fun i => total (col i rs)) (seq 0 nf))). intros T N.
  replace (INR k * T + INR k * alpha * INR nf) with (INR k * (T + alpha * INR nf)) by ring. field. split; [exact N|lra].
Qed.

(** * Least squares *)
Lemma rss_copies k i X y X' y' w : repeated k X y X' y' -> rss i X' y' w = INR k * rss i X y w.
Proof.
  intros (Hk & L & (_ & _ & HP)). unfold rss. rewrite <- (total_perm (Permutation_map _ HP)), copies_combine, <- copies_map, total_copies by assumption. reflexivity.
Qed.
Lemma unique_minimum_scale n F G w k : 0 < k -> (forall v, length v = n -> G v = k * F v) -> unique_minimum n F w -> unique_minimum n G w.
Proof.
  intros Hk E (L & U). split; [assumption|]. intros v Lv. destruct (U v Lv) as (U1 & U2). rewrite !E by assumption. split; [apply Rmult_le_compat_l; lra|].
  intros Hle. apply U2. now apply Rmult_le_reg_l in Hle.
Qed.
Lemma unique_minimum_same n F w w' : unique_minimum n F w -> unique_minimum n F w' -> w = w'.
Proof. intros (L & U) (L' & U'). symmetry. apply (U w' L'). apply (U' w L). Qed.

(** * Gradient descent on the whole data set *)
Section Full.
  Context {Row Lab S : Type}.
  Variable step : S -> R -> nat -> list Row -> list Lab -> outcome (S * R).
  Variable decay : nat -> outcome R.
  Variable perm : nat -> list nat.
  Variable shuffle : bool.
  Variable nc : nat.
  Variable tol : R.
  Variables (X0 : list Row) (y0 : list Lab).
  Variable G : S -> R -> outcome (S * R).
  Hypothesis HG : forall s lr X y, same_rows X0 y0 X y -> step s lr 0 X y = G s lr.
  Hypothesis HN : X0 <> [].
  Hypothesis Hp : forall i, is_perm (length X0) (perm i).
  Fixpoint full_run (slack : R) (iters : list nat) (best : option R) (count : nat) (s : S) : outcome S :=
    match iters with
    | [] => Throw RuntimeError
    | iter :: rest =>
        let! lr := decay iter in
        let! r := G s lr in
        let count := if (match best with None => false | Some b => Rltb (b - slack) (snd r) end) then Datatypes.S count else 0%nat in
        if (nc <=? count)%nat then Ok (fst r) else full_run slack rest (better (snd r) best) count (fst r)
    end.
  Lemma middle_all {A} (l : list A) : middle_rows l 0 (length l) = Ok l.
  Proof. unfold middle_rows. cbn [Nat.add skipn]. now rewrite Nat.leb_refl, firstn_all. Qed.
  Lemma epochs_full iters : forall X y best count s, same_rows X0 y0 X y ->
    epochs step decay perm shuffle (length X0) nc tol iters X y best count s = full_run (tol * INR (length X0)) iters best count s.
  Proof.
    induction iters as [|it rest IH]; intros X y best count s HS; cbn [epochs full_run]; [reflexivity|].
    assert (exists X1 y1, reshuffle perm shuffle it X y = Ok (X1, y1) /\ same_rows X0 y0 X1 y1) as (X1 & y1 & -> & H1).
    { unfold reshuffle. destruct shuffle; [|exists X, y; auto]. destruct HS as (K1 & K2 & K3).
      assert (L : length X = length X0) by (apply Permutation_length in K3; rewrite !combine_length in K3; lia).
      destruct (@shuffle2_spec Row Lab (length X0) (perm it) X y (Hp it) L ltac:(congruence)) as (X1 & y1 & E & (R1 & R2 & R3) & _).
      exists X1, y1. split; [assumption|]. split; [assumption|]. split; [congruence|]. eauto using Permutation_trans. }
    cbn [bind fst snd]. unfold run_epoch. destruct (decay it) as [lr| | |]; cbn [bind]; try reflexivity.
    assert (L1 : length X1 = length X0) by (symmetry; exact (Permutation_length (same_rows_X H1))). assert (L2 : length y1 = length X0) by (destruct H1 as (_ & -> & _); exact L1).
    rewrite L1, Nat.div_same by (destruct X0; [congruence|discriminate]). cbn [seq foldM]. unfold run_batch. cbn [Nat.mul fst snd app].
    rewrite <- L1 at 1. rewrite middle_all. cbn [bind]. rewrite <- L2 at 1. rewrite middle_all. cbn [bind]. rewrite (HG s lr H1).
    destruct (G s lr) as [r| | |]; cbn [bind fst snd]; try reflexivity. unfold Rsum. cbn [fold_left]. rewrite Rplus_0_l. unfold not_improved.
    destruct (nc <=? _)%nat; [reflexivity|]. now apply IH.
  Qed.
End Full.
