(** C76: the order in which the features are given does not matter, except where the code breaks ties between features.
    Arithmetic is exact (over the reals). *)
From Coq Require Import Reals Lra Lia QArith String.
From Verif Require Import Base Sorting Common_Model Argsort_Model Split_Model Tree_Model Tree_Spec Tree_Proofs TreeReal_Proofs KDTree_Model KDTree_Spec KDReal_Proofs Impurity_Model Impurity_Spec Impurity_Proofs Vec MathFun_Model Stats_Model
  Loss_Model Shuffle_Model Optim_Model Lbfgs_Model NB_Model Linear_Model Linear_Spec KMeans_Model Objects_Model Units_Spec UnitsMono_Proofs UnitsCase_Proofs Properties_Units
  Cols_Spec Cols_Proofs ColsLbfgs_Proofs ColsMore_Proofs ColsLin_Proofs ColsTree_Proofs.
Local Open Scope list_scope.
Local Open Scope R_scope.

(** Three features, the last one moved to the front; data to show cases with. *)
Definition last_first : list nat := [2; 0; 1]%nat.
Lemma last_first_order : column_order 3 last_first.
Proof. unfold column_order, last_first. change (seq 0 3) with ([0; 1] ++ [2])%nat. apply (Permutation_app_comm [0; 1]%nat [2]%nat). Qed.
Definition three_cols : list (list R) := [[1; 5; 7]; [2; 4; 9]].
Lemma three_cols_width : width 3 three_cols.
Proof. intros r [<-|[<-|[]]]; reflexivity. Qed.
Example last_first_case : reorder_columns last_first three_cols = [[7; 1; 5]; [9; 2; 4]].
Proof. reflexivity. Qed.
Lemma rows_reordered d s X : width d X -> Forall2 (reordered d s) X (reorder_columns s X).
Proof.
  intros H. unfold reorder_columns. induction X as [|r X IH]; constructor; [split; [apply H; now left|reflexivity]|]. apply IH. intros a Ha. apply H. now right.
Qed.
Lemma vec_reordered d s w : List.length w = d -> reordered d s w (reorder 0 s w).
Proof. now split. Qed.

(** ** The loss functions: the same value, and the gradient in the new order. *)
Theorem C76_losses : forall d s X y w lambda, column_order d s -> width d X -> List.length w = d ->
  let X' := reorder_columns s X in let w' := reorder 0 s w in
  (mse_evaluate lambda X' y w' = mse_evaluate lambda X y w /\ same_outcome (reordered d s) (mse_gradient lambda X y w) (mse_gradient lambda X' y w')) /\
  (log_evaluate lambda X' y w' = log_evaluate lambda X y w /\ same_outcome (reordered d s) (log_gradient lambda X y w) (log_gradient lambda X' y w')) /\
  (forall delta, huber_evaluate lambda delta X' y w' = huber_evaluate lambda delta X y w /\
                 same_outcome (reordered d s) (huber_gradient lambda delta X y w) (huber_gradient lambda delta X' y w')) /\
  (forall threshold grad0, List.length grad0 = d -> hinge_evaluate lambda threshold X' y w' = hinge_evaluate lambda threshold X y w /\
                 same_outcome (reordered d s) (hinge_gradient grad0 lambda threshold X y w) (hinge_gradient (reorder 0 s grad0) lambda threshold X' y w')).
Proof.
  intros d s X y w lambda Hs HW L. cbv zeta. pose proof (rows_reordered d s X HW) as HX. pose proof (vec_reordered d s w L) as Hw.
  split; [now apply mse_rel|]. split; [now apply log_rel|]. split; [intros delta; now apply huber_rel|].
  intros t g Lg. apply hinge_rel; auto. now apply vec_reordered.
Qed.
Print Assumptions C76_losses.
Example C76_losses_case := C76_losses 3 last_first three_cols [0; 1] [1; 2; 3] (1 / 2) last_first_order three_cols_width eq_refl.

Theorem C76_softmax_loss : forall d K s lambda X y W, column_order d s -> width d X -> List.length W = d ->
  softmax_evaluate K lambda (reorder_columns s X) y (reorder [] s W) = softmax_evaluate K lambda X y W /\
  same_outcome (reordered_rows d s) (softmax_gradient K lambda X y W) (softmax_gradient K lambda (reorder_columns s X) y (reorder [] s W)).
Proof. intros d K s lambda X y W Hs HW L. apply softmax_rel; [exact Hs|now apply rows_reordered|now split]. Qed.
Print Assumptions C76_softmax_loss.
Example C76_softmax_loss_case := C76_softmax_loss 3 2 last_first 1 three_cols [0; 1]%nat [[1; 2]; [3; 4]; [5; 6]] last_first_order three_cols_width eq_refl.

(** ** The optimizers: the weights in the new order.  The loss may be any function of which [loss_reorders] holds,
    such as those above. *)
Definition loss_reorders (d : nat) (s : list nat) (evaluate : list (list R) -> list R -> list R -> outcome R)
  (gradient : list (list R) -> list R -> list R -> outcome (list R)) : Prop :=
  forall X y w, width d X -> List.length w = d ->
    evaluate (reorder_columns s X) y (reorder 0 s w) = evaluate X y w /\
    same_outcome (reordered d s) (gradient X y w) (gradient (reorder_columns s X) y (reorder 0 s w)).
Lemma reorders_rel d s evaluate gradient : loss_reorders d s evaluate gradient -> loss_rel d s evaluate gradient gradient.
Proof.
  intros H X X' y W W' HX (L & ->). assert (width d X /\ X' = reorder_columns s X) as (HW & ->).
  { clear - HX. induction HX as [|x x' X X' (Lx & ->) HX (IH & ->)]; [split; [intros r []|reflexivity]|]. split; [intros r [<-|Hr]; auto|reflexivity]. }
  now apply H.
Qed.
Theorem C76_sgd : forall d s evaluate gradient mu decay perm shuffle batch_size no_change tol max_iter X y w,
  column_order d s -> loss_reorders d s evaluate gradient -> width d X -> List.length w = d ->
  forall update, In update [vanilla_update; momentum_update mu; nesterov_update mu] ->
  same_outcome (reordered d s)
    (optimize (sgd_step gradient evaluate clip_grad update) decay perm shuffle batch_size no_change tol max_iter X y w)
    (optimize (sgd_step gradient evaluate clip_grad update) decay perm shuffle batch_size no_change tol max_iter (reorder_columns s X) y (reorder 0 s w)).
Proof.
  intros d s ev gr mu decay perm sh bs nc tol n X y w Hs HL HW L update Hu. apply reorders_rel in HL.
  assert (Up : update_rel d s update). { destruct Hu as [<-|[<-|[<-|[]]]]; [now apply vanilla_rel|now apply momentum_rel|now apply nesterov_rel]. }
  apply (optimize_rel (rr := reordered d s)); [|now apply rows_reordered|now apply vec_reordered]. intros. now apply sgd_rel.
Qed.
Print Assumptions C76_sgd.
Lemma log_reorders d s lambda : column_order d s -> loss_reorders d s (log_evaluate lambda) (log_gradient lambda).
Proof. intros Hs X y w HW L. now apply C76_losses. Qed.
Example C76_sgd_case := fun n => C76_sgd 3 last_first (log_evaluate 1) (log_gradient 1) (9 / 10) (step_decay 1 (1 / 2) 10) (fun _ => [1; 0]%nat) true 1 5 0 n
  three_cols [0; 1] [1; 2; 3] last_first_order (log_reorders 3 last_first 1 last_first_order) three_cols_width eq_refl _ (or_introl eq_refl).

Theorem C76_sag : forall d s evaluate gradient decay perm shuffle batch_size no_change tol max_iter n X y w,
  column_order d s -> loss_reorders d s evaluate gradient -> width d X -> List.length w = d ->
  same_outcome (fun a b => reordered d s (sg_w a) (sg_w b))
    (optimize (sag_step gradient evaluate vanilla_update batch_size) decay perm shuffle batch_size no_change tol max_iter X y (sag_init w d n))
    (optimize (sag_step gradient evaluate vanilla_update batch_size) decay perm shuffle batch_size no_change tol max_iter (reorder_columns s X) y (sag_init (reorder 0 s w) d n)).
Proof.
  intros d s ev gr decay perm sh bs nc tol it n X y w Hs HL HW L. apply reorders_rel in HL.
  assert (H := @optimize_rel _ _ R _ _ (reordered d s) (sag_rel d s) (sag_step gr ev vanilla_update bs) (sag_step gr ev vanilla_update bs)
     ltac:(intros; apply (sag_step_rel Hs HL (vanilla_rel Hs)); assumption)
     decay perm sh bs nc tol it X (reorder_columns s X) y (sag_init w d n) (sag_init (reorder 0 s w) d n) ltac:(now apply rows_reordered) ltac:(apply (sag_init_rel Hs); now apply vec_reordered)).
  destruct (optimize _ _ _ _ _ _ _ _ X _ _), (optimize _ _ _ _ _ _ _ _ (reorder_columns s X) _ _); cbn in *; auto. apply H.
Qed.
Print Assumptions C76_sag.
Example C76_sag_case := fun n => C76_sag 3 last_first (log_evaluate 1) (log_gradient 1) (step_decay 1 (1 / 2) 10) (fun _ => [1; 0]%nat) true 1 5 0 n 2
  three_cols [0; 1] [1; 2; 3] last_first_order (log_reorders 3 last_first 1 last_first_order) three_cols_width eq_refl.

Theorem C76_truncated_gradient : forall d s evaluate gradient alpha l1 decay perm shuffle batch_size no_change tol max_iter X y w,
  column_order d s -> loss_reorders d s evaluate gradient -> width d X -> List.length w = d ->
  same_outcome (fun a b => reordered d s (tg_w a) (tg_w b))
    (optimize (tg_step gradient evaluate vanilla_update alpha l1) decay perm shuffle batch_size no_change tol max_iter X y (tg_init w d))
    (optimize (tg_step gradient evaluate vanilla_update alpha l1) decay perm shuffle batch_size no_change tol max_iter (reorder_columns s X) y (tg_init (reorder 0 s w) d)).
Proof.
  intros d s ev gr alpha l1 decay perm sh bs nc tol it X y w Hs HL HW L. apply reorders_rel in HL.
  assert (HI : tg_rel d s (tg_init w d) (tg_init (reorder 0 s w) d)).
  { split; [now apply vec_reordered|]. split; [|reflexivity]. cbn. apply (rel_zeros Hs). }
  assert (H := @optimize_rel _ _ R _ _ (reordered d s) (tg_rel d s) (tg_step gr ev vanilla_update alpha l1) (tg_step gr ev vanilla_update alpha l1)
     ltac:(intros; apply (tg_step_rel Hs HL (vanilla_rel Hs)); assumption)
     decay perm sh bs nc tol it X (reorder_columns s X) y (tg_init w d) (tg_init (reorder 0 s w) d) ltac:(now apply rows_reordered) HI).
  destruct (optimize _ _ _ _ _ _ _ _ X _ _), (optimize _ _ _ _ _ _ _ _ (reorder_columns s X) _ _); cbn in *; auto. apply H.
Qed.
Print Assumptions C76_truncated_gradient.
Example C76_truncated_gradient_case := fun n => C76_truncated_gradient 3 last_first (log_evaluate 1) (log_gradient 1) 1 (1 / 2) (step_decay 1 (1 / 2) 10) (fun _ => [1; 0]%nat) true 1 5 0 n
  three_cols [0; 1] [1; 2; 3] last_first_order (log_reorders 3 last_first 1 last_first_order) three_cols_width eq_refl.

(** L-BFGS minimises any function; what it finds in its memory is reordered too. *)
Theorem C76_lbfgs : forall d s policy P evaluate evaluate' gradient gradient' mem_size past max_iter tol delta fuel ms my mys pfx x,
  column_order d s ->
  (forall w, List.length w = d -> evaluate' (reorder 0 s w) = evaluate w /\ same_outcome (reordered d s) (gradient w) (gradient' (reorder 0 s w))) ->
  width d ms -> width d my -> List.length x = d ->
  same_outcome (reordered_option d s)
    (lbfgs_optimize policy P evaluate gradient mem_size past max_iter tol delta fuel (ms, my, mys) pfx x)
    (lbfgs_optimize policy P evaluate' gradient' mem_size past max_iter tol delta fuel (reorder_columns s ms, reorder_columns s my, mys) pfx (reorder 0 s x)).
Proof.
  intros d s policy P ev ev' gr gr' mem past n tol delta fuel ms my mys pfx x Hs H Wm Wy L.
  assert (He : forall w w', reordered d s w w' -> ev' w' = ev w) by (intros w w' (Lw & ->); now apply H).
  assert (Hg : forall w w', reordered d s w w' -> same_outcome (reordered d s) (gr w) (gr' w')) by (intros w w' (Lw & ->); now apply H).
  unfold lbfgs_optimize. destruct policy; cbv iota. all: try match goal with |- same_outcome _ (Throw _) _ => reflexivity end.
  all: apply lbfgs_rel; auto; [intros; now apply line_search_rel|now apply rows_reordered|now apply rows_reordered|now apply vec_reordered].
Qed.
Print Assumptions C76_lbfgs.
Lemma log_at d s lambda X y : column_order d s -> width d X -> forall w, List.length w = d ->
  log_evaluate lambda (reorder_columns s X) y (reorder 0 s w) = log_evaluate lambda X y w /\
  same_outcome (reordered d s) (log_gradient lambda X y w) (log_gradient lambda (reorder_columns s X) y (reorder 0 s w)).
Proof. intros Hs HW w L. now apply C76_losses. Qed.
Example C76_lbfgs_case := fun P fuel => C76_lbfgs 3 last_first Backtracking P (log_evaluate 1 three_cols [0; 1]) (log_evaluate 1 (reorder_columns last_first three_cols) [0; 1])
  (log_gradient 1 three_cols [0; 1]) (log_gradient 1 (reorder_columns last_first three_cols) [0; 1]) 2 1 10 0 0 fuel three_cols three_cols [1; 1] [0; 0] [1; 2; 3]
  last_first_order (log_at 3 last_first 1 three_cols [0; 1] last_first_order three_cols_width) three_cols_width three_cols_width eq_refl.

(** ** Linear and ridge regression; an intercept stays last. *)
Theorem C76_least_squares : forall d s intercept X y, column_order d s -> width d X ->
  same_outcome (reordered_option (n_coef intercept d) (keep_last intercept d s)) (linear_fit intercept d X y) (linear_fit intercept d (reorder_columns s X) y) /\
  (forall lambda, 0 < lambda ->
     same_outcome (reordered_option (n_coef intercept d) (keep_last intercept d s)) (ridge_fit lambda intercept d X y) (ridge_fit lambda intercept d (reorder_columns s X) y)) /\
  forall w Q, List.length w = n_coef intercept d -> width d Q ->
    predict_label intercept (reorder 0 (keep_last intercept d s) w) d (reorder_columns s Q) = predict_label intercept w d Q.
Proof.
  intros d s i X y Hs HW. split; [apply linear_rel; [exact Hs|now apply rows_reordered]|]. split.
  - intros lambda Hl. apply ridge_rel; [exact Hs|exact Hl|now apply rows_reordered].
  - intros w q L HQ. apply (predict_label_rel Hs); [now apply vec_reordered|now apply rows_reordered].
Qed.
Print Assumptions C76_least_squares.
Example C76_least_squares_case := C76_least_squares 3 last_first true three_cols [0; 1] last_first_order three_cols_width.

(** ** Logistic regression with any solver but the one for an L1 penalty, and its predictions. *)
Definition reorder_scratch (s : list nat) (sc : scratch) : scratch :=
  let '(ms, my, mys) := sc_mem sc in Scratch (sc_fuel sc) (reorder_columns s ms, reorder_columns s my, mys) (sc_pfx sc).
Theorem C76_logistic : forall d s o sc perm w0 X y, column_order d s -> l_penalty o <> "l1"%string ->
  width d X -> List.length w0 = S d -> width (S d) (fst (fst (sc_mem sc))) -> width (S d) (snd (fst (sc_mem sc))) ->
  same_outcome (reordered_option (S d) (s ++ [d]))
    (logistic_object_fit o sc perm w0 d X y)
    (logistic_object_fit o (reorder_scratch (s ++ [d]) sc) perm (reorder 0 (s ++ [d]) w0) d (reorder_columns s X) y) /\
  forall w Q, List.length w = S d -> width d Q ->
    logistic_predict (reorder 0 (s ++ [d]) w) d (reorder_columns s Q) = logistic_predict w d Q /\
    logistic_predict_prob (reorder 0 (s ++ [d]) w) d (reorder_columns s Q) = logistic_predict_prob w d Q.
Proof.
  intros d s o sc perm w0 X y Hs Hp HW L Wm Wy. pose proof (keep_order Hs true) as HK. cbn [n_coef keep_last] in HK. rewrite Nat.add_1_r in HK. split.
  - pose proof (ones_rel Hs true (rows_reordered d s X HW)) as HX. cbn [n_coef keep_last] in HX. rewrite Nat.add_1_r in HX.
    assert (HL : loss_rel (S d) (s ++ [d]) (log_evaluate (l_lambda o)) (log_gradient (l_lambda o)) (log_gradient (l_lambda o))) by now apply log_rel.
    assert (Hw : reordered (S d) (s ++ [d]) w0 (reorder 0 (s ++ [d]) w0)) by now apply vec_reordered.
    unfold logistic_object_fit, logistic_fit. cbn [lp_lambda lp_alpha lp_gamma lp_step_size lp_shuffle lp_batch lp_no_change lp_tol lp_max_iter lp_l1_ratio lp_lbfgs].
    apply same_bind. intros k Hk. destruct k.
    + apply (@orel_bind _ _ _ _ (reordered (S d) (s ++ [d]))); [|intros a b _ _ H; exact H].
      apply (optimize_rel (rr := reordered (S d) (s ++ [d]))); auto. intros. apply sgd_rel; auto. now apply vanilla_rel.
    + apply (@orel_bind _ _ _ _ (sag_rel (S d) (s ++ [d]))); [|intros a b _ _ H; apply H].
      replace (List.length (reorder_columns s X)) with (List.length X) by (unfold reorder_columns; now rewrite map_length).
      apply (optimize_rel (rr := reordered (S d) (s ++ [d]))); auto. 2: now apply (sag_init_rel HK). intros. apply (sag_step_rel HK HL (vanilla_rel HK)); auto.
    + unfold reorder_scratch. destruct sc as [fuel [[ms my] mys] pfx]. cbn [sc_mem sc_fuel sc_pfx fst snd] in *. apply C76_lbfgs; auto.
      intros w Lw. destruct (HL _ _ y w _ HX (vec_reordered _ _ w Lw)) as (A & B). auto.
    + exfalso. unfold logistic_solver in Hk. destruct (_ || _)%bool.
      * destruct (String.eqb _ _); [discriminate|]. destruct (String.eqb _ _); [discriminate|]. destruct (String.eqb _ _); discriminate.
      * destruct (String.eqb (l_penalty o) "l1") eqn:E; [|discriminate]. apply String.eqb_eq in E. contradiction.
  - intros w q Lw HQ. unfold logistic_predict, logistic_predict_prob. pose proof (@predict_label_rel d s Hs true w (reorder 0 (s ++ [d]) w) q _ ltac:(cbn; rewrite Nat.add_1_r; now apply vec_reordered) (rows_reordered d s q HQ)) as ->.
    auto.
Qed.
Print Assumptions C76_logistic.
Lemma four_width : width 4 [[1; 2; 3; 4]].
Proof. intros r [<-|[]]. reflexivity. Qed.
Example C76_logistic_case := fun fuel m => C76_logistic 3 last_first (logistic_default m) (Scratch fuel ([[1; 2; 3; 4]], [[1; 2; 3; 4]], [0]) [0]) (fun _ => [1; 0]%nat) [0; 0; 0; 1] three_cols [0; 1]
  last_first_order ltac:(cbn; discriminate) three_cols_width eq_refl four_width four_width.

(** ** The perceptron, and its predictions. *)
Theorem C76_perceptron : forall d s o grad0 w0 perm X y, column_order d s -> width d X -> List.length w0 = d -> List.length grad0 = d ->
  same_outcome (reordered d s)
    (perceptron_object_fit o grad0 w0 perm X y)
    (perceptron_object_fit o (reorder 0 s grad0) (reorder 0 s w0) perm (reorder_columns s X) y) /\
  forall intercept w Q, List.length w = n_coef intercept d -> width d Q ->
    perceptron_predict intercept (reorder 0 (keep_last intercept d s) w) d (reorder_columns s Q) = perceptron_predict intercept w d Q.
Proof.
  intros d s o g0 w0 perm X y Hs HW L Lg. split.
  - unfold perceptron_object_fit, perceptron_fit. apply (optimize_rel (rr := reordered d s)); [|now apply rows_reordered|now apply vec_reordered].
    intros. apply sgd_rel; auto; [apply hinge_rel; auto; now apply vec_reordered|now apply vanilla_rel].
  - intros i w q Lw HQ. unfold perceptron_predict. rewrite (predict_label_rel Hs i (vec_reordered _ _ w Lw) (rows_reordered d s q HQ)). reflexivity.
Qed.
Print Assumptions C76_perceptron.
Example C76_perceptron_case := C76_perceptron 3 last_first perceptron_default [7; 8; 9] [1; 2; 3] (fun _ => [1; 0]%nat) three_cols [1; -1] last_first_order three_cols_width eq_refl eq_refl.

(** ** k-means: the centroids in the new order, and the same clusters. *)
Theorem C76_kmeans : forall asserts d s K tol max_iter init X, column_order d s -> width d X ->
  same_outcome (Forall2 (reordered d s)) (kmeans_fit asserts d K tol max_iter init X) (kmeans_fit asserts d K tol max_iter init (reorder_columns s X)) /\
  forall C Q, width d C -> width d Q -> KMeans_Model.predict K (reorder_columns s C) (reorder_columns s Q) = KMeans_Model.predict K C Q.
Proof.
  intros a d s K tol n init X Hs HW. split; [apply fit_rel; [exact Hs|now apply rows_reordered]|].
  intros C q HC HQ. apply (predict_rel Hs); now apply rows_reordered.
Qed.
Print Assumptions C76_kmeans.
Example C76_kmeans_case := fun init => C76_kmeans true 3 last_first 2 0 10 init three_cols last_first_order three_cols_width.

(** ** Naive Bayes: the same classes, priors and predictions. *)
Theorem C76_gaussian_nb : forall eps d s m0 X y, column_order d s -> (2 <= d)%nat -> width d X ->
  same_outcome (fun m m' => g_labels m' = g_labels m /\ g_priors m' = g_priors m /\
      Forall2 (reordered d s) (g_mean m) (g_mean m') /\ Forall2 (reordered d s) (g_var m) (g_var m') /\
      forall asserts Q, width d Q -> gnb_predict_prob asserts m' (reorder_columns s Q) = gnb_predict_prob asserts m Q /\
                                     gnb_predict asserts m' (reorder_columns s Q) = gnb_predict asserts m Q)
    (gnb_fit eps d m0 X y) (gnb_fit eps d m0 (reorder_columns s X) y).
Proof.
  intros eps d s m0 X y Hs Hd HW. pose proof (gnb_fit_rel Hs eps m0 y Hd (rows_reordered d s X HW)) as H.
  destruct (gnb_fit eps d m0 X y) as [m| | |], (gnb_fit eps d m0 (reorder_columns s X) y) as [m'| | |]; cbn in *; auto.
  pose proof H as (H1 & H2 & H3 & H4). repeat (split; [assumption|]). intros a q HQ. unfold gnb_predict_prob, gnb_predict.
  rewrite (gnb_jll_rel Hs a H (rows_reordered d s q HQ)). rewrite H1. auto.
Qed.
Print Assumptions C76_gaussian_nb.
Example C76_gaussian_nb_case := C76_gaussian_nb 1 3 last_first gnb0 three_cols [0; 1] last_first_order ltac:(repeat constructor) three_cols_width.

Theorem C76_multinomial_nb : forall asserts d s m0 X y, column_order d s -> (2 <= d)%nat -> width d X ->
  same_outcome (fun m m' => m_labels m' = m_labels m /\ m_priors m' = m_priors m /\ m_class_count m' = m_class_count m /\
      Forall2 (reordered d s) (m_feature_count m) (m_feature_count m') /\
      forall alpha Q, width d Q -> mnb_predict_prob alpha m' (reorder_columns s Q) = mnb_predict_prob alpha m Q /\
                                   mnb_predict alpha m' (reorder_columns s Q) = mnb_predict alpha m Q)
    (mnb_fit asserts d m0 X y) (mnb_fit asserts d m0 (reorder_columns s X) y).
Proof.
  intros asserts d s m0 X y Hs Hd HW. pose proof (mnb_fit_rel Hs asserts m0 y Hd (rows_reordered d s X HW)) as H.
  destruct (mnb_fit asserts d m0 X y) as [m| | |], (mnb_fit asserts d m0 (reorder_columns s X) y) as [m'| | |]; cbn in *; auto.
  pose proof H as (H1 & H2 & H3 & H4 & H5 & H6). repeat (split; [assumption|]). intros a q HQ. unfold mnb_predict_prob, mnb_predict.
  rewrite (mnb_jll_rel Hs a H (rows_reordered d s q HQ)). rewrite H1. auto.
Qed.
Print Assumptions C76_multinomial_nb.
Example C76_multinomial_nb_case := C76_multinomial_nb true 3 last_first mnb0 three_cols [0; 1] last_first_order ltac:(repeat constructor) three_cols_width.

Lemma order_seq d s : column_order d s -> map (fun k => nth k s 0%nat) (seq 0 d) = s.
Proof.
  intros Hs. apply (nth_ext _ _ 0%nat 0%nat); [now rewrite map_length, seq_length, (order_length Hs)|]. intros n Hn. rewrite map_length, seq_length in Hn.
  rewrite (nth_map_in _ (seq 0 d) 0%nat 0%nat) by (rewrite seq_length; lia). now rewrite seq_nth by lia.
Qed.
Lemma mapM_ext_in {A B} (f g : A -> outcome B) l : (forall a, In a l -> f a = g a) -> mapM f l = mapM g l.
Proof. induction l as [|a l IH]; [reflexivity|]. intros H. cbn [mapM]. rewrite (H a (or_introl eq_refl)), IH; [reflexivity|]. intros b Hb. apply H. now right. Qed.
Lemma mapM_map {A B C} (f : B -> outcome C) (g : A -> B) l : mapM f (map g l) = mapM (fun a => f (g a)) l.
Proof. induction l as [|a l IH]; [reflexivity|]. cbn [map mapM]. now rewrite IH. Qed.
Lemma median_total v : v <> [] -> exists m, median1 v = Ok m.
Proof.
  intros H. unfold median1. pose proof (Permutation_length (isort_perm Rltb v)) as L. assert (0 < List.length v)%nat by (destruct v; [congruence|cbn; lia]).
  assert (Hd : (List.length v / 2 < List.length v)%nat) by (apply Nat.div_lt; lia).
  assert (V : forall k, (k < List.length v)%nat -> exists m, vget (isort Rltb v) k = Ok m). { intros k Hk. unfold vget. destruct (nth_error _ k) eqn:E; [eauto|]. apply nth_error_None in E. lia. }
  destruct (V _ Hd) as (m & ->). cbn [bind]. destruct (_ =? _)%nat; [|eauto]. destruct (V (List.length v / 2 - 1)%nat) as (m' & ->); [lia|]. cbn. eauto.
Qed.
(** ** Statistics: one number per feature follows the features; those over rows or over everything stay. *)
Theorem C76_statistics : forall d s X, column_order d s -> width d X ->
  let X' := reorder_columns s X in
  (forall axis, (axis = 1 \/ axis = -1)%Z ->
     Stats_Model.sum d X' axis = Stats_Model.sum d X axis /\ mean d X' axis = mean d X axis /\ var d X' axis = var d X axis /\ median d X' axis = median d X axis) /\
  same_outcome (Forall2 (reordered d s)) (Stats_Model.sum d X 0) (Stats_Model.sum d X' 0) /\
  same_outcome (Forall2 (reordered d s)) (mean d X 0) (mean d X' 0) /\
  same_outcome (Forall2 (reordered d s)) (var d X 0) (var d X' 0) /\
  same_outcome (reordered d s) (median d X 0) (median d X' 0) /\
  cov d X' = reorder [] s (reorder_columns s (cov d X)).
Proof.
  intros d s X Hs HW. cbv zeta. pose proof (rows_reordered d s X HW) as HX. set (X' := reorder_columns s X) in *. pose proof (concat_rel Hs HX) as HC.
  assert (HP : Forall2 (fun r r' => Permutation r r') X X'). { clear - HX Hs. induction HX as [|r r' X X' (L & ->) HX IH]; constructor; [|exact IH]. now apply (ro_perm Hs). }
  assert (Hmean : forall u v, Permutation u v -> mean1 v = mean1 u). { intros u v H. unfold mean1. now rewrite (Rsum_perm H), (Permutation_length H). }
  assert (Hmed : forall u v, Permutation u v -> median1 v = median1 u).
  { intros u v H. unfold median1. rewrite <- (Permutation_length H). rewrite (sorted_perm_unique Rltb_order (sort_sorted Rltb_order v) (sort_sorted Rltb_order u)); [reflexivity|].
    eapply Permutation_trans; [symmetry; apply isort_perm|]. eapply Permutation_trans; [symmetry; exact H|apply isort_perm]. }
  assert (Hrows : forall {A} (f : list R -> A), (forall u v, Permutation u v -> f v = f u) -> map f X' = map f X).
  { intros A f Hf. clear - HP Hf. induction HP; [reflexivity|]. cbn. f_equal; auto. }
  split; [|split; [|split; [|split; [|split]]]].
  - intros axis HA. destruct HA as [HA|HA]; subst axis.
    + unfold Stats_Model.sum, mean, var, median. cbn [Z.eqb Pos.eqb]. split; [f_equal; apply Hrows; intros; f_equal; now apply Rsum_perm, Permutation_sym|]. split; [f_equal; apply Hrows; intros; f_equal; auto|].
      split.
      * rewrite (Hrows _ mean1 Hmean). rewrite !map_map. rewrite (Hrows _ (fun r => mean1 (map sq r))) by (intros; now apply Hmean, Permutation_map). reflexivity.
      * clear - HP Hmed. induction HP as [|r r' X X' H HP IH]; [reflexivity|]. cbn [mapM]. now rewrite (Hmed _ _ H), IH.
    + unfold Stats_Model.sum, mean, var, median. cbn [Z.eqb Pos.eqb]. rewrite (Hmean _ _ HC), (Hmed _ _ HC), <- (Rsum_perm HC). rewrite (Hmean _ _ (Permutation_map sq HC)). auto.
  - cbn. constructor; [|constructor]. now apply col_sum_rel.
  - cbn. constructor; [|constructor]. now apply col_means_rel.
  - cbn. constructor; [|constructor]. now apply col_vars_rel.
  - unfold median. cbn [Z.eqb Pos.eqb]. rewrite (mapM_ext_in (fun j => median1 (column 0 j X')) (fun k => median1 (column 0 (nth k s 0%nat) X))).
    2: { intros k Hk. apply in_seq in Hk. f_equal. clear - HX Hs Hk. unfold column. induction HX as [|r r' X X' (L & ->) HX IH]; [reflexivity|]. cbn [map]. f_equal; [|exact IH].
         unfold reorder. apply (@nth_map_in _ _ (fun j => nth j r 0) s 0 0%nat). rewrite (order_length Hs). lia. }
    rewrite <- (mapM_map (fun j => median1 (column 0 j X)) (fun k => nth k s 0%nat)). rewrite (order_seq d s Hs).
    destruct X as [|r X].
    + destruct d as [|d']; [apply Permutation_nil in Hs; subst s; now split|]. destruct s as [|k s']; [apply Permutation_sym, Permutation_nil in Hs; discriminate|]. exact I.
    + assert (HM : forall j, exists m, median1 (column 0 j (r :: X)) = Ok m) by (intros j; apply median_total; discriminate).
      assert (HR : exists h, forall j, median1 (column 0 j (r :: X)) = Ok (h j)).
      { exists (fun j => match median1 (column 0 j (r :: X)) with Ok m => m | _ => 0 end). intros j. destruct (HM j) as (m & ->). reflexivity. }
      destruct HR as (h & Hh). assert (HA : forall l, mapM (fun j => median1 (column 0 j (r :: X))) l = Ok (map h l)) by (intros l; induction l as [|j l IH]; [reflexivity|]; cbn [mapM]; rewrite Hh, IH; reflexivity).
      rewrite !HA. cbn [same_outcome]. split; [now rewrite map_length, seq_length|]. unfold reorder. apply map_ext_in. intros j Hj. apply (order_lt Hs) in Hj.
      rewrite (nth_map_in h (seq 0 d) 0 0%nat) by (rewrite seq_length; lia). now rewrite seq_nth by lia.
  - unfold cov. cbv zeta. replace (List.length X') with (List.length X) by (unfold X', reorder_columns; now rewrite map_length).
    set (F := fun i j => Rsum (map (fun r => nth i r 0 * nth j r 0) (center d X)) / (INR (List.length X) - 1)).
    assert (HCn : Forall2 (reordered d s) (center d X) (center d X')).
    { unfold center. pose proof (col_means_rel Hs HX) as Hm. cbv zeta. revert Hm. generalize (col_means d X) (col_means d X'). intros u v Hm. clear - HX Hs Hm. induction HX as [|r r' Y Y' Hr HX IH]; cbn [map]; constructor; [|exact IH]. now apply (rel_map2 Hs). }
    assert (HF : forall k l, (k < d)%nat -> (l < d)%nat -> Rsum (map (fun r => nth k r 0 * nth l r 0) (center d X')) / (INR (List.length X) - 1) = F (nth k s 0%nat) (nth l s 0%nat)).
    { intros k l Hk Hl. unfold F. do 2 f_equal. clear - HCn Hs Hk Hl. induction HCn as [|r r' Y Y' (L & ->) HX IH]; [reflexivity|]. cbn [map]. f_equal; [|exact IH].
      unfold reorder. rewrite !(nth_map_in _ s 0 0%nat) by (rewrite (order_length Hs); lia). reflexivity. }
    rewrite (map_ext_in _ (fun k => map (fun j => F (nth k s 0%nat) j) s)).
    2: { intros k Hk. apply in_seq in Hk. transitivity (map (fun l => F (nth k s 0%nat) (nth l s 0%nat)) (seq 0 d)); [apply map_ext_in; intros l Hl; apply in_seq in Hl; apply HF; lia|].
         rewrite <- (map_map (fun l => nth l s 0%nat) (F (nth k s 0%nat))). now rewrite (order_seq d s Hs). }
    rewrite <- (map_map (fun k => nth k s 0%nat) (fun i => map (F i) s)). rewrite (order_seq d s Hs). unfold reorder at 1. apply map_ext_in. intros i Hi. apply (order_lt Hs) in Hi.
    unfold reorder_columns. rewrite map_map. rewrite (nth_map_in _ (seq 0 d) [] 0%nat) by (rewrite seq_length; lia). rewrite seq_nth by lia. cbn [Nat.add]. unfold reorder. apply map_ext_in. intros j Hj. apply (order_lt Hs) in Hj.
    rewrite (nth_map_in _ (seq 0 d) 0 0%nat) by (rewrite seq_length; lia). now rewrite seq_nth by lia.
Qed.
Print Assumptions C76_statistics.
Example C76_statistics_case := C76_statistics 3 last_first three_cols last_first_order three_cols_width.

(** ** The distances between rows that the trees of neighbours compare. *)
Theorem C76_distances : forall d s m x y, column_order d s -> List.length x = d -> List.length y = d -> dist m (reorder 0 s x) (reorder 0 s y) = dist m x y.
Proof.
  intros d s m x y Hs Lx Ly. unfold dist.
  assert (HP : Permutation (map (fun p => fst p - snd p) (combine (reorder 0 s x) (reorder 0 s y))) (map (fun p => fst p - snd p) (combine x y))).
  { assert (E : forall u v : list R, map (fun p => fst p - snd p) (combine u v) = map2 Rminus u v) by (induction u as [|a u IH]; intros [|b v]; cbn; [reflexivity..|]; f_equal; apply IH).
    rewrite !E. pose proof (rel_map2 Hs Rminus (vec_reordered d s x Lx) (vec_reordered d s y Ly)) as (L & ->). symmetry. now apply (ro_perm Hs). }
  revert HP. generalize (map (fun p => fst p - snd p) (combine x y)). generalize (map (fun p => fst p - snd p) (combine (reorder 0 s x) (reorder 0 s y))). intros u v HP.
  assert (HS : forall u v : list R, Permutation u v -> KDTree_Spec.sum u = KDTree_Spec.sum v) by (intros a b H; unfold KDTree_Spec.sum; induction H; cbn; lra).
  unfold norm_of. destruct m.
  - apply HS. now apply Permutation_map.
  - f_equal. apply HS. now apply Permutation_map.
  - apply (Permutation_map Rabs) in HP. induction HP; cbn; [reflexivity|congruence| |congruence]. rewrite !Rmax_assoc, (Rmax_comm y0 x0). reflexivity.
Qed.
Print Assumptions C76_distances.
Example C76_distances_case : dist Euclidean [7; 1; 5] [9; 2; 4] = dist Euclidean [1; 5; 7] [2; 4; 9].
Proof. exact (C76_distances 3 last_first Euclidean [1; 5; 7] [2; 4; 9] last_first_order eq_refl eq_refl). Qed.

(** ** Decision trees: the gain of the split chosen is the same, and the split chosen is one of the best splits of the data in the
    first order. *)
Theorem C76_tree_split : forall d s floor gain X y b w b' w', column_order d s -> width d X -> List.length X = List.length y ->
  best_split Rltb Rmid Rgtb floor gain d X y = Ok (b, w) ->
  best_split Rltb Rmid Rgtb floor gain d (reorder_columns s X) y = Ok (b', w') ->
  b' = b /\ match w, w' with
            | None, None => True
            | Some (f, t), Some (f', t') => (nth f' s 0 < d)%nat /\ candidate Rltb Rmid (combine X y) (nth f' s 0%nat) t' /\ gain_at Rltb gain (combine X y) (nth f' s 0%nat) t' = Ok b
            | _, _ => False
            end.
Proof.
  intros d s floor gain X y b w b' w' Hs HW L E E'. assert (EX : map fst (combine X y) = X) by (clear - L; revert y L; induction X as [|a X IH]; intros [|c y] L; cbn in *; try discriminate; f_equal; auto). assert (EY : map snd (combine X y) = y) by (clear - L; revert y L; induction X as [|a X IH]; intros [|c y] L; cbn in *; try discriminate; f_equal; auto).
  apply (split_reorder Hs floor gain (D := combine X y)); rewrite ?EX, ?EY; auto. intros e He. destruct e as (x, v). apply in_combine_l in He. apply HW, He.
Qed.
Print Assumptions C76_tree_split.
Example C76_tree_split_case : gain_at Rltb (class_gain Rltb Gini) (combine [[0; 0]; [1; 1]; [2; 2]] [0; 0; 1]) 1 (Rmid 1 2) = Ok 1.
Proof.
  pose proof (@twin_split 0 1 2 ltac:(lra) ltac:(lra)) as E.
  destruct (C76_tree_split 2 [1; 0]%nat dbl_min (class_gain Rltb Gini) [[0; 0]; [1; 1]; [2; 2]] [0; 0; 1] _ _ _ _ (perm_swap _ _ _)
              ltac:(intros r [<-|[<-|[<-|[]]]]; reflexivity) eq_refl E E) as (_ & _ & _ & H). exact H.
Qed.

(** Equally good splits are told apart by the order of the features, and then rows that were not in the training data may
    get another class: here two columns agree in training and differ in the row classified. *)
Theorem C76_classifier_refuted : exists X y q p p', column_order 2 [1; 0]%nat /\ width 2 X /\
  classify Gini (Params 2%nat 0%nat 0%nat 0) 2 X y [q] = Ok (p, [0%nat]) /\
  classify Gini (Params 2%nat 0%nat 0%nat 0) 2 (reorder_columns [1; 0]%nat X) y [reorder 0 [1; 0]%nat q] = Ok (p', [1%nat]).
Proof.
  exists [[0; 0]; [1; 1]; [2; 2]], [0; 0; 1], [0; 5]. do 2 eexists. split; [apply perm_swap|]. split; [intros r [<-|[<-|[<-|[]]]]; reflexivity|].
  unfold reorder_columns, reorder. cbn [map nth]. unfold classify. rewrite twin_fit by lra. cbn [bind]. unfold predict_class, predict_prob. cbn [mapM walk n_split vget nth_error bind].
  unfold leb, Rmid. split; rdec; cbn; reflexivity.
Qed.
Print Assumptions C76_classifier_refuted.

(** So does the coordinate that coordinate descent moves first, and with it the coefficients of a lasso. *)
Theorem C76_lasso_refuted : exists X y w w', column_order 2 [1; 0]%nat /\ width 2 X /\
  lasso_fit 0 (1 / 2) 1 (fun _ => [0]%nat) false 1 false 2 X y = Ok w /\
  lasso_fit 0 (1 / 2) 1 (fun _ => [0]%nat) false 1 false 2 (reorder_columns [1; 0]%nat X) y = Ok w' /\ w' <> reorder 0 [1; 0]%nat w.
Proof.
  assert (E : lasso_fit 0 (1 / 2) 1 (fun _ => [0]%nat) false 1 false 2 [[1; 1]] [1] = Ok [1 / 2; 0]).
  { assert (G : mse_gradient 0 [[1; 1]] [1] [0; 0] = Ok [-1; -1]) by (unfold mse_gradient; cbn; repeat f_equal; field).
    assert (D : scd_descent (1 / 2) 1 0 (-1) (1 / 2) = 1 / 8) by (unfold scd_descent; rewrite Rabs_R0, Rplus_0_l, Rabs_pos_eq by lra; field).
    assert (H : scd_eta (1 / 2) 1 0 (-1) = 1 / 2) by (unfold scd_eta; rdec; field).
    unfold lasso_fit, scd_optimize. cbn [seq scd_loop bind ncols]. change (zeros 2) with [0; 0]. unfold reshuffle, scd_step. rewrite ?bind_Ok. cbn [bind fst snd]. rewrite G. cbn [bind seq foldM].
    unfold scd_pick. cbn [vget nth_error bind]. rewrite H, D. cbn [fst snd]. rdec. cbn [bind fst snd]. rdec. cbn. f_equal. f_equal. lra. }
  exists [[1; 1]], [1], [1 / 2; 0], [1 / 2; 0]. split; [apply perm_swap|]. split; [intros r [<-|[]]; reflexivity|]. split; [exact E|]. split; [exact E|].
  unfold reorder. cbn [map nth]. intros [= H _]. lra.
Qed.
Print Assumptions C76_lasso_refuted.
