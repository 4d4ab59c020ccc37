(** Proofs for C81. *)
From Coq Require Import Reals Lra Psatz.
From Verif Require Import Base Common_Model RDR_Proofs KDReal_Proofs Impurity_Spec Impurity_Model Impurity_Proofs Vec Loss_Model Loss_Spec Loss_Proofs Metric_Proofs
  Shuffle_Model Shuffle_Proofs Optim_Model Optim_Spec Optim_Proofs OptimSteps_Proofs OptimRun_Proofs Decomp_Proofs Linear_Model Linear_Spec LinSolve_Proofs Linear_Proofs Descent_Spec Descent_Proofs Scd_Spec Scd_Proofs Chol_Proofs Penalty_Spec.
Local Open Scope R_scope.
Set Implicit Arguments.

(** Minimisers of f + l g and f + m g. *)
Lemma exchange (fu fv gu gv l m : R) : 0 <= l < m -> fu + l * gu <= fv + l * gv -> fv + m * gv <= fu + m * gu -> gv <= gu /\ fu <= fv.
Proof.
  intros H A B. assert (G : gv <= gu). { destruct (Rle_or_lt gv gu) as [|K]; [auto|]. assert ((m - l) * gv <= (m - l) * gu) by lra. nra. }
  split; [exact G|]. nra.
Qed.

Lemma linear_fun_scale i c w x : linear_fun i (vscale c w) x = c * linear_fun i w x.
Proof.
  destruct i; cbn; [|apply dot_vscale_r].
  assert (R1 : removelast (vscale c w) = vscale c (removelast w)).
  { unfold vscale. induction w as [|a w IH]; [reflexivity|]. destruct w; [reflexivity|]. cbn [removelast map] in *. now rewrite IH. }
  assert (R2 : last (vscale c w) 0 = c * last w 0).
  { clear R1. unfold vscale. induction w as [|a w IH]; [cbn; ring|]. destruct w; [reflexivity|]. cbn [last map] in *. exact IH. }
  rewrite R1, R2, dot_vscale_r. ring.
Qed.
Lemma rss_sqn i X : forall y w, length y = length X -> rss i X y w = sqn (vsub y (predictions i w X)).
Proof.
  unfold rss, predictions, sqn, dot, vsub. induction X as [|x X IH]; intros [|b y] w L; cbn in *; try lia; [reflexivity|].
  rewrite IH by lia. f_equal. ring.
Qed.
Lemma predictions_scale i c w X : predictions i (vscale c w) X = vscale c (predictions i w X).
Proof. unfold predictions, vscale. rewrite map_map. apply map_ext. intro x. apply linear_fun_scale. Qed.
Lemma predictions_length i w X : length (predictions i w X) = length X.
Proof. apply map_length. Qed.

(** A minimiser along its own ray. *)
Lemma ray (a b : R) : 0 <= a -> (forall t, a - 2 * b <= a * (t * t) - 2 * b * t) -> a = b.
Proof.
  intros Ha H. destruct (Rtotal_order a b) as [K|[K|K]]; [exfalso| |exfalso]; auto.
  - assert (E : 0 < (b - a) / (a + 1)) by (apply Rdiv_lt_0_compat; lra). specialize (H (1 + (b - a) / (a + 1))). set (e := (b - a) / (a + 1)) in *.
    assert (Q : e * (a + 1) = b - a) by (unfold e; field; lra). nra.
  - assert (E : 0 < (a - b) / (a + 1)) by (apply Rdiv_lt_0_compat; lra). specialize (H (1 - (a - b) / (a + 1))). set (e := (a - b) / (a + 1)) in *.
    assert (Q : e * (a + 1) = a - b) by (unfold e; field; lra). nra.
Qed.
Lemma ridge_energy lambda i n X y w : 0 <= lambda -> length y = length X -> length w = n ->
  (forall v, length v = n -> penalised_rss lambda i X y w <= penalised_rss lambda i X y v) ->
  sqn (predictions i w X) + lambda * sqn w = dot y (predictions i w X).
Proof.
  intros Hl Ly Lw H. assert (Lp := predictions_length i w X). apply ray.
  - pose proof (sqn_nonneg (predictions i w X)). pose proof (sqn_nonneg w). nra.
  - intro t. specialize (H (vscale t w)). rewrite vscale_length in H. specialize (H Lw). unfold penalised_rss in H. rewrite !rss_sqn in H by auto.
    rewrite predictions_scale in H. rewrite !sqn_vsub in H by (rewrite ?vscale_length; congruence). rewrite !sqn_vscale, dot_vscale_r in H. nra.
Qed.
Lemma ridge_bounds lambda i n X y w : 0 <= lambda -> length y = length X -> length w = n ->
  (forall v, length v = n -> penalised_rss lambda i X y w <= penalised_rss lambda i X y v) ->
  4 * lambda * sqn w <= sqn y /\ sqn (predictions i w X) <= sqn y.
Proof.
  intros Hl Ly Lw H. pose proof (@ridge_energy lambda i n X y w Hl Ly Lw H) as E. set (p := predictions i w X) in *. assert (Lp : length p = length y) by (unfold p; rewrite predictions_length; auto).
  pose proof (sqn_nonneg w). assert (0 <= lambda * sqn w) by nra. split.
  - pose proof (sqn_nonneg (vsub y (vscale 2 p))) as Q. rewrite sqn_vsub in Q by (rewrite vscale_length; auto). rewrite dot_vscale_r, sqn_vscale in Q. lra.
  - pose proof (sqn_nonneg (vsub y p)) as Q. rewrite sqn_vsub in Q by auto. lra.
Qed.

(** The solution of the normal equations is linear in the labels. *)
Lemma mix_cells a b : forall (c S S' : list R) u u', length S = length c -> length S' = length c ->
  vadd (vscale (a * u + b * u') c) (vadd (vscale a S) (vscale b S')) = vadd (vscale a (vadd (vscale u c) S)) (vscale b (vadd (vscale u' c) S')).
Proof.
  unfold vadd, vscale. induction c as [|x c IH]; intros [|s S] [|s' S'] u u' L L'; cbn in *; try lia; [reflexivity|]. f_equal; [ring|]. apply IH; lia.
Qed.
Lemma mix_vsum a b d : forall cs y y', width d cs -> length y = length cs -> length y' = length cs ->
  vsum d (map2 vscale (mixed a b y y') cs) = mixed a b (vsum d (map2 vscale y cs)) (vsum d (map2 vscale y' cs)).
Proof.
  unfold mixed. induction cs as [|c cs IH]; intros [|u y] [|u' y'] W L L'; cbn [length] in *; try lia.
  - cbn. unfold vadd, vscale, zeros. clear. induction d as [|d IHd]; cbn; [reflexivity|]. f_equal; [ring|exact IHd].
  - assert (Wc : width d cs) by (intros z Hz; apply W; now right). assert (Lc : length c = d) by (apply W; now left).
    change (vadd (vscale a (u :: y)) (vscale b (u' :: y'))) with ((a * u + b * u') :: vadd (vscale a y) (vscale b y')). cbn [map2 vsum fold_right].
    change (fold_right vadd (zeros d) ?l) with (vsum d l). rewrite IH by (auto; lia). apply mix_cells; rewrite vsum_length; auto; now apply width_scaled.
Qed.
Lemma mixed_length a b y y' : length y = length y' -> length (mixed a b y y') = length y.
Proof. intro L. unfold mixed. rewrite vadd_length; rewrite !vscale_length; auto. Qed.

Lemma normal_mixed a b l d X y y' w w' : 0 <= lam l -> width d X -> length y = length X -> length y' = length X ->
  (forall v, length v = d -> (forall r, In r X -> dot r v = 0) -> lam l * sqn v = 0 -> v = zeros d) ->
  normal_solution d (normal_matrix l d X) X y = Ok (Some w) -> normal_solution d (normal_matrix l d X) X y' = Ok (Some w') ->
  normal_solution d (normal_matrix l d X) X (mixed a b y y') = Ok (Some (mixed a b w w')).
Proof.
  intros Hl W Ly Ly' T. unfold normal_solution. rewrite !tmv_ok by (rewrite ?mixed_length; congruence). cbn [bind].
  destruct (@inverse_cols_spec d (normal_matrix l d X)) as (cs & -> & Lc & Wc & S); [apply normal_width|apply normal_length| |].
  { intros v Lv N. destruct (normal_null l Hl W Lv N). auto. }
  intros E E'. injection E as <-. injection E' as <-. rewrite mix_vsum by auto. rewrite mix_vsum; auto; rewrite vsum_length; auto; now apply width_scaled.
Qed.

(** Coordinate descent that has nothing to gain. *)
Section Rest.
  Context {Row Lab : Type}.
  Variable gradient : list Row -> list Lab -> list R -> outcome (list R).
  Variables lambda beta : R.
  Hypothesis HB : 0 < beta.
  Hypothesis HL : 0 <= lambda.
  Lemma eta_zero g : Rabs g <= lambda -> scd_eta lambda beta 0 g = 0.
  Proof.
    intros H. assert (G : - lambda <= g <= lambda) by (split; [pose proof (Rle_abs (- g)) as Q; rewrite Rabs_Ropp in Q; lra|pose proof (Rle_abs g); lra]). clear H. assert (IB : 0 < / beta) by now apply Rinv_0_lt_compat. unfold scd_eta, Rltb, Rdiv.
    destruct (Rlt_dec (lambda * / beta) (0 - g * / beta)); [exfalso; nra|]. destruct (Rlt_dec (0 - g * / beta) (- lambda * / beta)); [exfalso; nra|]. ring.
  Qed.
  Lemma step_rests d X y g : (0 < d)%nat -> gradient X y (zeros d) = Ok g -> length g = d -> (forall j, (j < d)%nat -> Rabs (nth j g 0) <= lambda) ->
    scd_step gradient lambda beta d X y (zeros d) = Ok (zeros d).
  Proof.
    intros P Eg Lg Hg. assert (Lz : length (zeros d) = d) by apply zeros_length.
    assert (Lg' : length g = length (zeros d)) by congruence. assert (P' : (0 < length (zeros d))%nat) by lia.
    destruct (@scd_step_spec _ _ gradient lambda beta HB HL X y (zeros d) g Eg Lg' P') as (w' & j & E & M & _). rewrite Lz in E.
    rewrite E. f_equal. pose proof M as (_ & Hj & _). rewrite Lz in Hj. apply moved_eq in M. rewrite M. unfold eta_at.
    assert (Z : forall k, nth k (zeros d) 0 = 0) by (intro k; unfold zeros; destruct (nth_in_or_default k (repeat 0 d) 0) as [I|I]; [now apply repeat_spec in I|exact I]).
    rewrite Z, eta_zero by auto. replace (0 + 0) with 0 by ring. unfold zeros. clear. revert j. induction d as [|d IH]; intros [|j]; cbn; try reflexivity. f_equal. apply IH.
  Qed.
End Rest.

Lemma mse_slope d X y j : shapes X y (zeros d) -> (j < d)%nat ->
  exists g, mse_gradient 0 X y (zeros d) = Ok g /\ length g = d /\ nth j g 0 = - (column_labels j X y / INR (length X)).
Proof.
  intros HS Hj. pose proof HS as (HN & HW & HL). rewrite zeros_length in HW. assert (Hn : 0 < INR (length X)) by (apply lt_0_INR; destruct X; [congruence|cbn; lia]).
  eexists. split; [apply mse_gradient_glm; auto|]. assert (Lg := glm_grad_length mse_dphi (mse_c X) 0 HS). rewrite zeros_length in Lg. split; [exact Lg|].
  rewrite <- (@dot_basis d j _ Hj Lg), dot_comm, glm_grad_dot by (auto; rewrite basis_length, zeros_length; auto).
  rewrite dot_zeros_l, Rmult_0_r, Rplus_0_r. unfold column_labels, mse_c, mse_dphi.
  rewrite (total_ext (fun p => 2 * (dot (fst p) (zeros d) - snd p) * dot (fst p) (basis d j)) (fun p => (-2) * (nth j (fst p) 0 * snd p))).
  - rewrite total_scal. field. lra.
  - intros [x b] Hp. cbn [fst snd]. apply in_combine_l in Hp. rewrite (dot_comm x (zeros d)), dot_zeros_l, (dot_comm x (basis d j)), dot_basis by (auto; apply HW; auto). ring.
Qed.
Lemma column_labels_reordered j X X' y y' : reordered X X' y y' -> column_labels j X' y' = column_labels j X y.
Proof. intros (_ & _ & P). symmetry. apply total_perm. now apply Permutation_map. Qed.

Lemma lasso_rests lambda beta perm shuffle d X y : 0 < beta -> 0 <= lambda -> (0 < d)%nat -> width d X -> X <> [] -> length y = length X ->
  (shuffle = true -> forall k, is_perm (length X) (perm k)) -> (forall j, (j < d)%nat -> Rabs (column_labels j X y) / INR (length X) <= lambda) ->
  forall iters X' y', reordered X X' y y' -> (shuffle = false -> X' = X /\ y' = y) ->
  scd_loop (mse_gradient 0) lambda beta d perm shuffle iters X' y' (zeros d) = Ok (zeros d).
Proof.
  intros HB HL Pd W N Ly Hp Hc. assert (Hn : 0 < INR (length X)) by (apply lt_0_INR; destruct X; [congruence|cbn; lia]).
  induction iters as [|i iters IH]; intros X' y' RO F; cbn [scd_loop]; [reflexivity|].
  destruct (@reshuffle_spec _ _ perm shuffle X y Ly Hp i X' y') as (X2 & y2 & -> & RO2 & F2); auto. cbn [bind fst snd].
  assert (HS : shapes X2 y2 (zeros d)). { apply (@shapes_reordered X X2 y y2); auto. split; [auto|]. rewrite zeros_length. auto. }
  assert (E : scd_step (mse_gradient 0) lambda beta d X2 y2 (zeros d) = Ok (zeros d)).
  { destruct (@mse_slope d X2 y2 0 HS Pd) as (g & Eg & Lg & _). apply (step_rests (mse_gradient 0) HB HL X2 y2 Pd Eg Lg).
    intros j Hj. destruct (@mse_slope d X2 y2 j HS Hj) as (g' & Eg' & _ & En).
    rewrite Eg in Eg'. injection Eg' as <-. rewrite En, Rabs_Ropp. rewrite (column_labels_reordered j RO2). destruct RO2 as (-> & _).
    unfold Rdiv. rewrite Rabs_mult, (Rabs_right (/ INR (length X))) by (left; now apply Rinv_0_lt_compat). apply Hc; auto. }
  rewrite E. cbn [bind]. apply IH; auto.
Qed.
