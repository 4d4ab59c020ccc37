From Coq Require Import Reals Lra.
From Verif Require Import Base Common_Model RDR_Proofs KDReal_Proofs Impurity_Model Impurity_Spec Impurity_Proofs Vec MathFun_Model Loss_Model Loss_Spec.
Local Open Scope R_scope.
Set Implicit Arguments.

(** * Vectors along a coordinate line *)
Definition unit (d j : nat) : list R := set_nth (zeros d) j 1.
Lemma unit_length d j : length (unit d j) = d.
Proof. unfold unit. now rewrite set_nth_length, zeros_length. Qed.
Lemma dot_unit x : forall j a, nth_error x j = Some a -> dot x (unit (length x) j) = a.
Proof.
  induction x as [|b x IH]; intros [|j] a H; simpl in H; try discriminate; unfold unit, zeros in *; simpl repeat; simpl set_nth.
  - injection H as ->. rewrite dot_cons, dot_comm. change (repeat 0 (length x)) with (zeros (length x)). rewrite dot_zeros_l. lra.
  - rewrite dot_cons. rewrite (IH j a H). lra.
Qed.
Lemma vadd_zeros W : vadd W (zeros (length W)) = W.
Proof. induction W as [|w W IH]; [reflexivity|]. unfold vadd, zeros in *. simpl. rewrite IH. f_equal. lra. Qed.
Lemma vscale_zeros c d : vscale c (zeros d) = zeros d.
Proof. unfold vscale, zeros. induction d as [|d IH]; simpl; [reflexivity|]. rewrite IH. f_equal. lra. Qed.
Lemma set_nth_line W : forall j w t, nth_error W j = Some w ->
  set_nth W j t = vadd W (vscale (t - w) (unit (length W) j)).
Proof.
  induction W as [|a W IH]; intros [|j] w t H; simpl in H; try discriminate; unfold unit, zeros, vadd, vscale in *; simpl.
  - injection H as ->. f_equal; [lra|]. pose proof (vscale_zeros (t - w) (length W)) as E. unfold vscale, zeros in E. rewrite E.
    symmetry. apply vadd_zeros.
  - f_equal; [lra|]. apply (IH j w t H).
Qed.

(** * Derivatives of sums *)
Lemma derivable_ext f g x l : (forall t, f t = g t) -> derivable_pt_lim f x l -> derivable_pt_lim g x l.
Proof. intros H D e He. destruct (D e He) as (d & Hd). exists d. intros h H1 H2. rewrite <- !H. now apply Hd. Qed.
Lemma derivable_val f x l l' : derivable_pt_lim f x l -> l = l' -> derivable_pt_lim f x l'.
Proof. now intros H <-. Qed.
Lemma derivable_total {A} (f : A -> R -> R) (d : A -> R) l x :
  (forall p, In p l -> derivable_pt_lim (f p) x (d p)) ->
  derivable_pt_lim (fun t => total (map (fun p => f p t) l)) x (total (map d l)).
Proof.
  induction l as [|a l IH]; intros H; simpl.
  - apply derivable_pt_lim_const.
  - apply (derivable_pt_lim_plus (f a) (fun t => total (map (fun p => f p t) l))); [apply H; now left|apply IH; intros; apply H; now right].
Qed.
Lemma derivable_affine a b w x : derivable_pt_lim (fun t => a + (t - w) * b) x b.
Proof.
  apply (derivable_ext (f := fun t => (a - w * b) + b * id t)). { intros t. unfold id. ring. }
  apply (derivable_val (l := 0 + b * 1)); [|ring].
  apply (derivable_pt_lim_plus (fct_cte (a - w * b)) (mult_real_fct b id)); [apply derivable_pt_lim_const|].
  apply derivable_pt_lim_scal, derivable_pt_lim_id.
Qed.

(** * Shapes *)
Lemma mapM_map {A B} (f : A -> outcome B) (g : A -> B) l : (forall a, In a l -> f a = Ok (g a)) -> mapM f l = Ok (map g l).
Proof.
  induction l as [|a l IH]; intros H; [reflexivity|]. simpl. rewrite (H a) by now left. simpl.
  rewrite IH by (intros; apply H; now right). reflexivity.
Qed.
Lemma mv_ok X W : width (length W) X -> mv X W = Ok (map (fun x => dot x W) X).
Proof. intros H. unfold mv. apply mapM_map. intros x Hx. rewrite (H x Hx). now rewrite Nat.eqb_refl. Qed.
Lemma sub_ok u v : length u = length v -> sub u v = Ok (vsub u v).
Proof. intros H. unfold sub. now rewrite H, Nat.eqb_refl. Qed.
Lemma add_ok u v : length u = length v -> add u v = Ok (vadd u v).
Proof. intros H. unfold add. now rewrite H, Nat.eqb_refl. Qed.
Lemma mul_ok u v : length u = length v -> mul u v = Ok (map2 Rmult u v).
Proof. intros H. unfold mul. now rewrite H, Nat.eqb_refl. Qed.
Lemma tmv_ok d X v : length X = length v -> tmv d X v = Ok (vsum d (map2 vscale v X)).
Proof. intros H. unfold tmv. now rewrite H, Nat.eqb_refl. Qed.
Lemma cols_ok T X (y : list T) W : shapes X y W -> cols X W = length W.
Proof. intros (H1 & H2 & _). destruct X as [|x X]; [congruence|]. apply H2. now left. Qed.
Lemma width_scaled d v : forall X, width d X -> width d (map2 vscale v X).
Proof.
  induction v as [|a v IH]; intros [|x X] H; try apply width_nil. apply width_cons in H. destruct H as (H1 & H2).
  simpl. apply width_cons. rewrite vscale_length. auto.
Qed.
Lemma tmv_dot d v : forall X u, width d X -> length v = length X ->
  dot (vsum d (map2 vscale v X)) u = total (map2 (fun a x => a * dot x u) v X).
Proof.
  intros X u HW HL. rewrite dot_vsum by now apply width_scaled. clear HL. revert X HW.
  induction v as [|a v IH]; intros [|x X] HW; simpl; try reflexivity. apply width_cons in HW. destruct HW as (H1 & H2).
  rewrite dot_vscale_l, IH by assumption. reflexivity.
Qed.
Lemma map2_combine {A B C} (f : A -> B -> C) u v : map2 f u v = map (fun p => f (fst p) (snd p)) (combine u v).
Proof. revert v. induction u as [|a u IH]; intros [|b v]; simpl; auto. now rewrite IH. Qed.
Lemma map2_swap {A B C} (f : A -> B -> C) u v : map2 f u v = map2 (fun b a => f a b) v u.
Proof. revert v. induction u as [|a u IH]; intros [|b v]; simpl; auto. now rewrite IH. Qed.
Lemma width_set_nth {A} (W : list A) j t : length (set_nth W j t) = length W.
Proof. apply set_nth_length. Qed.

(** * Losses that are a sum over the samples of a function of the linear score *)
Section GLM.
  Context {T : Type}.
  Variables (phi dphi : T -> R -> R).
  Variables (c lambda : R).

  Definition glm (X : list (list R)) (y : list T) (W : list R) : R := over_samples phi X y W * c + penalty lambda (length X) W.
  Definition glm_grad (X : list (list R)) (y : list T) (W : list R) : list R :=
    vadd (vscale c (vsum (length W) (map2 vscale (map2 (fun x b => dphi b (dot x W)) X y) X)))
         (vscale (lambda / INR (length X)) W).

  Lemma glm_grad_length X y W : shapes X y W -> length (glm_grad X y W) = length W.
  Proof.
    intros (H1 & H2 & H3). unfold glm_grad. rewrite vadd_length; rewrite ?vscale_length, vsum_length; auto; now apply width_scaled.
  Qed.
  Lemma glm_grad_dot X y W v : shapes X y W -> length v = length W ->
    dot (glm_grad X y W) v =
    c * total (map (fun p => dphi (snd p) (dot (fst p) W) * dot (fst p) v) (combine X y)) + lambda / INR (length X) * dot W v.
  Proof.
    intros (H1 & H2 & H3) Hv. unfold glm_grad.
    rewrite dot_vadd_l by (rewrite !vscale_length, vsum_length; auto; now apply width_scaled).
    rewrite !dot_vscale_l. f_equal. f_equal. rewrite tmv_dot by (rewrite ?map2_length; auto). f_equal.
    clear H1. revert X H2 H3. induction y as [|b y IH]; intros [|x X] H2 H3; simpl in *; try lia; auto.
    apply width_cons in H2. rewrite IH; [reflexivity|tauto|lia].
  Qed.

  Hypothesis Hd : forall b z, derivable_pt_lim (phi b) z (dphi b z).
  Lemma glm_direction X y W v w : shapes X y W -> length v = length W ->
    derivable_pt_lim (fun t => glm X y (vadd W (vscale (t - w) v))) w (dot (glm_grad X y W) v).
  Proof.
    intros HS Hv. pose proof HS as (H1 & H2 & H3). rewrite glm_grad_dot by assumption.
    assert (Hn : INR (length X) <> 0) by (apply not_0_INR; destruct X; [congruence|discriminate]).
    apply (derivable_ext (f := fun t =>
      c * total (map (fun p => phi (snd p) (dot (fst p) W + (t - w) * dot (fst p) v)) (combine X y))
      + (lambda / (2 * INR (length X))) * (dot W W + 2 * (t - w) * dot W v + (t - w) ^ 2 * dot v v))).
    { intros t. unfold glm, over_samples, penalty.
      assert (HL : length W = length (vscale (t - w) v)) by (rewrite vscale_length; auto).
      f_equal.
      - rewrite (Rmult_comm _ c). f_equal. apply total_ext. intros (x, b) Hp. simpl.
        rewrite dot_vadd_r by assumption. now rewrite dot_vscale_r.
      - rewrite dot_vadd_l by assumption. rewrite !dot_vadd_r by assumption.
        rewrite !dot_vscale_l, !dot_vscale_r. rewrite (dot_comm v W). field. assumption. }
    apply (derivable_pt_lim_plus (mult_real_fct c (fun t => total (map (fun p => phi (snd p) (dot (fst p) W + (t - w) * dot (fst p) v)) (combine X y))))).
    - apply derivable_pt_lim_scal.
      apply (derivable_total (fun p t => phi (snd p) (dot (fst p) W + (t - w) * dot (fst p) v))
                             (fun p => dphi (snd p) (dot (fst p) W) * dot (fst p) v)).
      intros (x, b) Hp. simpl.
      apply (derivable_pt_lim_comp (fun t => dot x W + (t - w) * dot x v) (phi b)); [apply derivable_affine|].
      replace (dot x W + (w - w) * dot x v) with (dot x W) by ring. apply Hd.
    - replace (lambda / INR (length X) * dot W v) with (lambda / (2 * INR (length X)) * (2 * dot W v)) by (field; assumption).
      apply (derivable_pt_lim_scal (fun t => dot W W + 2 * (t - w) * dot W v + (t - w) ^ 2 * dot v v)).
      apply (derivable_ext (f := fun t => (dot W W - 2 * w * dot W v + w ^ 2 * dot v v) + ((2 * dot W v - 2 * w * dot v v) * t + dot v v * (t * t)))).
      { intros t. ring. }
      apply (derivable_val (l := 0 + ((2 * dot W v - 2 * w * dot v v) * 1 + dot v v * (1 * w + w * 1)))); [|ring].
      apply (derivable_pt_lim_plus (fct_cte (dot W W - 2 * w * dot W v + w ^ 2 * dot v v))); [apply derivable_pt_lim_const|].
      apply (derivable_pt_lim_plus (mult_real_fct (2 * dot W v - 2 * w * dot v v) id) (mult_real_fct (dot v v) (mult_fct id id)));
        apply derivable_pt_lim_scal; [apply derivable_pt_lim_id|].
      apply derivable_pt_lim_mult; apply derivable_pt_lim_id.
  Qed.

  Lemma glm_is_gradient F X y W : shapes X y W ->
    (forall V, length V = length W -> F V = Ok (glm X y V)) -> is_gradient F W (glm_grad X y W).
  Proof.
    intros HS HF. split; [now apply glm_grad_length|]. intros j w gj Hw Hg.
    exists (fun t => glm X y (set_nth W j t)). split; [intros t; apply HF, set_nth_length|].
    apply (derivable_ext (f := fun t => glm X y (vadd W (vscale (t - w) (unit (length W) j))))).
    { intros t. now rewrite <- (set_nth_line W j t Hw). }
    replace gj with (dot (glm_grad X y W) (unit (length W) j)); [now apply glm_direction; [|apply unit_length]|].
    rewrite <- (glm_grad_length HS). now apply dot_unit.
  Qed.

  Hypothesis Hc : 0 <= c.
  Hypothesis Hl : 0 <= lambda.
  Lemma glm_below X y W V : shapes X y W -> length V = length W ->
    (forall b a z, In b y -> phi b a + dphi b a * (z - a) <= phi b z) ->
    glm X y W + dot (glm_grad X y W) (vsub V W) <= glm X y V.
  Proof.
    intros HS HV Hcv. pose proof HS as (H1 & H2 & H3). rewrite glm_grad_dot by (auto; rewrite vsub_length; auto).
    unfold glm, over_samples, penalty.
    assert (Hn : 0 < INR (length X)) by (apply lt_0_INR; destruct X; [congruence|simpl; lia]).
    assert (A : total (map (fun p => phi (snd p) (dot (fst p) W)) (combine X y)) +
                total (map (fun p => dphi (snd p) (dot (fst p) W) * dot (fst p) (vsub V W)) (combine X y)) <=
                total (map (fun p => phi (snd p) (dot (fst p) V)) (combine X y))).
    { rewrite <- total_plus. apply total_le. intros (x, b) Hp. simpl. rewrite dot_vsub_r by assumption. apply Hcv.
      now apply in_combine_r in Hp. }
    assert (B : lambda * dot W W / (2 * INR (length X)) + lambda / INR (length X) * dot W (vsub V W) <=
                lambda * dot V V / (2 * INR (length X))).
    { rewrite dot_vsub_r by assumption. pose proof (sqn_nonneg (vsub V W)) as Hs. rewrite sqn_vsub in Hs by assumption.
      unfold sqn in Hs. rewrite (dot_comm V W) in Hs.
      replace (lambda * dot W W / (2 * INR (length X)) + lambda / INR (length X) * (dot W V - dot W W))
        with (lambda / (2 * INR (length X)) * (2 * dot W V - dot W W)) by (field; lra).
      replace (lambda * dot V V / (2 * INR (length X))) with (lambda / (2 * INR (length X)) * dot V V) by (field; lra).
      apply Rmult_le_compat_l; [|lra]. apply Rmult_le_pos; [assumption|]. left. apply Rinv_0_lt_compat. lra. }
    nra.
  Qed.
End GLM.

(** * MSE *)
Lemma vscale_as_div n u : map (fun a => a / n) u = vscale (/ n) u.
Proof. unfold vscale. apply map_ext. intros a. unfold Rdiv. ring. Qed.
Lemma vscale_vscale a b u : vscale a (vscale b u) = vscale (a * b) u.
Proof. unfold vscale. rewrite map_map. apply map_ext. intros. ring. Qed.
Lemma with_reg_ok lambda n g W : length g = length W -> with_reg lambda n g W = Ok (vadd g (vscale (lambda / n) W)).
Proof.
  intros H. unfold with_reg. rewrite vscale_as_div, vscale_vscale. apply add_ok. now rewrite vscale_length.
Qed.
Lemma map2_map_both {A B C D} (f : B -> C -> D) (g : A -> B) (X : list A) y : map2 f (map g X) y = map2 (fun x b => f (g x) b) X y.
Proof. apply map2_map_l. Qed.

Definition mse_phi (b z : R) := (b - z) ^ 2.
Definition mse_dphi (b z : R) := 2 * (z - b).
Lemma mse_phi_derivable b z : derivable_pt_lim (mse_phi b) z (mse_dphi b z).
Proof.
  unfold mse_phi, mse_dphi. apply (derivable_ext (f := fun t => b * b + ((- 2 * b) * t + t * t))). { intros; ring. }
  apply (derivable_val (l := 0 + ((- 2 * b) * 1 + (1 * z + z * 1)))); [|ring].
  apply (derivable_pt_lim_plus (fct_cte (b * b))); [apply derivable_pt_lim_const|].
  apply (derivable_pt_lim_plus (mult_real_fct (-2 * b) id) (mult_fct id id)).
  - apply derivable_pt_lim_scal, derivable_pt_lim_id.
  - apply derivable_pt_lim_mult; apply derivable_pt_lim_id.
Qed.
Definition mse_c (X : list (list R)) := / (2 * INR (length X)).
Lemma mse_evaluate_glm lambda X y W : shapes X y W -> mse_evaluate lambda X y W = Ok (glm mse_phi (mse_c X) lambda X y W).
Proof.
  intros (H1 & H2 & H3). unfold mse_evaluate. rewrite mv_ok by assumption. simpl. rewrite sub_ok by (rewrite map_length; auto). simpl.
  assert (Hn : INR (length X) <> 0) by (apply not_0_INR; destruct X; [congruence|discriminate]).
  f_equal. unfold glm, penalty, reg_term, mse_c. f_equal; [|field; assumption].
  rewrite Rsum_total.
  replace (map (fun a => a * (a * 1)) (vsub y (map (fun x => dot x W) X))) with (map (fun p => mse_phi (snd p) (dot (fst p) W)) (combine X y)).
  - unfold over_samples. field. assumption.
  - unfold vsub. rewrite map2_map_r, map_map2, map2_swap, map2_combine. reflexivity.
Qed.
Lemma mse_gradient_glm lambda X y W : shapes X y W -> mse_gradient lambda X y W = Ok (glm_grad mse_dphi (mse_c X) lambda X y W).
Proof.
  intros HS. pose proof HS as (H1 & H2 & H3). unfold mse_gradient. rewrite mv_ok by assumption. simpl.
  rewrite sub_ok by (rewrite map_length; auto). simpl. rewrite (cols_ok HS). unfold vsub. rewrite map2_map_l.
  rewrite tmv_ok by (rewrite map2_length; auto). simpl.
  assert (Hn : INR (length X) <> 0) by (apply not_0_INR; destruct X; [congruence|discriminate]).
  rewrite with_reg_ok by (rewrite map_length, vsum_length; [reflexivity|now apply width_scaled]).
  unfold glm_grad. do 2 f_equal. rewrite vscale_as_div. unfold mse_c, mse_dphi.
  assert (E : forall k l, map2 vscale (map2 (fun x b => 2 * (dot x W - b)) k l) X = map (vscale 2) (map2 vscale (map2 (fun x b => dot x W - b) k l) X)).
  { generalize X. intros Z. clear. intros k. revert Z. induction k as [|x k IH]; intros [|z Z] [|b l]; simpl; auto. rewrite IH, vscale_vscale. reflexivity. }
  rewrite E. clear E. generalize (map2 vscale (map2 (fun x b => dot x W - b) X y) X). intros L.
  assert (G : vsum (length W) (map (vscale 2) L) = vscale 2 (vsum (length W) L)).
  { induction L as [|u L IH]; simpl; [now rewrite vscale_zeros|]. rewrite IH. unfold vscale, vadd.
    rewrite map_map2, map2_map_l, map2_map_r. apply map2_ext. intros; ring. }
  rewrite G, vscale_vscale. f_equal. field. assumption.
Qed.

(** * Logistic *)
Lemma sigmoid1_logistic z : sigmoid1 z = logistic z.
Proof.
  unfold sigmoid1, logistic, fmin, Rgeb. pose proof (exp_pos z). pose proof (exp_pos (- z)).
  destruct (Rltb z 0) eqn:E; simpl.
  - apply Rltb_true in E. rewrite Rabs_left by assumption. rewrite Ropp_involutive, exp_Ropp. field. lra.
  - apply Rltb_false in E. rewrite Rabs_right by lra. rewrite exp_0. reflexivity.
Qed.
Lemma logistic_ratio z : logistic z = exp z / (1 + exp z).
Proof. unfold logistic. pose proof (exp_pos z). rewrite exp_Ropp. field. lra. Qed.
Lemma logistic_bounds z : 0 < logistic z < 1.
Proof.
  unfold logistic. pose proof (exp_pos (- z)). split.
  - apply Rdiv_lt_0_compat; lra.
  - apply Rmult_lt_reg_r with (1 + exp (- z)); [lra|]. unfold Rdiv. rewrite Rmult_assoc, Rinv_l by lra. lra.
Qed.
Lemma cross_entropy_alt b z : cross_entropy b z = ln (1 + exp z) - b * z.
Proof.
  unfold cross_entropy. rewrite logistic_ratio. pose proof (exp_pos z).
  replace (1 - exp z / (1 + exp z)) with (/ (1 + exp z)) by (field; lra).
  unfold Rdiv. rewrite ln_mult by (auto; apply Rinv_0_lt_compat; lra). rewrite ln_Rinv by lra. rewrite ln_exp. ring.
Qed.
Definition log_dphi (b z : R) := logistic z - b.
Lemma log_phi_derivable b z : derivable_pt_lim (cross_entropy b) z (log_dphi b z).
Proof.
  apply (derivable_ext (f := fun t => ln (1 + exp t) + (- b) * t)). { intros t. rewrite cross_entropy_alt. ring. }
  unfold log_dphi. replace (logistic z - b) with (/ (1 + exp z) * (0 + exp z) + (- b) * 1).
  2: { rewrite logistic_ratio. pose proof (exp_pos z). field. lra. }
  apply (derivable_pt_lim_plus (comp ln (fun t => 1 + exp t)) (mult_real_fct (- b) id)).
  - apply derivable_pt_lim_comp.
    + apply (derivable_pt_lim_plus (fct_cte 1) exp); [apply derivable_pt_lim_const|apply derivable_pt_lim_exp].
    + apply derivable_pt_lim_ln. pose proof (exp_pos z). lra.
  - apply derivable_pt_lim_scal, derivable_pt_lim_id.
Qed.
(** Weighted exponentials lie above the exponential of the weighted mean. *)
Lemma exp_jensen {A} (p d : A -> R) l : (forall a, In a l -> 0 <= p a) -> total (map p l) = 1 ->
  exp (total (map (fun a => p a * d a) l)) <= total (map (fun a => p a * exp (d a)) l).
Proof.
  intros Hp Hs. set (m := total (map (fun a => p a * d a) l)).
  assert (H : total (map (fun a => p a * (1 + (d a - m))) l) <= total (map (fun a => p a * exp (d a - m)) l)).
  { apply total_le. intros a Ha. apply Rmult_le_compat_l; auto. destruct (Req_dec (d a - m) 0) as [->|N]; [rewrite exp_0; lra|]. left. now apply exp_ineq1. }
  assert (E : total (map (fun a => p a * (1 + (d a - m))) l) = 1).
  { rewrite (total_ext _ (fun a => (1 - m) * p a + p a * d a)) by (intros; ring). rewrite total_plus, total_scal, Hs. fold m. ring. }
  assert (E2 : total (map (fun a => p a * exp (d a - m)) l) = exp (- m) * total (map (fun a => p a * exp (d a)) l)).
  { rewrite <- total_scal. apply total_ext. intros a _. replace (d a - m) with (d a + - m) by ring. rewrite exp_plus. ring. }
  rewrite E, E2 in H. apply Rmult_le_reg_l with (exp (- m)); [apply exp_pos|]. rewrite <- exp_plus. replace (- m + m) with 0 by ring. now rewrite exp_0.
Qed.
Lemma log_phi_convex b a z : cross_entropy b a + log_dphi b a * (z - a) <= cross_entropy b z.
Proof.
  rewrite !cross_entropy_alt. unfold log_dphi. pose proof (exp_pos a) as Pa. pose proof (exp_pos z) as Pz. pose proof (logistic_bounds a) as Hl.
  pose proof (@exp_jensen bool (fun b => if b then logistic a else 1 - logistic a) (fun b => if b then z - a else 0) [true; false]) as J.
  simpl in J. specialize (J ltac:(intros [] _; lra) ltac:(lra)). rewrite exp_0 in J.
  replace (logistic a * (z - a) + ((1 - logistic a) * 0 + 0)) with (logistic a * (z - a)) in J by ring.
  replace (logistic a * exp (z - a) + ((1 - logistic a) * 1 + 0)) with ((1 + exp z) / (1 + exp a)) in J.
  2: { rewrite logistic_ratio. replace (z - a) with (z + - a) by ring. rewrite exp_plus, exp_Ropp. field. lra. }
  pose proof (ln_le_compat (exp_pos _) J) as J'. clear J. rename J' into J. rewrite ln_exp in J. unfold Rdiv in J.
  rewrite ln_mult in J by (try apply Rinv_0_lt_compat; lra). rewrite ln_Rinv in J by lra. lra.
Qed.
Lemma log_evaluate_glm lambda X y W : shapes X y W -> log_evaluate lambda X y W = Ok (glm cross_entropy (/ INR (length X)) lambda X y W).
Proof.
  intros (H1 & H2 & H3). unfold log_evaluate. rewrite mv_ok by assumption. simpl.
  rewrite !mul_ok by (unfold sigmoid; rewrite !map_length; auto). simpl.
  rewrite sub_ok by (rewrite !map2_length; unfold sigmoid; rewrite !map_length; auto). simpl.
  assert (Hn : INR (length X) <> 0) by (apply not_0_INR; destruct X; [congruence|discriminate]).
  f_equal. unfold glm, penalty, reg_term. f_equal; [|field; assumption]. unfold Rdiv. f_equal. rewrite Rsum_total.
  unfold over_samples, sigmoid. f_equal. rewrite map_map. clear H1 H2 Hn. revert y H3. induction X as [|x X IH]; intros [|b y] H; simpl in H; try lia; [reflexivity|].
  simpl. unfold vsub in *. simpl. f_equal; [|apply IH; lia]. rewrite sigmoid1_logistic. unfold cross_entropy. ring.
Qed.
Lemma log_gradient_glm lambda X y W : shapes X y W -> log_gradient lambda X y W = Ok (glm_grad log_dphi (/ INR (length X)) lambda X y W).
Proof.
  intros HS. pose proof HS as (H1 & H2 & H3). unfold log_gradient. rewrite mv_ok by assumption. simpl.
  rewrite sub_ok by (unfold sigmoid; rewrite !map_length; auto). simpl. rewrite (cols_ok HS). unfold vsub, sigmoid. rewrite map_map, map2_map_l.
  rewrite tmv_ok by (rewrite map2_length; auto). simpl.
  rewrite with_reg_ok by (rewrite map_length, vsum_length; [reflexivity|now apply width_scaled]).
  unfold glm_grad. rewrite vscale_as_div. do 4 f_equal. f_equal. apply map2_ext. intros x b. unfold log_dphi. now rewrite sigmoid1_logistic.
Qed.
