From Coq Require Import Reals Lra.
From Verif Require Import Base Common_Model RDR_Proofs KDReal_Proofs Impurity_Model Impurity_Spec Impurity_Proofs Vec MathFun_Model Loss_Model Loss_Spec Loss_Proofs LossHinge_Proofs.
Local Open Scope R_scope.
Set Implicit Arguments.

(** Scores of a sample as the code computes them. *)
Definition zrow (K : nat) (W : list (list R)) (x : list R) : list R := vsum K (map2 vscale x W).
Lemma zrow_length K W x : width K W -> length (zrow K W x) = K.
Proof. intros H. apply vsum_length. now apply width_scaled. Qed.
Lemma nth_vadd u v k : length u = length v -> nth k (vadd u v) 0 = nth k u 0 + nth k v 0.
Proof.
  unfold vadd. revert v k. induction u as [|a u IH]; intros [|b v] k H; simpl in H; try lia; [destruct k; simpl; lra|].
  destruct k; simpl; [reflexivity|]. apply IH. lia.
Qed.
Lemma nth_vscale c u k : nth k (vscale c u) 0 = c * nth k u 0.
Proof. unfold vscale. rewrite <- (Rmult_0_r c) at 1. apply map_nth. Qed.
Lemma zrow_nth K W : forall x k, width K W -> length x = length W -> (k < K)%nat ->
  nth k (zrow K W x) 0 = dot x (map (fun w => nth k w 0) W).
Proof.
  unfold zrow. induction W as [|w W IH]; intros [|a x] k HW HL Hk; simpl in HL; try lia.
  - simpl. unfold zeros. rewrite nth_repeat. now rewrite dot_nil_l.
  - apply width_cons in HW. destruct HW as (H1 & H2). simpl. rewrite dot_cons.
    rewrite nth_vadd by (rewrite vscale_length, vsum_length; auto; now apply width_scaled). rewrite nth_vscale, IH; auto.
Qed.
Lemma list_as_nths {A} (d : A) l : l = map (fun k => nth k l d) (seq 0 (length l)).
Proof.
  induction l as [|a l IH]; [reflexivity|]. simpl. f_equal. rewrite <- seq_shift, map_map. exact IH.
Qed.
Lemma zrow_scores K W x : width K W -> length x = length W -> zrow K W x = scores K W x.
Proof.
  intros HW HL. rewrite (list_as_nths 0 (zrow K W x)), zrow_length by assumption. unfold scores. apply map_ext_in.
  intros k Hk. apply in_seq in Hk. apply zrow_nth; auto; lia.
Qed.

Lemma total_exp_pos z : z <> [] -> 0 < total (map exp z).
Proof.
  intros H. destruct z as [|a z]; [congruence|]. simpl. pose proof (exp_pos a).
  pose proof (@total_nonneg R exp z (fun x _ => Rlt_le _ _ (exp_pos x))). lra.
Qed.
Lemma exp_shift z m : map (fun a => exp (a - m)) z = map (fun a => exp (- m) * exp a) z.
Proof. apply map_ext. intros a. rewrite <- exp_plus. f_equal. ring. Qed.
Lemma softmax_shift z m a : z <> [] -> exp (a - m) / total (map (fun a => exp (a - m)) z) = exp a / total (map exp z).
Proof.
  intros H. rewrite exp_shift. rewrite total_scal. replace (a - m) with (- m + a) by ring. rewrite exp_plus.
  pose proof (exp_pos (- m)). pose proof (total_exp_pos H). field. split; lra.
Qed.
Lemma mapM_seq2 {A B C} (h : A -> B -> outcome C) : forall (y : list A) (e : list B), length y = length e ->
  mapM (fun i => let! c := vget y i in let! r := vget e i in h c r) (seq 0 (length e)) =
  mapM (fun p => h (fst p) (snd p)) (combine y e).
Proof.
  induction y as [|c y IH]; intros [|r e] H; simpl in H; try lia; [reflexivity|].
  cbn [length seq mapM combine]. rewrite mapM_shift. unfold vget at 1 2. simpl nth_error. cbn [bind fst snd].
  rewrite <- IH by lia. reflexivity.
Qed.
Lemma combine_map_r {A B C} (g : B -> C) : forall (y : list A) l, combine y (map g l) = map (fun p => (fst p, g (snd p))) (combine y l).
Proof. induction y as [|a y IH]; intros [|b l]; simpl; auto. now rewrite IH. Qed.
Lemma combine_swap {A B} : forall (u : list A) (v : list B), combine u v = map (fun p => (snd p, fst p)) (combine v u).
Proof. induction u as [|a u IH]; intros [|b v]; simpl; auto. now rewrite IH. Qed.

Lemma max_coeff_ok v : v <> [] -> exists m, max_coeff v = Ok m.
Proof. intros H. destruct v as [|a v]; [congruence|]. simpl. eauto. Qed.
Lemma softmax_exp_ok K X y W : shapes_mat K X y W ->
  exists m, softmax_exp K X W = Ok (map (fun x => map (fun a => exp (a - m)) (zrow K W x)) X).
Proof.
  intros (H1 & H2 & H3 & H4 & H5 & H6). unfold softmax_exp. rewrite (@mapM_map _ _ _ (zrow K W)).
  2: { intros x Hx. unfold row_mul. rewrite (H3 x Hx), Nat.eqb_refl. reflexivity. }
  cbn [bind]. destruct (@max_coeff_ok (concat (map (zrow K W) X))) as (m & Hm).
  { destruct X as [|x X]; [congruence|]. simpl. pose proof (zrow_length x H4) as HL. destruct (zrow K W x); simpl in *; [lia|discriminate]. }
  exists m. rewrite Hm. cbn [bind]. now rewrite map_map.
Qed.

Definition data_loss K X y W := total (map (fun p : list R * nat => nll (zrow K W (fst p)) (snd p)) (combine X y)) / INR (length X).
Lemma data_loss_spec K X y W : shapes_mat K X y W -> data_loss K X y W = softmax_data_loss K X y W.
Proof.
  intros (H1 & H2 & H3 & H4 & H5 & H6). unfold data_loss, softmax_data_loss. f_equal. apply total_ext. intros (x, c) Hp. simpl.
  rewrite zrow_scores; auto. apply in_combine_l in Hp. now apply H3.
Qed.

Lemma vget_map {A B} (f : A -> B) l i a : nth_error l i = Some a -> vget (map f l) i = Ok (f a).
Proof. intros H. unfold vget. rewrite (map_nth_error _ _ _ H). reflexivity. Qed.
Lemma nth_error_some {A} (d : A) l i : (i < length l)%nat -> nth_error l i = Some (nth i l d).
Proof. intros H. now apply nth_error_nth'. Qed.

Lemma softmax_evaluate_ok K lambda X y W : shapes_mat K X y W ->
  softmax_evaluate K lambda X y W = Ok (data_loss K X y W + gram_sum K W / (INR (length X) * 2) * lambda).
Proof.
  intros HS. pose proof HS as (H1 & H2 & H3 & H4 & H5 & H6). unfold softmax_evaluate. destruct (softmax_exp_ok HS) as (m & Hm). rewrite Hm. cbn [bind].
  set (e := map (fun x => map (fun a => exp (a - m)) (zrow K W x)) X).
  assert (He : length e = length X) by (unfold e; apply map_length). rewrite <- He at 1.
  rewrite (mapM_seq2 (fun c r => let! a := vget r c in Ok (a / Rsum r))) by congruence.
  unfold e. rewrite combine_map_r.
  rewrite (@mapM_map _ _ _ (fun p => nth (fst p) (snd p) 0 / total (snd p))).
  2: { intros (c, r) Hp. apply in_map_iff in Hp. destruct Hp as ((c', x) & [= -> <-] & Hp). simpl.
    pose proof (zrow_length x H4) as HL. pose proof (H6 c (in_combine_l _ _ _ _ Hp)) as Hc.
    rewrite (vget_map (fun a => exp (a - m)) (zrow K W x) c (a := nth c (zrow K W x) 0)) by (apply nth_error_some; lia). cbn [bind].
    rewrite Rsum_total. f_equal. f_equal.
    rewrite (nth_indep (map (fun a => exp (a - m)) _) 0 (exp (0 - m))) by (rewrite map_length; lia). now rewrite (map_nth (fun a => exp (a - m))). }
  cbn [bind]. f_equal. f_equal. unfold data_loss. f_equal. rewrite Rsum_total. rewrite !map_map. rewrite (combine_swap X y), map_map. simpl.
  replace (- total (map (fun p => ln (nth (fst p) (map (fun a => exp (a - m)) (zrow K W (snd p))) 0 / total (map (fun a => exp (a - m)) (zrow K W (snd p))))) (combine y X)))
    with (-1 * total (map (fun p => ln (nth (fst p) (map (fun a => exp (a - m)) (zrow K W (snd p))) 0 / total (map (fun a => exp (a - m)) (zrow K W (snd p))))) (combine y X))) by ring.
  rewrite <- total_scal. apply total_ext. intros (c, x) Hp. simpl. unfold nll.
  pose proof (zrow_length x H4) as HL. pose proof (H6 c (in_combine_l _ _ _ _ Hp)) as Hc.
  rewrite (nth_indep (map (fun a => exp (a - m)) _) 0 (exp (0 - m))) by (rewrite map_length; lia). rewrite (map_nth (fun a => exp (a - m))).
  rewrite softmax_shift by (intros E; rewrite E in HL; simpl in HL; lia). ring.
Qed.

(** Residual row: softmax of the scores minus the indicator of the class. *)
Definition prob (z : list R) (a : R) : R := exp a / total (map exp z).
Definition residual (z : list R) (c : nat) : list R := set_nth (map (prob z) z) c (nth c (map (prob z) z) 0 - 1).
Lemma residual_length z c : length (residual z c) = length z.
Proof. unfold residual. now rewrite set_nth_length, map_length. Qed.
Definition sm_grad_row K lambda X y W (j : nat) (w : list R) : list R :=
  vadd (vscale (1 / INR (length X)) (vsum K (map2 vscale (map (fun x => nth j x 0) X) (map (fun p => residual (zrow K W (fst p)) (snd p)) (combine X y)))))
       (vscale (lambda / INR (length X)) w).
Lemma map2_seq {A B C} (f : A -> B -> C) (W : list B) (g : nat -> A) : forall k,
  map2 f (map g (seq k (length W))) W = map (fun p => f (g (fst p)) (snd p)) (combine (seq k (length W)) W).
Proof. induction W as [|w W IH]; intros k; simpl; auto. now rewrite IH. Qed.
Lemma softmax_gradient_ok K lambda X y W : shapes_mat K X y W ->
  softmax_gradient K lambda X y W = Ok (map (fun p => sm_grad_row K lambda X y W (fst p) (snd p)) (combine (seq 0 (length W)) W)).
Proof.
  intros HS. pose proof HS as (H1 & H2 & H3 & H4 & H5 & H6). unfold softmax_gradient. destruct (softmax_exp_ok HS) as (m & Hm). rewrite Hm. cbn [bind].
  set (e := map (fun x => map (fun a => exp (a - m)) (zrow K W x)) X).
  assert (He : length e = length X) by (unfold e; apply map_length). rewrite <- He at 1.
  rewrite (mapM_seq2 (fun c r => let q := map (fun a => a / Rsum r) r in let! a := vget q c in Ok (set_nth q c (a - 1)))) by congruence.
  unfold e. rewrite combine_map_r.
  rewrite (@mapM_map _ _ _ (fun p => set_nth (map (fun a => a / total (snd p)) (snd p)) (fst p) (nth (fst p) (map (fun a => a / total (snd p)) (snd p)) 0 - 1))).
  2: { intros (c, r) Hp. apply in_map_iff in Hp. destruct Hp as ((c', x) & [= -> <-] & Hp). simpl.
    pose proof (zrow_length x H4) as HL. pose proof (H6 c (in_combine_l _ _ _ _ Hp)) as Hc.
    rewrite Rsum_total. unfold vget. rewrite (nth_error_some 0) by (rewrite !map_length; lia). cbn [bind]. reflexivity. }
  cbn [bind]. rewrite map_map. simpl.
  assert (E : map (fun x => set_nth (map (fun a => a / total (map (fun a0 => exp (a0 - m)) (zrow K W (snd x)))) (map (fun a => exp (a - m)) (zrow K W (snd x)))) (fst x)
      (nth (fst x) (map (fun a => a / total (map (fun a0 => exp (a0 - m)) (zrow K W (snd x)))) (map (fun a => exp (a - m)) (zrow K W (snd x)))) 0 - 1)) (combine y X)
    = map (fun p => residual (zrow K W (fst p)) (snd p)) (combine X y)).
  { rewrite (combine_swap X y), map_map. apply map_ext_in. intros (c, x) Hp. simpl. unfold residual.
    assert (E : map (fun a => a / total (map (fun a0 => exp (a0 - m)) (zrow K W x))) (map (fun a => exp (a - m)) (zrow K W x)) = map (prob (zrow K W x)) (zrow K W x)).
    { rewrite map_map. apply map_ext. intros a. unfold prob. apply softmax_shift. pose proof (zrow_length x H4) as HL. intros E. rewrite E in HL. simpl in HL. lia. }
    rewrite E. reflexivity. }
  rewrite E. clear E.
  rewrite (@mapM_map _ _ _ (fun j => vscale (1 / INR (length X)) (vsum K (map2 vscale (map (fun x => nth j x 0) X) (map (fun p => residual (zrow K W (fst p)) (snd p)) (combine X y)))))).
  2: { intros j Hj. apply in_seq in Hj. rewrite (@mapM_map _ _ _ (fun x => nth j x 0)); [reflexivity|].
    intros x Hx. unfold vget. rewrite (nth_error_some 0); [reflexivity|]. rewrite (H3 x Hx). lia. }
  cbn [bind]. rewrite map2_seq. f_equal. apply map_ext. intros (j, w). simpl. unfold sm_grad_row. now rewrite vscale_as_div, vscale_vscale.
Qed.
Lemma nth_error_seq k : forall n j, (j < n)%nat -> nth_error (seq k n) j = Some (k + j)%nat.
Proof. revert k. intros k n. revert k. induction n as [|n IH]; intros k [|j] H; simpl; try lia; [f_equal; lia|]. rewrite IH by lia. f_equal. lia. Qed.
Lemma nth_error_combine {A B} : forall (u : list A) (v : list B) j a b, nth_error u j = Some a -> nth_error v j = Some b -> nth_error (combine u v) j = Some (a, b).
Proof. induction u as [|a' u IH]; intros [|b' v] [|j] a b Ha Hb; simpl in *; try discriminate; [congruence|]. eauto. Qed.
Lemma softmax_gradient_row K lambda X y W j w : shapes_mat K X y W -> nth_error W j = Some w -> exists g,
  softmax_gradient K lambda X y W = Ok g /\ length g = length W /\ nth_error g j = Some (sm_grad_row K lambda X y W j w).
Proof.
  intros HS Hw. rewrite (softmax_gradient_ok lambda HS). eexists. split; [reflexivity|]. split; [now rewrite map_length, combine_length, seq_length, Nat.min_id|].
  assert (Hj : (j < length W)%nat) by (apply nth_error_Some; congruence).
  assert (E : nth_error (combine (seq 0 (length W)) W) j = Some (j, w)) by (apply nth_error_combine; [now rewrite nth_error_seq|assumption]).
  now rewrite (map_nth_error _ _ _ E).
Qed.

(** * Derivative *)
Lemma zrow_set K W : forall x j w w' a, width K W -> nth_error W j = Some w -> length w' = K -> length x = length W -> nth_error x j = Some a ->
  zrow K (set_nth W j w') x = vadd (zrow K W x) (vscale a (vsub w' w)).
Proof.
  unfold zrow. induction W as [|w0 W IH]; intros [|b x] [|j] w w' a HW Hw Hw' HL Ha; simpl in *; try discriminate; try lia;
    apply width_cons in HW; destruct HW as (H1 & H2).
  - injection Hw as ->. injection Ha as ->.
    assert (E : vscale a w' = vadd (vscale a w) (vscale a (vsub w' w))).
    { clear IH HL. subst K. revert w' Hw'. clear. induction w as [|c w IH]; intros [|c' w'] H; simpl in *; try lia; auto. unfold vadd, vscale, vsub in *. simpl.
      rewrite <- IH by lia. f_equal. ring. }
    rewrite E, !vadd_assoc. f_equal. apply vadd_comm.
  - rewrite (IH x j w w' a); auto. now rewrite vadd_assoc.
Qed.
Lemma vsub_set_nth w : forall k a t, nth_error w k = Some a -> vsub (set_nth w k t) w = vscale (t - a) (unit (length w) k).
Proof.
  unfold vsub. induction w as [|b w IH]; intros [|k] a t H; simpl in H; try discriminate; unfold unit, zeros, vscale in *; simpl.
  - injection H as ->. f_equal; [ring|]. clear. induction w as [|c w IH]; simpl; [reflexivity|]. rewrite IH. f_equal. ring.
  - rewrite (IH k a t H). f_equal. ring.
Qed.

Lemma nll_alt z c : z <> [] -> nll z c = ln (total (map exp z)) - nth c z 0.
Proof.
  intros H. unfold nll. pose proof (total_exp_pos H). unfold Rdiv. rewrite ln_mult by (try apply exp_pos; now apply Rinv_0_lt_compat).
  rewrite ln_Rinv by assumption. rewrite ln_exp. ring.
Qed.
Lemma map2_total_exp z v s : length v = length z -> total (map exp (vadd z (vscale s v))) = total (map (fun p => exp (fst p + s * snd p)) (combine z v)).
Proof.
  unfold vadd, vscale. revert v. induction z as [|a z IH]; intros [|b v] H; simpl in *; try lia; auto. rewrite IH by lia. reflexivity.
Qed.
Lemma map2_nonempty {A B C} (f : A -> B -> C) u v : u <> [] -> length v = length u -> map2 f u v <> [].
Proof. destruct u, v; simpl; try congruence; discriminate. Qed.
Lemma vadd_vscale_0 z v : length v = length z -> vadd z (vscale 0 v) = z.
Proof. intros H. rewrite vscale_0, H. apply vadd_zeros. Qed.
Lemma nll_direction z v c w : z <> [] -> length v = length z ->
  derivable_pt_lim (fun t => nll (vadd z (vscale (t - w) v)) c) w (total (map2 (fun a b => prob z a * b) z v) - nth c v 0).
Proof.
  intros Hz Hv.
  apply (derivable_ext (f := fun t => ln (total (map (fun p => exp (fst p + (t - w) * snd p)) (combine z v))) + -1 * (nth c z 0 + (t - w) * nth c v 0))).
  { intros t. rewrite nll_alt by (unfold vadd; apply map2_nonempty; [assumption|now rewrite vscale_length]).
    rewrite map2_total_exp by assumption. rewrite nth_vadd by (now rewrite vscale_length). rewrite nth_vscale. ring. }
  set (S := fun t => total (map (fun p => exp (fst p + (t - w) * snd p)) (combine z v))).
  assert (HS : S w = total (map exp z)).
  { unfold S. rewrite <- map2_total_exp by assumption. replace (w - w) with 0 by ring. now rewrite vadd_vscale_0. }
  pose proof (total_exp_pos Hz) as Hp.
  apply (derivable_val (l := / S w * total (map (fun p => exp (fst p) * snd p) (combine z v)) + -1 * nth c v 0)).
  - apply (derivable_pt_lim_plus (comp ln S) (mult_real_fct (-1) (fun t => nth c z 0 + (t - w) * nth c v 0))).
    + apply derivable_pt_lim_comp; [|apply derivable_pt_lim_ln; lra].
      apply (derivable_total (fun p t => exp (fst p + (t - w) * snd p))). intros (a, b) _. simpl.
      apply (derivable_pt_lim_comp (fun t => a + (t - w) * b) exp); [apply derivable_affine|].
      replace (exp a) with (exp (a + (w - w) * b)) by (f_equal; ring). apply derivable_pt_lim_exp.
    + apply derivable_pt_lim_scal, derivable_affine.
  - rewrite HS. rewrite <- total_scal, map2_combine. unfold Rminus. f_equal; [|ring]. apply total_ext. intros (a, b) _. simpl. unfold prob. field. lra.
Qed.
Lemma map2_unit_total (f : R -> R) z : forall k a, nth_error z k = Some a -> total (map2 (fun a b => f a * b) z (unit (length z) k)) = f a.
Proof.
  unfold unit, zeros. induction z as [|b z IH]; intros [|k] a H; simpl in H; try discriminate; simpl.
  - injection H as ->. assert (E : total (map2 (fun a b => f a * b) z (repeat 0 (length z))) = 0). { clear. induction z; simpl; [reflexivity|]. rewrite IHz. ring. } rewrite E. ring.
  - rewrite (IH k a H). ring.
Qed.
Lemma map2_scale_total (f : R -> R) s z : forall v, total (map2 (fun a b => f a * b) z (vscale s v)) = s * total (map2 (fun a b => f a * b) z v).
Proof. unfold vscale. induction z as [|b z IH]; intros [|c v]; simpl; rewrite ?IH; ring. Qed.
Lemma nth_unit d : forall k c, (k < d)%nat -> nth c (unit d k) 0 = if (c =? k)%nat then 1 else 0.
Proof.
  unfold unit, zeros. induction d as [|d IH]; intros [|k] [|c] H; simpl; try lia; auto.
  - now rewrite nth_repeat.
  - apply IH. lia.
Qed.
Lemma residual_nth z c k : (c < length z)%nat -> (k < length z)%nat ->
  nth k (residual z c) 0 = prob z (nth k z 0) - (if (c =? k)%nat then 1 else 0).
Proof.
  intros Hc Hk. unfold residual.
  assert (E : forall i, (i < length z)%nat -> nth i (map (prob z) z) 0 = prob z (nth i z 0)).
  { intros i Hi. rewrite (nth_indep _ 0 (prob z 0)) by (rewrite map_length; lia). apply map_nth. }
  rewrite nth_set_nth by (rewrite map_length; lia). destruct (Nat.eq_dec k c) as [->|Hne].
  - rewrite Nat.eqb_refl. now rewrite E.
  - rewrite (proj2 (Nat.eqb_neq c k)) by lia. rewrite E by lia. ring.
Qed.

Lemma nth_vsum K xs k : width K xs -> (k < K)%nat -> nth k (vsum K xs) 0 = total (map (fun x => nth k x 0) xs).
Proof.
  induction xs as [|x xs IH]; intros HW Hk; simpl; [unfold zeros; now rewrite nth_repeat|].
  apply width_cons in HW. destruct HW as (H1 & H2). rewrite nth_vadd by (rewrite vsum_length; auto). now rewrite IH.
Qed.
Lemma sm_grad_entry K lambda X y W j w k : shapes_mat K X y W -> nth_error W j = Some w -> (k < K)%nat ->
  nth k (sm_grad_row K lambda X y W j w) 0 =
  total (map (fun p => nth j (fst p) 0 * nth k (residual (zrow K W (fst p)) (snd p)) 0) (combine X y)) / INR (length X)
  + lambda / INR (length X) * nth k w 0.
Proof.
  intros (H1 & H2 & H3 & H4 & H5 & H6) Hw Hk. unfold sm_grad_row.
  assert (HR : width K (map (fun p : list R * nat => residual (zrow K W (fst p)) (snd p)) (combine X y))).
  { intros r Hr. apply in_map_iff in Hr. destruct Hr as (p & <- & _). rewrite residual_length. now apply zrow_length. }
  assert (HR2 : width K (map2 vscale (map (fun x => nth j x 0) X) (map (fun p : list R * nat => residual (zrow K W (fst p)) (snd p)) (combine X y)))) by now apply width_scaled.
  rewrite nth_vadd. 2: { rewrite !vscale_length, vsum_length by assumption. symmetry. apply H4. eapply nth_error_In; eauto. }
  rewrite !nth_vscale, nth_vsum by assumption. unfold Rdiv. rewrite Rmult_1_l, (Rmult_comm (/ _)). f_equal. f_equal. f_equal.
  rewrite map2_map_l, map2_map_r, map_map2. clear -H5. generalize (zrow K W). intros Z. revert y H5. induction X as [|x X IH]; intros [|c y] H; simpl in *; try lia; auto.
  rewrite nth_vscale, IH by lia. reflexivity.
Qed.

Lemma data_loss_derivable K X y W j w k a : shapes_mat K X y W -> nth_error W j = Some w -> nth_error w k = Some a ->
  derivable_pt_lim (fun t => data_loss K X y (set_nth W j (set_nth w k t))) a
    (total (map (fun p => nth j (fst p) 0 * nth k (residual (zrow K W (fst p)) (snd p)) 0) (combine X y)) / INR (length X)).
Proof.
  intros HS Hw Ha. pose proof HS as (H1 & H2 & H3 & H4 & H5 & H6).
  assert (HwK : length w = K) by (apply H4; eapply nth_error_In; eauto).
  assert (Hk : (k < K)%nat) by (rewrite <- HwK; apply nth_error_Some; congruence).
  assert (Hj : (j < length W)%nat) by (apply nth_error_Some; congruence).
  unfold data_loss.
  apply (derivable_ext (f := fun t => / INR (length X) * total (map (fun p => nll (vadd (zrow K W (fst p)) (vscale (t - a) (vscale (nth j (fst p) 0) (unit K k)))) (snd p)) (combine X y)))).
  { intros t. unfold Rdiv. rewrite Rmult_comm. f_equal. apply total_ext. intros (x, c) Hp. simpl. pose proof (H3 x (in_combine_l _ _ _ _ Hp)) as Hx.
    rewrite (@zrow_set K W x j w (set_nth w k t) (nth j x 0)); auto.
    - rewrite (vsub_set_nth w k t Ha), HwK, !vscale_vscale. do 2 f_equal. f_equal. ring.
    - now rewrite set_nth_length.
    - apply nth_error_some. lia. }
  unfold Rdiv. rewrite (Rmult_comm _ (/ _)). apply (derivable_pt_lim_scal _ (/ INR (length X))).
  apply (derivable_total (fun p t => nll (vadd (zrow K W (fst p)) (vscale (t - a) (vscale (nth j (fst p) 0) (unit K k)))) (snd p))).
  intros (x, c) Hp. simpl. pose proof (zrow_length x H4) as HL. pose proof (H6 c (in_combine_r _ _ _ _ Hp)) as Hc.
  eapply derivable_val.
  - apply nll_direction; [intros E; rewrite E in HL; simpl in HL; lia|]. now rewrite vscale_length, unit_length.
  - rewrite map2_scale_total.
    assert (Q : total (map2 (fun a b => prob (zrow K W x) a * b) (zrow K W x) (unit K k)) = prob (zrow K W x) (nth k (zrow K W x) 0)).
    { etransitivity; [|apply (map2_unit_total (prob (zrow K W x)) (zrow K W x) k (a := nth k (zrow K W x) 0)); apply nth_error_some; lia]. now rewrite HL. }
    rewrite Q. rewrite nth_vscale, nth_unit by assumption. rewrite residual_nth by lia. ring.
Qed.

(** * The penalty *)
Lemma total_swap {A B} (f : A -> B -> R) la lb : total (map (fun a => total (map (f a) lb)) la) = total (map (fun b => total (map (fun a => f a b) la)) lb).
Proof.
  induction la as [|a la IH]; simpl.
  - induction lb as [|b lb IHb]; simpl; [reflexivity|]. rewrite <- IHb. ring.
  - rewrite IH. rewrite <- total_plus. apply total_ext. intros. reflexivity.
Qed.
Lemma total_nths K w : length w = K -> total (map (fun k => nth k w 0) (seq 0 K)) = total w.
Proof. intros <-. now rewrite <- list_as_nths. Qed.
Lemma gram_sum_rows K W : width K W -> gram_sum K W = total (map (fun w => total w * total w) W).
Proof.
  intros HW. unfold gram_sum. rewrite Rsum_total.
  rewrite (total_ext _ (fun k => total (map (fun w => nth k w 0 * total w) W))).
  2: { intros k _. rewrite Rsum_total. rewrite (total_ext _ (fun l => total (map (fun w => nth k w 0 * nth l w 0) W))) by (intros; apply Rsum_total).
    rewrite total_swap. apply total_ext. intros w Hw. rewrite total_scal. f_equal. now apply total_nths, HW. }
  rewrite total_swap. apply total_ext. intros w Hw.
  rewrite (total_ext _ (fun k => total w * nth k w 0)) by (intros; ring). rewrite total_scal. f_equal. now apply total_nths, HW.
Qed.
Lemma total_set_nth w : forall k a t, nth_error w k = Some a -> total (set_nth w k t) = total w + (t - a).
Proof.
  induction w as [|b w IH]; intros [|k] a t H; simpl in H; try discriminate; simpl.
  - injection H as ->. ring.
  - rewrite (IH k a t H). ring.
Qed.
Lemma total_map_set {A} (f : A -> R) W : forall j w w', nth_error W j = Some w -> total (map f (set_nth W j w')) = total (map f W) + (f w' - f w).
Proof.
  induction W as [|b W IH]; intros [|j] w w' H; simpl in H; try discriminate; simpl.
  - injection H as ->. ring.
  - rewrite (IH j w w' H). ring.
Qed.
Lemma width_set K W j w' : width K W -> length w' = K -> width K (set_nth W j w').
Proof.
  revert j. induction W as [|w W IH]; intros [|j] HW Hw; simpl; auto; apply width_cons in HW; destruct HW; apply width_cons; auto.
Qed.
Lemma gram_derivable K W j w k a c : width K W -> nth_error W j = Some w -> nth_error w k = Some a ->
  derivable_pt_lim (fun t => gram_sum K (set_nth W j (set_nth w k t)) * c) a (2 * total w * c).
Proof.
  intros HW Hw Ha. assert (HwK : length w = K) by (apply HW; eapply nth_error_In; eauto).
  apply (derivable_ext (f := fun t => (c * (total (map (fun w => total w * total w) W) - total w * total w)) + c * ((total w + (t - a) * 1) * (total w + (t - a) * 1)))).
  { intros t. rewrite gram_sum_rows by (apply width_set; [assumption|now rewrite set_nth_length]).
    rewrite (total_map_set (fun w => total w * total w) W j _ Hw). rewrite (total_set_nth w k t Ha). ring. }
  apply (derivable_val (l := 0 + c * (1 * (total w + (a - a) * 1) + (total w + (a - a) * 1) * 1))); [|ring].
  apply (derivable_pt_lim_plus (fct_cte _)); [apply derivable_pt_lim_const|].
  apply (derivable_pt_lim_scal (mult_fct (fun t => total w + (t - a) * 1) (fun t => total w + (t - a) * 1))).
  apply (derivable_pt_lim_mult (fun t => total w + (t - a) * 1) (fun t => total w + (t - a) * 1)); apply derivable_affine.
Qed.
Lemma shapes_set K X y W j w k t : shapes_mat K X y W -> nth_error W j = Some w -> shapes_mat K X y (set_nth W j (set_nth w k t)).
Proof.
  intros (H1 & H2 & H3 & H4 & H5 & H6) Hw. repeat split; auto; [now rewrite set_nth_length|].
  apply width_set; auto. rewrite set_nth_length. apply H4. eapply nth_error_In; eauto.
Qed.
Lemma softmax_evaluate_derivable K lambda X y W j w k a : shapes_mat K X y W -> nth_error W j = Some w -> nth_error w k = Some a ->
  exists f, (forall t, softmax_evaluate K lambda X y (set_nth W j (set_nth w k t)) = Ok (f t)) /\
  derivable_pt_lim f a (total (map (fun p => nth j (fst p) 0 * nth k (residual (zrow K W (fst p)) (snd p)) 0) (combine X y)) / INR (length X)
    + lambda / INR (length X) * total w).
Proof.
  intros HS Hw Ha. pose proof HS as (H1 & H2 & H3 & H4 & H5 & H6).
  assert (Hn : INR (length X) <> 0) by (apply not_0_INR; destruct X; [congruence|discriminate]).
  exists (fun t => data_loss K X y (set_nth W j (set_nth w k t)) + gram_sum K (set_nth W j (set_nth w k t)) * (lambda / (INR (length X) * 2))). split.
  - intros t. rewrite softmax_evaluate_ok by (now apply shapes_set). do 2 f_equal. field. assumption.
  - apply (derivable_pt_lim_plus (fun t => data_loss K X y (set_nth W j (set_nth w k t)))); [now apply data_loss_derivable|].
    eapply derivable_val; [now apply gram_derivable|]. field. assumption.
Qed.

(** * Convexity *)
Lemma map_combine_fst {A B C} (g : A -> C) : forall (u : list A) (v : list B), length u = length v -> map (fun p => g (fst p)) (combine u v) = map g u.
Proof. induction u as [|a u IH]; intros [|b v] H; simpl in *; try lia; auto. now rewrite IH by lia. Qed.
Lemma map_combine_snd {A B C} (g : B -> C) : forall (u : list A) (v : list B), length u = length v -> map (fun p => g (snd p)) (combine u v) = map g v.
Proof. induction u as [|a u IH]; intros [|b v] H; simpl in *; try lia; auto. now rewrite IH by lia. Qed.
Lemma prob_total z : z <> [] -> total (map (prob z) z) = 1.
Proof.
  intros H. pose proof (total_exp_pos H). unfold prob. rewrite (total_ext _ (fun a => / total (map exp z) * exp a)) by (intros; unfold Rdiv; ring).
  rewrite total_scal. field. lra.
Qed.
Lemma prob_pos z a : z <> [] -> 0 < prob z a.
Proof. intros H. unfold prob. apply Rdiv_lt_0_compat; [apply exp_pos|now apply total_exp_pos]. Qed.
Lemma lse_convex z z' : z <> [] -> length z = length z' ->
  total (map (fun p => prob z (fst p) * (snd p - fst p)) (combine z z')) <= ln (total (map exp z')) - ln (total (map exp z)).
Proof.
  intros Hz HL. pose proof (total_exp_pos Hz) as P. assert (Hz' : z' <> []) by (destruct z, z'; simpl in *; try congruence; discriminate).
  pose proof (total_exp_pos Hz') as P'.
  pose proof (@exp_jensen (R * R) (fun p => prob z (fst p)) (fun p => snd p - fst p) (combine z z')) as J.
  specialize (J (fun a _ => Rlt_le _ _ (prob_pos (fst a) Hz))). rewrite map_combine_fst in J by assumption. specialize (J (prob_total Hz)).
  assert (E : total (map (fun a => prob z (fst a) * exp (snd a - fst a)) (combine z z')) = total (map exp z') / total (map exp z)).
  { rewrite (total_ext _ (fun p => / total (map exp z) * exp (snd p))).
    - rewrite total_scal, map_combine_snd by assumption. field. lra.
    - intros (a, b) _. simpl. unfold prob. unfold Rminus. rewrite exp_plus, exp_Ropp. pose proof (exp_pos a). field. split; lra. }
  rewrite E in J. apply (ln_le_compat (exp_pos _)) in J. rewrite ln_exp in J. unfold Rdiv in J.
  rewrite ln_mult in J by (auto; now apply Rinv_0_lt_compat). rewrite ln_Rinv in J by assumption. lra.
Qed.
Lemma residual_dot z c v : (c < length z)%nat -> length v = length z ->
  dot (residual z c) v = total (map2 (fun a b => prob z a * b) z v) - nth c v 0.
Proof.
  intros Hc Hv. unfold residual.
  assert (G : forall (u : list R) c v, (c < length u)%nat -> length v = length u -> dot (set_nth u c (nth c u 0 - 1)) v = dot u v - nth c v 0).
  { clear. induction u as [|a u IH]; intros [|c] [|b v] H1 H2; simpl in *; try lia; rewrite !dot_cons; [ring|]. rewrite IH by lia. ring. }
  rewrite G by (rewrite map_length; auto). f_equal. unfold dot. now rewrite map2_map_l.
Qed.
Lemma nth_vsub u : forall v k, length u = length v -> nth k (vsub u v) 0 = nth k u 0 - nth k v 0.
Proof.
  unfold vsub. induction u as [|a u IH]; intros [|b v] k H; simpl in H; try lia; [destruct k; simpl; lra|].
  destruct k; simpl; [reflexivity|]. apply IH. lia.
Qed.
Lemma nll_convex z z' c : z <> [] -> length z = length z' -> (c < length z)%nat ->
  nll z c + dot (residual z c) (vsub z' z) <= nll z' c.
Proof.
  intros Hz HL Hc. assert (Hz' : z' <> []) by (destruct z, z'; simpl in *; try congruence; discriminate).
  rewrite !nll_alt by assumption. rewrite residual_dot by (auto; rewrite vsub_length; congruence).
  pose proof (lse_convex z' Hz HL) as J. rewrite nth_vsub by auto.
  replace (total (map2 (fun a b => prob z a * b) z (vsub z' z))) with (total (map (fun p => prob z (fst p) * (snd p - fst p)) (combine z z'))); [lra|].
  f_equal. unfold vsub. generalize (prob z). intros f. clear. revert z'. induction z as [|a z IH]; intros [|b z']; simpl; auto. now rewrite IH.
Qed.
Lemma zrow_sub K V : forall W x, width K V -> width K W -> length V = length W -> length x = length W ->
  zrow K (map2 vsub V W) x = vsub (zrow K V x) (zrow K W x).
Proof.
  unfold zrow. induction V as [|v V IH]; intros [|w W] [|a x] HV HW HL Hx; simpl in *; try lia.
  - clear. unfold vsub, zeros. induction K; simpl; [reflexivity|]. rewrite <- IHK. f_equal. ring.
  - apply width_cons in HV. apply width_cons in HW. destruct HV as (Hv & HV), HW as (Hw & HW).
    rewrite (IH W x HV HW) by lia.
    assert (L1 : length (vsum K (map2 vscale x V)) = K) by (apply vsum_length; now apply width_scaled).
    assert (L2 : length (vsum K (map2 vscale x W)) = K) by (apply vsum_length; now apply width_scaled).
    revert L1 L2. generalize (vsum K (map2 vscale x V)) (vsum K (map2 vscale x W)). clear IH HL Hx HV HW. subst K. intros p q.
    revert p q w Hw. unfold vadd, vsub, vscale. induction v as [|b v IH]; intros [|e p] [|f q] [|c w]; simpl; try lia; auto. intros. rewrite IH by lia. f_equal. ring.
Qed.
(** Moving the sum over the parameters inside the sum over the samples. *)
Lemma grad_dot_swap K D X : forall rs, width (length D) X -> width K D -> width K rs -> length rs = length X ->
  total (map (fun p => dot (vsum K (map2 vscale (map (fun x => nth (fst p) x 0) X) rs)) (snd p)) (combine (seq 0 (length D)) D)) =
  total (map2 (fun x r => dot r (zrow K D x)) X rs).
Proof.
  induction X as [|x X IH]; intros [|r rs] HX HD HR HL; simpl in HL; try lia.
  - simpl. rewrite (total_ext _ (fun _ => 0)) by (intros; apply dot_zeros_l). rewrite total_const. ring.
  - apply width_cons in HX. apply width_cons in HR. destruct HX as (Hx & HX), HR as (Hr & HR). simpl map2. simpl map.
    rewrite (total_ext _ (fun p => nth (fst p) x 0 * dot r (snd p) + dot (vsum K (map2 vscale (map (fun x => nth (fst p) x 0) X) rs)) (snd p))).
    2: { intros (j, w) _. simpl. rewrite dot_vadd_l by (rewrite vscale_length, vsum_length; auto; now apply width_scaled). now rewrite dot_vscale_l. }
    rewrite total_plus. rewrite IH by (auto; lia). simpl. f_equal.
    unfold zrow. rewrite dot_comm, dot_vsum by (now apply width_scaled).
    clear IH HX HR HL Hr. revert x Hx. assert (G : forall D x k, length x = length D ->
      total (map (fun p => nth (fst p - k) x 0 * dot r (snd p)) (combine (seq k (length D)) D)) = total (map (fun x0 => dot x0 r) (map2 vscale x D))).
    { clear. induction D as [|w D IH]; intros [|a x] k H; simpl in *; try lia; auto. rewrite Nat.sub_diag. rewrite dot_vscale_l, (dot_comm w r).
      rewrite <- (IH x (S k)) by lia. f_equal. apply total_ext. intros (j, v) Hp. simpl. apply in_combine_l in Hp. apply in_seq in Hp.
      replace (j - k)%nat with (S (j - S k)) by lia. reflexivity. }
    intros x Hx. rewrite <- (G D x 0%nat Hx). apply total_ext. intros (j, v) _. simpl. now rewrite Nat.sub_0_r.
Qed.
Lemma grad_rows (h : nat -> list R) a b c K :
  (forall j w u, length w = K -> dot (vadd (vscale a (h j)) (vscale b w)) u = c * dot (h j) u) ->
  forall W V k, width K W -> length V = length W ->
  total (map2 (fun gj p => dot gj (vsub (fst p) (snd p))) (map (fun p => vadd (vscale a (h (fst p))) (vscale b (snd p))) (combine (seq k (length W)) W)) (combine V W)) =
  total (map (fun p => c * dot (h (fst p)) (snd p)) (combine (seq k (length W)) (map2 vsub V W))).
Proof.
  intros G. induction W as [|w W IH]; intros [|v V] k H4 HL; simpl in *; try lia; auto.
  apply width_cons in H4. destruct H4 as (H4 & H4'). rewrite G by assumption. f_equal. apply IH; auto.
Qed.
Lemma softmax_below K X y W V g : shapes_mat K X y W -> width K V -> length V = length W ->
  softmax_gradient K 0 X y W = Ok g ->
  data_loss K X y W + total (map2 (fun gj p => dot gj (vsub (fst p) (snd p))) g (combine V W)) <= data_loss K X y V.
Proof.
  intros HS HV HL Hg. pose proof HS as (H1 & H2 & H3 & H4 & H5 & H6). rewrite (softmax_gradient_ok 0 HS) in Hg. injection Hg as <-.
  assert (Hn : 0 < INR (length X)) by (apply lt_0_INR; destruct X; [congruence|simpl; lia]).
  set (rs := map (fun p : list R * nat => residual (zrow K W (fst p)) (snd p)) (combine X y)).
  assert (HR : width K rs). { intros r Hr. apply in_map_iff in Hr. destruct Hr as (p & <- & _). rewrite residual_length. now apply zrow_length. }
  assert (HRL : length rs = length X) by (unfold rs; rewrite map_length, combine_length; lia).
  set (D := map2 vsub V W). assert (HDL : length D = length W) by (unfold D; rewrite map2_length; auto).
  assert (HD : width K D).
  { unfold D. clear -HV H4 HL. revert W H4 HL. induction V as [|v V IH]; intros [|w W] H4 HL; simpl in *; try lia; [apply width_nil|].
    apply width_cons in HV. apply width_cons in H4. apply width_cons. rewrite vsub_length by (destruct HV, H4; congruence). split; [tauto|]. apply IH; tauto || lia. }
  assert (E : total (map2 (fun gj p => dot gj (vsub (fst p) (snd p))) (map (fun p => sm_grad_row K 0 X y W (fst p) (snd p)) (combine (seq 0 (length W)) W)) (combine V W)) =
     / INR (length X) * total (map (fun p => dot (vsum K (map2 vscale (map (fun x => nth (fst p) x 0) X) rs)) (snd p)) (combine (seq 0 (length D)) D))).
  { rewrite <- total_scal. rewrite HDL. unfold D. unfold sm_grad_row. fold rs.
    assert (G : forall j w u, length w = K -> dot (vadd (vscale (1 / INR (length X)) (vsum K (map2 vscale (map (fun x => nth j x 0) X) rs))) (vscale (0 / INR (length X)) w)) u =
       / INR (length X) * dot (vsum K (map2 vscale (map (fun x => nth j x 0) X) rs)) u).
    { intros j w u Hw. rewrite dot_vadd_l by (rewrite !vscale_length, vsum_length; auto; now apply width_scaled). rewrite !dot_vscale_l. field. lra. }
    apply (@grad_rows (fun j => vsum K (map2 vscale (map (fun x => nth j x 0) X) rs)) _ _ _ K G); auto. }
  rewrite E, (@grad_dot_swap K D X rs); [|rewrite HDL; assumption|assumption..].
  unfold data_loss. apply Rmult_le_reg_r with (INR (length X)); [assumption|].
  unfold Rdiv. rewrite Rmult_plus_distr_r. rewrite !(Rmult_assoc _ (/ INR (length X))), Rinv_l, !Rmult_1_r by lra.
  rewrite (Rmult_comm (/ _)), Rmult_assoc, Rinv_l, Rmult_1_r by lra.
  assert (E2 : total (map2 (fun x r => dot r (zrow K D x)) X rs) = total (map (fun p : list R * nat => dot (residual (zrow K W (fst p)) (snd p)) (vsub (zrow K V (fst p)) (zrow K W (fst p)))) (combine X y))).
  { unfold rs. rewrite map2_map_r. unfold D. clear -H3 H4 H5 HV HL. f_equal.
    revert y H5. induction X as [|x X IH]; intros [|c y] H5; simpl in *; try lia; auto. apply width_cons in H3. destruct H3 as (Hx & H3).
    rewrite zrow_sub by auto. f_equal. apply IH; auto. }
  rewrite E2, <- total_plus. apply total_le. intros (x, c) Hp. simpl.
  pose proof (zrow_length x H4) as HzW. pose proof (zrow_length x HV) as HzV. pose proof (H6 c (in_combine_r _ _ _ _ Hp)) as Hc.
  apply nll_convex; [intros Q; rewrite Q in HzW; simpl in HzW; lia|congruence|lia].
Qed.
