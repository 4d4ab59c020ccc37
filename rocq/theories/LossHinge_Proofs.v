From Coq Require Import Reals Lra.
From Verif Require Import Base Common_Model RDR_Proofs KDReal_Proofs Impurity_Model Impurity_Spec Impurity_Proofs Vec MathFun_Model Loss_Model Loss_Spec Loss_Proofs.
Local Open Scope R_scope.
Set Implicit Arguments.

Lemma vadd_assoc u : forall v w, vadd (vadd u v) w = vadd u (vadd v w).
Proof. unfold vadd. induction u as [|a u IH]; intros [|b v] [|c w]; simpl; auto. rewrite IH. f_equal. lra. Qed.
Lemma vadd_comm u : forall v, vadd u v = vadd v u.
Proof. unfold vadd. induction u as [|a u IH]; intros [|b v]; simpl; auto. rewrite IH. f_equal. lra. Qed.
Lemma vscale_1 u : vscale 1 u = u.
Proof. unfold vscale. induction u as [|a u IH]; simpl; [reflexivity|]. rewrite IH. f_equal. lra. Qed.
Lemma vscale_0 u : vscale 0 u = zeros (length u).
Proof. unfold vscale, zeros. induction u as [|a u IH]; simpl; [reflexivity|]. rewrite IH. f_equal. lra. Qed.
Lemma zeros_vadd W : vadd (zeros (length W)) W = W.
Proof. rewrite vadd_comm. apply vadd_zeros. Qed.

Lemma foldM_shift {S} (f : S -> nat -> outcome S) n : forall k s, foldM f (seq (Datatypes.S k) n) s = foldM (fun s i => f s (Datatypes.S i)) (seq k n) s.
Proof. induction n as [|n IH]; intros k s; simpl; [reflexivity|]. destruct (f s (Datatypes.S k)); simpl; auto. Qed.
Lemma mapM_shift {B} (f : nat -> outcome B) n : forall k, mapM f (seq (S k) n) = mapM (fun i => f (S i)) (seq k n).
Proof. induction n as [|n IH]; intros k; simpl; [reflexivity|]. rewrite IH. reflexivity. Qed.

Definition hinge_phi (threshold b z : R) := Rmax 0 (threshold - z * b).
Definition hinge_dphi (threshold b z : R) := if Rltb threshold (z * b) then 0 else - b.
Lemma hinge_phi_convex th b a z : hinge_phi th b a + hinge_dphi th b a * (z - a) <= hinge_phi th b z.
Proof.
  unfold hinge_phi, hinge_dphi. pose proof (Rmax_l 0 (th - z * b)). pose proof (Rmax_r 0 (th - z * b)).
  destruct (Rltb th (a * b)) eqn:E.
  - apply Rltb_true in E. rewrite Rmax_left by lra. lra.
  - apply Rltb_false in E. rewrite Rmax_right by lra. lra.
Qed.
Lemma hinge_evaluate_glm th lambda X y W : shapes X y W -> hinge_evaluate lambda th X y W = Ok (glm (hinge_phi th) 1 lambda X y W).
Proof.
  intros (H1 & H2 & H3). unfold hinge_evaluate. rewrite mv_ok by assumption. simpl. rewrite mul_ok by (rewrite map_length; auto). simpl.
  assert (Hn : INR (length X) <> 0) by (apply not_0_INR; destruct X; [congruence|discriminate]).
  f_equal. unfold glm, penalty, reg_term. f_equal; [|field; assumption]. rewrite fold_left_total. rewrite Rplus_0_l, Rmult_1_r.
  unfold over_samples. f_equal. rewrite map2_map_l, map_map2, map2_combine. reflexivity.
Qed.
Lemma hinge_loop th d W X : forall y g, width d X -> length y = length X -> length g = d ->
  foldM (fun g i => let! xw := vget (map (fun x => dot x W) X) i in let! yi := vget y i in let! x := vget X i in
      if Rltb th (xw * yi) then add g (zeros d) else add g (vscale (- yi) x)) (seq 0 (length X)) g =
  Ok (vadd g (vsum d (map2 vscale (map2 (fun x b => hinge_dphi th b (dot x W)) X y) X))).
Proof.
  induction X as [|x X IH]; intros [|b y] g HW HL Hg; simpl in HL; try lia.
  - simpl. f_equal. rewrite <- Hg. now rewrite vadd_zeros.
  - apply width_cons in HW. destruct HW as (Hx & HW). cbn [length seq foldM]. simpl vget. cbn [bind].
    assert (E : (if Rltb th (dot x W * b) then add g (zeros d) else add g (vscale (- b) x)) =
                Ok (vadd g (vscale (hinge_dphi th b (dot x W)) x))).
    { unfold hinge_dphi. destruct (Rltb th (dot x W * b)); rewrite add_ok; rewrite ?zeros_length, ?vscale_length, ?vscale_0; auto; congruence. }
    unfold vget at 1 2 3. simpl nth_error. cbn [bind]. rewrite E. cbn [bind]. rewrite foldM_shift.
    etransitivity; [apply (IH y); auto; rewrite vadd_length; rewrite ?vscale_length; auto; congruence|].
    simpl. now rewrite vadd_assoc.
Qed.
Lemma hinge_gradient_glm th lambda X y W grad0 : shapes X y W -> length grad0 = length W ->
  hinge_gradient grad0 lambda th X y W = Ok (vadd grad0 (glm_grad (hinge_dphi th) 1 lambda X y W)).
Proof.
  intros HS HG. pose proof HS as (H1 & H2 & H3). unfold hinge_gradient. rewrite mv_ok by assumption. cbn [bind].
  rewrite (cols_ok HS). rewrite (@hinge_loop th (length W) W X y grad0) by auto. cbn [bind].
  rewrite with_reg_ok by (rewrite vadd_length; rewrite ?vsum_length; auto using width_scaled; now apply width_scaled).
  unfold glm_grad. rewrite vscale_1, vadd_assoc. reflexivity.
Qed.

(** * Huber *)
Lemma huber_eval_one delta w : 0 <= w -> w <= delta -> huber_evaluate 0 delta [[1]] [0] [w] = Ok (w / 2).
Proof.
  intros H1 H2. unfold huber_evaluate. cbn [mv mapM length Nat.eqb bind]. unfold sub. cbn [length Nat.eqb bind vsub map2].
  replace (norm2 [0 - dot [1] [w]]) with w.
  2: { unfold norm2. rewrite Rsum_total. unfold dot. simpl. replace ((0 - (1 * w + 0)) * (0 - (1 * w + 0)) + 0) with (w * w) by ring. now rewrite sqrt_square. }
  destruct (Rltb delta w) eqn:E; [apply Rltb_true in E; lra|]. cbn [negb]. f_equal. lra.
Qed.
Lemma huber_grad_one delta w : 0 <= w -> w <= delta -> huber_gradient 0 delta [[1]] [0] [w] = Ok [w].
Proof.
  intros H1 H2. unfold huber_gradient. cbn [mv mapM length Nat.eqb bind]. unfold sub. cbn [length Nat.eqb bind vsub map2].
  replace (norm2 [0 - dot [1] [w]]) with w.
  2: { unfold norm2. rewrite Rsum_total. unfold dot. simpl. replace ((0 - (1 * w + 0)) * (0 - (1 * w + 0)) + 0) with (w * w) by ring. now rewrite sqrt_square. }
  destruct (Rltb delta w) eqn:E; [apply Rltb_true in E; lra|]. cbn [negb]. unfold tmv. cbn [length Nat.eqb bind].
  unfold with_reg, add. cbn. unfold dot. cbn. f_equal. f_equal. field.
Qed.
Lemma huber_not_gradient delta w : 0 < w -> w < delta -> w <> 1 / 2 ->
  ~ is_gradient (huber_evaluate 0 delta [[1]] [0]) [w] [w].
Proof.
  intros H1 H2 H3 (_ & H). destruct (H 0%nat w w eq_refl eq_refl) as (f & Hf & Hd). simpl in Hf.
  assert (E : 0 < Rabs (1 / 2 - w)) by (apply Rabs_pos_lt; lra).
  destruct (Hd _ E) as (d & Hd').
  set (h := Rmin (d / 2) ((delta - w) / 2)).
  assert (Hh : 0 < h) by (unfold h; apply Rmin_pos; [pose proof (cond_pos d)|]; lra).
  assert (Hh1 : h <= d / 2) by apply Rmin_l. assert (Hh2 : h <= (delta - w) / 2) by apply Rmin_r.
  specialize (Hd' h ltac:(lra)). rewrite (Rabs_right h) in Hd' by lra. specialize (Hd' ltac:(pose proof (cond_pos d); lra)).
  assert (E1 : f (w + h) = (w + h) / 2). { assert (Ok (f (w + h)) = Ok ((w + h) / 2)) as Q by (rewrite <- Hf; apply huber_eval_one; lra). congruence. }
  assert (E2 : f w = w / 2). { assert (Ok (f w) = Ok (w / 2)) as Q by (rewrite <- Hf; apply huber_eval_one; lra). congruence. }
  rewrite E1, E2 in Hd'. replace (((w + h) / 2 - w / 2) / h - w) with (1 / 2 - w) in Hd' by (field; lra). lra.
Qed.
