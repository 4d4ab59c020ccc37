From Coq Require Import Reals Lra.
From Verif Require Import Base Impurity_Model Impurity_Spec Impurity_Proofs Vec Stats_Model Stats_Spec Loss_Proofs LossHinge_Proofs LossSoftmax_Proofs Stats_Proofs MathFun_Proofs.
Local Open Scope R_scope.
Set Implicit Arguments.

Lemma cauchy_schwarz u v : length u = length v -> dot u v * dot u v <= sqn u * sqn v.
Proof.
  intros H. pose proof (sqn_nonneg u) as Hu. pose proof (sqn_nonneg v) as Hv.
  pose proof (sqn_nonneg (vsub (vscale (sqn v) u) (vscale (dot u v) v))) as P.
  rewrite sqn_vsub in P by (rewrite !vscale_length; assumption). rewrite !sqn_vscale, dot_vscale_l, dot_vscale_r in P.
  assert (Q : 0 <= sqn v * (sqn u * sqn v - dot u v * dot u v)) by (fold (sqn v) in *; nra).
  destruct (Req_dec (sqn v) 0) as [E|E]; [|nra].
  assert (D : dot u v = 0).
  { pose proof (proj1 (sqn_zero v) E) as Z. clear -Z. revert u. induction v as [|b v IH]; intros [|a u]; try reflexivity. rewrite dot_cons, IH; [|intros; apply Z; now right].
    rewrite (Z b) by now left. ring. }
  rewrite D, E. lra.
Qed.
Lemma d2_sqn u v : d2 u v = sqrt (sqn (vsub u v)).
Proof. unfold d2. rewrite sqn_sum. f_equal. apply total_ext. intros; ring. Qed.
Lemma vsub_split u v w : length u = length v -> length v = length w -> vsub u w = vadd (vsub u v) (vsub v w).
Proof.
  unfold vsub, vadd. revert v w. induction u as [|a u IH]; intros [|b v] [|c w] H1 H2; simpl in *; try lia; [reflexivity|]. rewrite (IH v w) by lia. f_equal. ring.
Qed.
Lemma norm_triangle a b : length a = length b -> sqrt (sqn (vadd a b)) <= sqrt (sqn a) + sqrt (sqn b).
Proof.
  intros H. pose proof (sqn_nonneg a) as Ha. pose proof (sqn_nonneg b) as Hb. pose proof (sqrt_pos (sqn a)). pose proof (sqrt_pos (sqn b)).
  rewrite <- (sqrt_square (sqrt (sqn a) + sqrt (sqn b))) by lra. apply sqrt_le_1; [apply sqn_nonneg|apply Rmult_le_pos; lra|].
  rewrite sqn_vadd by assumption. pose proof (sqrt_sqrt _ Ha) as Sa. pose proof (sqrt_sqrt _ Hb) as Sb.
  assert (dot a b <= sqrt (sqn a) * sqrt (sqn b)).
  { rewrite <- sqrt_mult by assumption. pose proof (@cauchy_schwarz a b H) as CS. destruct (Rle_dec (dot a b) 0) as [L|L]; [pose proof (sqrt_pos (sqn a * sqn b)); lra|].
    rewrite <- (sqrt_square (dot a b)) by lra. apply sqrt_le_1; [apply Rle_0_sqr|now apply Rmult_le_pos|assumption]. }
  nra.
Qed.
Lemma d2_metric n : is_metric n d2.
Proof.
  split; [|split; [|split]].
  - intros. apply sqrt_pos.
  - intros u v Hu Hv. rewrite d2_sqn. rewrite <- (vsub_self_zero u v) by congruence. split; [|intros ->; apply sqrt_0].
    intros E. apply sqrt_eq_0; [apply sqn_nonneg|assumption].
  - intros u v Hu Hv. unfold d2. f_equal. assert (HL : length u = length v) by congruence. clear Hu Hv. revert v HL. unfold vsub.
    induction u as [|a u IH]; intros [|b v] H; simpl in *; try lia; [reflexivity|]. rewrite (IH v) by lia. ring.
  - intros u v w Hu Hv Hw. rewrite !d2_sqn. rewrite (vsub_split u v w) by congruence. apply norm_triangle. rewrite !vsub_length; congruence.
Qed.
Lemma d1_metric n : is_metric n d1.
Proof.
  unfold d1, vsub. split; [|split; [|split]].
  - intros u v _ _. apply total_nonneg. intros. apply Rabs_pos.
  - intros u v Hu Hv. assert (HL : length u = length v) by congruence. clear Hu Hv. revert v HL.
    induction u as [|a u IH]; intros [|b v] H; simpl in *; try lia; [tauto|].
    pose proof (Rabs_pos (a - b)) as P. pose proof (total_nonneg Rabs (map2 Rminus u v) (fun x _ => Rabs_pos x)) as Q. split.
    + intros E. assert (E1 : Rabs (a - b) = 0) by lra. assert (E2 : total (map Rabs (map2 Rminus u v)) = 0) by lra.
      apply (proj1 (IH v ltac:(lia))) in E2. subst v. f_equal. destruct (Req_dec (a - b) 0) as [Z|Z]; [lra|]. now apply Rabs_no_R0 in Z.
    + intros [= -> ->]. rewrite (proj2 (IH v ltac:(lia)) eq_refl). rewrite Rminus_diag_eq, Rabs_R0 by reflexivity. lra.
  - intros u v Hu Hv. assert (HL : length u = length v) by congruence. clear Hu Hv. revert v HL.
    induction u as [|a u IH]; intros [|b v] H; simpl in *; try lia; [reflexivity|]. rewrite (IH v) by lia. now rewrite Rabs_minus_sym.
  - intros u v w Hu Hv Hw. assert (H1 : length u = length v) by congruence. assert (H2 : length v = length w) by congruence. clear Hu Hv Hw. revert v w H1 H2.
    induction u as [|a u IH]; intros [|b v] [|c w] H1 H2; simpl in *; try lia; [lra|]. pose proof (IH v w ltac:(lia) ltac:(lia)).
    pose proof (Rabs_triang (a - b) (b - c)). replace (a - b + (b - c)) with (a - c) in H0 by ring. lra.
Qed.
Lemma dinf_nonneg v : 0 <= fold_right Rmax 0 (map Rabs v).
Proof. induction v as [|a v IH]; simpl; [lra|]. eapply Rle_trans; [exact IH|apply Rmax_r]. Qed.
Lemma dinf_metric n : is_metric n dinf.
Proof.
  unfold dinf, vsub. split; [|split; [|split]].
  - intros u v _ _. apply dinf_nonneg.
  - intros u v Hu Hv. assert (HL : length u = length v) by congruence. clear Hu Hv. revert v HL.
    induction u as [|a u IH]; intros [|b v] H; simpl in *; try lia; [tauto|].
    pose proof (Rabs_pos (a - b)) as P. pose proof (dinf_nonneg (map2 Rminus u v)) as Q. split.
    + intros E. pose proof (Rmax_l (Rabs (a - b)) (fold_right Rmax 0 (map Rabs (map2 Rminus u v)))) as M1.
      pose proof (Rmax_r (Rabs (a - b)) (fold_right Rmax 0 (map Rabs (map2 Rminus u v)))) as M2. rewrite E in M1, M2.
      assert (E2 : fold_right Rmax 0 (map Rabs (map2 Rminus u v)) = 0) by lra.
      apply (proj1 (IH v ltac:(lia))) in E2. subst v. f_equal. destruct (Req_dec (a - b) 0) as [Z|Z]; [lra|]. apply Rabs_no_R0 in Z. lra.
    + intros [= -> ->]. rewrite (proj2 (IH v ltac:(lia)) eq_refl). rewrite Rminus_diag_eq, Rabs_R0 by reflexivity. apply Rmax_left. lra.
  - intros u v Hu Hv. assert (HL : length u = length v) by congruence. clear Hu Hv. revert v HL.
    induction u as [|a u IH]; intros [|b v] H; simpl in *; try lia; [reflexivity|]. rewrite (IH v) by lia. now rewrite Rabs_minus_sym.
  - intros u v w Hu Hv Hw. assert (H1 : length u = length v) by congruence. assert (H2 : length v = length w) by congruence. clear Hu Hv Hw. revert v w H1 H2.
    induction u as [|a u IH]; intros [|b v] [|c w] H1 H2; simpl in *; try lia; [lra|]. pose proof (IH v w ltac:(lia) ltac:(lia)).
    pose proof (Rabs_triang (a - b) (b - c)). replace (a - b + (b - c)) with (a - c) in H0 by ring. apply Rmax_lub.
    + pose proof (Rmax_l (Rabs (a - b)) (fold_right Rmax 0 (map Rabs (map2 Rminus u v)))). pose proof (Rmax_l (Rabs (b - c)) (fold_right Rmax 0 (map Rabs (map2 Rminus v w)))). lra.
    + pose proof (Rmax_r (Rabs (a - b)) (fold_right Rmax 0 (map Rabs (map2 Rminus u v)))). pose proof (Rmax_r (Rabs (b - c)) (fold_right Rmax 0 (map Rabs (map2 Rminus v w)))). lra.
Qed.
Lemma fold_left_rmax l : forall a, fold_left Rmax l a = Rmax a (fold_right Rmax 0 l) \/ (a < 0).
Proof.
  induction l as [|b l IH]; intros a; simpl.
  - destruct (Rlt_dec a 0); [now right|left]. symmetry. apply Rmax_left. lra.
  - destruct (Rlt_dec a 0); [now right|]. destruct (IH (Rmax a b)) as [E|E]; [|pose proof (Rmax_l a b); lra]. left. rewrite E. now rewrite Rmax_assoc.
Qed.
Lemma dinf_fold l : fold_left Rmax (map Rabs l) 0 = fold_right Rmax 0 (map Rabs l).
Proof. destruct (fold_left_rmax (map Rabs l) 0) as [->|]; [|lra]. apply Rmax_right, dinf_nonneg. Qed.
