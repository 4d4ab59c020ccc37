(** C45: metrics. *)
From Coq Require Import Reals Lra.
From Verif Require Import Base Impurity_Model Impurity_Spec Impurity_Proofs Vec Stats_Model Stats_Spec Loss_Proofs LossSoftmax_Proofs Stats_Proofs Metric_Proofs.
Local Open Scope R_scope.

(** [mean_absolute_error] returns the mean squared error (which its comment announces) ... *)
Theorem C45_mean_squared : forall y z, length y = length z ->
  mean_absolute_error y z = Ok (avg (map (fun p => (fst p - snd p) ^ 2) (combine y z))).
Proof.
  intros y z H. unfold mean_absolute_error, same_size. rewrite H, Nat.eqb_refl, Rsum_total. f_equal. unfold avg. rewrite map_length, combine_length, H, Nat.min_id.
  f_equal. unfold vsub. rewrite map2_combine, map_map. apply total_ext. intros p _. unfold sq. ring.
Qed.
Print Assumptions C45_mean_squared.
(** ... and not the mean absolute error: one sample with an error other than -1, 0, 1 shows it. *)
Theorem C45_mean_absolute_refuted : forall a b, Rabs (a - b) <> 0 -> Rabs (a - b) <> 1 ->
  exists e, mean_absolute_error [a] [b] = Ok e /\ e <> avg (map (fun p => Rabs (fst p - snd p)) (combine [a] [b])).
Proof.
  intros a b H0 H1. rewrite C45_mean_squared by reflexivity. eexists. split; [reflexivity|]. unfold avg. simpl. intros E.
  assert (E' : (a - b) * (a - b) = Rabs (a - b)) by lra. assert (E2 : Rabs (a - b) * Rabs (a - b) = Rabs (a - b)) by (rewrite <- Rabs_mult, E'; apply Rabs_Rabsolu).
  apply H1. apply Rmult_eq_reg_l with (Rabs (a - b)); [lra|assumption].
Qed.
Print Assumptions C45_mean_absolute_refuted.

(** Explained variance: 1 - var(prediction - truth) / var(truth); at most 1 and exactly 1 when the prediction is off by a constant. *)
Theorem C45_explained_variance : forall y z, length y = length z -> y <> [] ->
  explained_variance_score y z = Ok (1 - mean_sq_dev (map (fun p => snd p - fst p) (combine y z)) / mean_sq_dev y).
Proof.
  intros y z H Hy. unfold explained_variance_score, same_size. rewrite H, Nat.eqb_refl. rewrite !mean1_avg.
  assert (E : forall v, v <> [] -> avg (map sq v) - avg v ^ 2 = mean_sq_dev v) by (intros v Hv; rewrite <- (var_formula Hv); ring).
  rewrite !E by (auto; destruct y, z; simpl in *; try congruence; discriminate). f_equal. f_equal. f_equal. f_equal. unfold vsub.
  rewrite map2_swap, map2_combine. reflexivity.
Qed.
Print Assumptions C45_explained_variance.
Example C45_explained_variance_case := C45_explained_variance [0; 1; 4] [1; 1; 3] eq_refl ltac:(discriminate).
Theorem C45_explained_variance_bound : forall y z e a b, length y = length z -> In a y -> In b y -> a <> b ->
  explained_variance_score y z = Ok e -> e <= 1 /\ (e = 1 <-> exists c, z = map (fun t => t + c) y).
Proof.
  intros y z e a b H Ha Hb Hab He. assert (Hy : y <> []) by (intros ->; destruct Ha). rewrite C45_explained_variance in He by assumption. injection He as <-.
  set (d := map (fun p => snd p - fst p) (combine y z)).
  assert (Hd : d <> []) by (unfold d; destruct y, z; simpl in *; try congruence; discriminate).
  pose proof (mean_sq_dev_nonneg Hd) as P. pose proof (mean_sq_dev_nonneg Hy) as Q.
  assert (Q' : mean_sq_dev y <> 0) by (intros E; apply Hab; now apply (proj1 (mean_sq_dev_zero Hy) E)).
  assert (PQ : 0 <= mean_sq_dev d / mean_sq_dev y) by (apply Rmult_le_pos; [assumption|left; apply Rinv_0_lt_compat; lra]).
  split; [lra|]. split.
  - intros E. assert (E0 : mean_sq_dev d = 0).
    { apply Rmult_eq_reg_r with (/ mean_sq_dev y); [|now apply Rinv_neq_0_compat]. rewrite Rmult_0_l. unfold Rdiv in E, PQ. lra. }
    pose proof (proj1 (mean_sq_dev_zero Hd) E0) as C. exists (hd 0 d).
    assert (G : forall t, In t d -> t = hd 0 d) by (intros t Ht; apply C; [assumption|]; destruct d; [congruence|now left]).
    revert G. generalize (hd 0 d). unfold d. clear -H. revert z H. induction y as [|s y IH]; intros [|t z] H c G; simpl in *; try lia; [reflexivity|].
    f_equal; [pose proof (G (t - s) (or_introl eq_refl)); lra|]. apply IH; [lia|]. intros u Hu. apply G. now right.
  - intros (c & E). assert (E0 : mean_sq_dev d = 0).
    { apply (proj2 (mean_sq_dev_zero Hd)). assert (G : forall t, In t d -> t = c).
      { unfold d. rewrite E. clear. induction y as [|s y IH]; simpl; [tauto|]. intros t [<-|Ht]; [ring|auto]. }
      intros s t Hs Ht. now rewrite (G s Hs), (G t Ht). }
    rewrite E0. unfold Rdiv. ring.
Qed.
Print Assumptions C45_explained_variance_bound.
Example C45_explained_variance_bound_case := C45_explained_variance_bound [0; 1; 4] [1; 1; 3] _ 0 1 eq_refl ltac:(simpl; auto) ltac:(simpl; auto) ltac:(lra) C45_explained_variance_case.

(** On vectors of one size, [euclidean_distance] and [manhattan_distance] are the L2 and L1 metrics ... *)
Theorem C45_vector_distances : forall n,
  (forall u v, length u = n -> length v = n -> euclidean_distance u v = Ok (d2 u v) /\ manhattan_distance u v = Ok (d1 u v)) /\
  is_metric n d2 /\ is_metric n d1.
Proof.
  intros n. split; [|split; [apply d2_metric|apply d1_metric]]. intros u v Hu Hv. unfold euclidean_distance, manhattan_distance, transform2.
  replace (length u <=? length v)%nat with true by (symmetry; apply Nat.leb_le; lia). cbn [bind]. unfold d2, d1, vsub. rewrite !Rsum_total, !map_map2. split; reflexivity.
Qed.
Print Assumptions C45_vector_distances.
(** ... but sizes are not checked: a longer second vector is silently truncated, so that different vectors have distance
    0 and the distance is not symmetric, and a shorter one is read out of bounds. *)
Theorem C45_sizes_refuted : forall u a v, euclidean_distance u (u ++ a :: v) = Ok 0 /\ manhattan_distance u (u ++ a :: v) = Ok 0 /\
  euclidean_distance (u ++ a :: v) u = UB /\ manhattan_distance (u ++ a :: v) u = UB.
Proof.
  intros u a v. unfold euclidean_distance, manhattan_distance, transform2. rewrite app_length. simpl length.
  replace (length u <=? length u + S (length v))%nat with true by (symmetry; apply Nat.leb_le; lia).
  replace (length u + S (length v) <=? length u)%nat with false by (symmetry; apply Nat.leb_gt; lia). cbn [bind]. rewrite !Rsum_total.
  assert (E2 : total (map2 (fun x1 x2 => (x1 - x2) ^ 2) u (u ++ a :: v)) = 0) by (clear; induction u as [|b u IH]; [reflexivity|]; simpl in *; rewrite IH; ring).
  assert (E1 : total (map2 (fun x1 x2 => Rabs (x1 - x2)) u (u ++ a :: v)) = 0).
  { clear. induction u as [|b u IH]; simpl; [reflexivity|]. rewrite IH, Rminus_diag_eq, Rabs_R0 by reflexivity. ring. }
  rewrite E1, E2, sqrt_0. repeat split.
Qed.
Print Assumptions C45_sizes_refuted.

(** [minkowski_distance]: for p = 1, 2, infinity and equal shapes the L1, L2 and largest-difference metrics ... *)
Theorem C45_minkowski : forall n,
  (forall r c u v, length u = n -> length v = n -> minkowski_distance (r, c, u) (r, c, v) 2 = Ok (d2 u v) /\
     minkowski_distance (r, c, u) (r, c, v) 1 = Ok (d1 u v) /\ minkowski_distance (r, c, u) (r, c, v) (-1) = Ok (dinf u v)) /\
  is_metric n d2 /\ is_metric n d1 /\ is_metric n dinf.
Proof.
  intros n. split; [|split; [apply d2_metric|split; [apply d1_metric|apply dinf_metric]]]. intros r c u v Hu Hv. unfold minkowski_distance.
  rewrite Hu, Hv, !Nat.eqb_refl. cbn [negb orb Z.eqb Pos.eqb]. rewrite !Rsum_total, dinf_fold. unfold d2, d1, dinf. split; [|split; reflexivity].
  f_equal. f_equal. apply total_ext. intros. unfold sq. ring.
Qed.
Print Assumptions C45_minkowski.
(** ... and everything else raises. *)
Theorem C45_minkowski_raises : forall xr xc xs yr yc ys p, length xs = (xr * xc)%nat -> length ys = (yr * yc)%nat ->
  ((xr, xc) <> (yr, yc) \/ ~ In p [1; 2; -1]%Z) <-> minkowski_distance (xr, xc, xs) (yr, yc, ys) p = Throw InvalidArgument.
Proof.
  intros xr xc xs yr yc ys p Hx Hy. unfold minkowski_distance. rewrite Hx, Hy. simpl In.
  destruct (Nat.eqb_spec xr yr) as [<-|N1]; destruct (Nat.eqb_spec xc yc) as [<-|N2]; rewrite ?Nat.eqb_refl; cbn [negb orb].
  - destruct (Z.eqb_spec p 1) as [->|P1]; [cbn; split; [intros [C|C]; [congruence|lia]|discriminate]|].
    destruct (Z.eqb_spec p 2) as [->|P2]; [cbn; split; [intros [C|C]; [congruence|lia]|discriminate]|].
    destruct (Z.eqb_spec p (-1)) as [->|P3]; [cbn; split; [intros [C|C]; [congruence|lia]|discriminate]|]. cbn. split; [reflexivity|]. intros _. right. lia.
  - split; [intros _|left; congruence]. destruct (_ =? _)%nat; reflexivity.
  - split; [intros _|left; congruence]. destruct (_ =? _)%nat; reflexivity.
  - split; [intros _|left; congruence]. destruct (_ =? _)%nat; reflexivity.
Qed.
Print Assumptions C45_minkowski_raises.
Example C45_minkowski_raises_case := proj1 (C45_minkowski_raises 2 1 [0; 0] 2 1 [3; 4] 3 eq_refl eq_refl) ltac:(right; simpl; intros [H|[H|[H|[]]]]; discriminate).

Example metric_case : minkowski_distance (2%nat, 1%nat, [0; 0]) (2%nat, 1%nat, [3; 4]) 2 = Ok 5 /\ mean_absolute_error [0] [3] = Ok 9.
Proof.
  split.
  - destruct (C45_minkowski 2) as (H & _). destruct (H 2%nat 1%nat [0; 0] [3; 4] eq_refl eq_refl) as (-> & _). f_equal. unfold d2. simpl.
    replace (_ + _) with (5 * 5) by ring. apply sqrt_square. lra.
  - rewrite C45_mean_squared by reflexivity. f_equal. unfold avg. simpl. lra.
Qed.
