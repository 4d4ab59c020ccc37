(** k-means, statistics and PCA on converted features. *)
From Coq Require Import Reals Lra.
From Verif Require Import Base Sorting Common_Model KDReal_Proofs KDHom_Proofs Impurity_Model Impurity_Spec Impurity_Proofs Vec MathFun_Model Stats_Model
  KMeans_Model LossSoftmax_Proofs Stats_Proofs Units_Spec Units_Proofs.
Local Open Scope R_scope.
Set Implicit Arguments.

Lemma nth_convert (g : nat -> R -> R) r j : (j < length r)%nat -> nth j (convert g r) 0 = g j (nth j r 0).
Proof.
  intros H. pose proof (vget_convert g r j) as E. unfold vget in E. rewrite (nth_error_nth' r 0 H) in E.
  rewrite (nth_error_nth' (convert g r) 0) in E by (now rewrite length_convert). cbn [omap] in E. now injection E.
Qed.
Lemma convert_eq (g : nat -> R -> R) l r : length l = length r -> (forall j, (j < length r)%nat -> nth j l 0 = g j (nth j r 0)) -> l = convert g r.
Proof.
  intros HL H. apply (nth_ext l (convert g r) 0 0); [now rewrite length_convert|]. intros j Hj. rewrite nth_convert by lia. apply H. lia.
Qed.
Lemma width_convert g nf X : width nf X -> width nf (map (convert g) X).
Proof. intros H r Hr. apply in_map_iff in Hr. destruct Hr as (x & <- & Hx). rewrite length_convert. auto. Qed.
Lemma list_eq_nth (u v : list R) : length u = length v -> (forall j, (j < length u)%nat -> nth j u 0 = nth j v 0) -> u = v.
Proof. apply nth_ext. Qed.

Section Uniform.
  Variable c : R.
  Variable b : nat -> R.
  Notation g := (units (fun _ => c) b).
  Notation conv := (map (convert g)).
  Lemma vsub_convert x y : length x = length y -> vsub (convert g x) (convert g y) = vscale c (vsub x y).
  Proof.
    intros H. apply list_eq_nth; [rewrite vscale_length, !vsub_length, !length_convert; auto; now rewrite !length_convert|].
    intros j Hj. rewrite vsub_length, length_convert in Hj by (now rewrite !length_convert).
    rewrite nth_vsub by (now rewrite !length_convert). rewrite nth_vscale, nth_vsub by assumption. rewrite !nth_convert by lia. unfold units. ring.
  Qed.
  Lemma row_sub_convert x y : row_sub (convert g x) (convert g y) = omap (vscale c) (row_sub x y).
  Proof. unfold row_sub. rewrite !length_convert. destruct (Nat.eqb_spec (length x) (length y)); [|reflexivity]. cbn [omap]. now rewrite vsub_convert. Qed.
  Lemma Rsum_scale k l : Rsum (map (Rmult k) l) = k * Rsum l.
  Proof. rewrite !Rsum_total. rewrite <- (map_id l) at 2. apply (total_scal k (fun x => x)). Qed.
  Lemma norm_scale v : norm (vscale c v) = Rabs c * norm v.
  Proof.
    unfold norm, vscale. rewrite map_map. rewrite (map_ext _ (fun a => (c * c) * (a * a))) by (intros; ring).
    rewrite <- (map_map (fun a => a * a) (Rmult (c * c))), Rsum_scale. rewrite sqrt_mult_alt by (apply Rle_0_sqr). f_equal. apply sqrt_Rsqr_abs.
  Qed.
  Hypothesis Hc : c <> 0.
  Lemma abs_pos : 0 < Rabs c.
  Proof using Hc. now apply Rabs_pos_lt. Qed.
  Lemma Rltb_scale k x y : 0 < k -> Rltb (k * x) (k * y) = Rltb x y.
  Proof.
    intros Hk. destruct (Rltb x y) eqn:E; [apply Rltb_true|apply Rltb_false]; [apply Rltb_true in E; now apply Rmult_lt_compat_l|].
    apply Rltb_false in E. apply Rmult_le_compat_l; lra.
  Qed.
  Definition hscan (s : option R * nat) : option R * nat := (option_map (Rmult (Rabs c)) (fst s), snd s).
  Lemma closest_hom K C x : closest K (conv C) (convert g x) = closest K C x.
  Proof using Hc.
    unfold closest. change (@None R, 0%nat) with (hscan (None, 0%nat)) at 1. rewrite <- (map_id (seq 0 K)) at 1.
    rewrite (@foldM_hom _ _ _ _ hscan (fun j => j) (closest_step C x)).
    - destruct (foldM (closest_step C x) (seq 0 K) (None, 0%nat)); reflexivity.
    - intros s j _. unfold closest_step. rewrite vget_hom. apply bind_hom. intros y. rewrite row_sub_convert. apply bind_hom. intros v. cbn [omap].
      rewrite norm_scale. unfold hscan. cbn [fst snd]. destruct s as ([m|] & i); cbn [option_map below fst snd]; [|reflexivity].
      rewrite Rltb_scale by apply abs_pos. destruct (Rltb (norm v) m); reflexivity.
  Qed.
  Lemma predict_hom K C X : KMeans_Model.predict K (conv C) (conv X) = KMeans_Model.predict K C X.
  Proof using Hc.
    unfold KMeans_Model.predict. rewrite (@mapM_hom _ _ _ _ (convert g) (fun j : nat => j) (closest K C)).
    - destruct (mapM (closest K C) X); cbn [omap]; [now rewrite map_id|reflexivity..].
    - intros x _. rewrite closest_hom. destruct (closest K C x); reflexivity.
  Qed.
  Lemma assign_hom K C X : assign K (conv C) (conv X) = assign K C X.
  Proof using Hc.
    unfold assign. rewrite map_length. generalize (@nil (nat * list nat)). induction (seq 0 (length X)) as [|i l IH]; intros m; cbn [foldM]; [reflexivity|].
    rewrite vget_hom. destruct (vget X i) as [x| | |]; cbn [bind omap]; try reflexivity. rewrite closest_hom. destruct (closest K C x); cbn [bind]; try reflexivity. apply IH.
  Qed.
  Lemma vsum_mean_hom nf X : width nf X -> X <> [] -> vscale (/ INR (length X)) (vsum nf (conv X)) = convert g (vscale (/ INR (length X)) (vsum nf X)).
  Proof using.
    intros HW Hne. assert (HW' := width_convert g HW). apply convert_eq; [now rewrite !vscale_length, !vsum_length|].
    intros j Hj. rewrite vscale_length, vsum_length in Hj by assumption. rewrite !nth_vscale, !nth_vsum by assumption. rewrite map_map.
    rewrite (total_ext _ (fun x => c * nth j x 0 + b j)). 2: { intros x Hx. rewrite nth_convert by (rewrite (HW x Hx); assumption). reflexivity. }
    rewrite total_plus, total_scal, total_const. unfold units. field. apply not_0_INR. destruct X; [congruence|discriminate].
  Qed.
  Lemma set_nth_hom {A B} (f : A -> B) l : forall i v, set_nth (map f l) i (f v) = map f (set_nth l i v).
  Proof. induction l as [|a l IH]; intros [|i] v; cbn; try reflexivity. now rewrite IH. Qed.
  Definition hstate (s : list (list R) * R) : list (list R) * R := (conv (fst s), Rabs c * snd s).
  Lemma mapM_vget_In {A} (X : list A) is r : mapM (vget X) is = Ok r -> forall x, In x r -> In x X.
  Proof.
    revert r. induction is as [|i is IH]; cbn [mapM]; intros r E x Hx; [inversion E; subst; destruct Hx|].
    destruct (vget X i) eqn:En; cbn [bind] in E; try discriminate.
    destruct (mapM (vget X) is) eqn:Em; cbn [bind] in E; try discriminate. inversion E; subst. destruct Hx as [<-|Hx]; [unfold vget in En; destruct (nth_error X i) eqn:E1; inversion En; subst; eapply nth_error_In; eassumption|]. eapply IH; eauto.
  Qed.
  Lemma move_one_hom asserts nf X s cl : width nf X -> move_one asserts nf (conv X) (hstate s) cl = omap hstate (move_one asserts nf X s cl).
  Proof using.
    intros HW. unfold move_one. rewrite (mapM_hom' (convert g) (vget X)) by (intros; apply vget_hom).
    destruct (mapM (vget X) (snd cl)) as [rs| | |] eqn:E; cbn [bind omap]; try reflexivity.
    assert (HR : width nf rs) by (intros x Hx; apply HW; eapply mapM_vget_In; eassumption).
    unfold col_mean. destruct rs as [|r0 rs]; [reflexivity|]. cbn [map]. cbn [length]. rewrite map_length.
    pose proof (@vsum_mean_hom nf (r0 :: rs) HR ltac:(discriminate)) as EV. cbn [map length] in EV. cbn [bind]. rewrite EV.
    cbn [hstate fst snd]. rewrite vget_hom. apply bind_hom. intros old. rewrite row_sub_convert. apply bind_hom. intros diff.
    destruct (asserts && negb (nf =? 1)%nat); [reflexivity|]. cbn [omap]. unfold hstate. cbn [fst snd]. rewrite norm_scale, set_nth_hom. do 2 f_equal. ring.
  Qed.
  Lemma iteration_hom asserts nf K X C : width nf X -> iteration asserts nf K (conv X) (conv C) = omap hstate (iteration asserts nf K X C).
  Proof using Hc.
    intros HW. unfold iteration. rewrite assign_hom. destruct (assign K C X) as [cls| | |]; cbn [bind omap]; try reflexivity.
    replace (conv C, 0) with (hstate (C, 0)) by (unfold hstate; cbn [fst snd]; f_equal; ring).
    rewrite <- (map_id cls) at 1. apply foldM_hom. intros. now apply move_one_hom.
  Qed.
  Lemma lloyd_hom asserts nf K tol X n : width nf X -> forall C, lloyd asserts nf K (Rabs c * tol) (conv X) n (conv C) = omap conv (lloyd asserts nf K tol X n C).
  Proof using Hc.
    intros HW. induction n as [|n IH]; intros C; cbn [lloyd]; [reflexivity|]. rewrite iteration_hom by assumption. apply bind_hom. intros (C' & e). cbn [hstate fst snd].
    rewrite Rltb_scale by apply abs_pos. destruct (Rltb e tol); [reflexivity|apply IH].
  Qed.
End Uniform.

(** k-means++ on moved data. *)
Section Shift.
  Variable b : nat -> R.
  Notation g := (units (fun _ => 1) b).
  Notation conv := (map (convert g)).
  Lemma vscale_1 v : vscale 1 v = v.
  Proof. unfold vscale. rewrite (map_ext _ (fun x => x)) by (intros; ring). apply map_id. Qed.
  Lemma sq_dists_shift X x : sq_dists (conv X) (convert g x) = sq_dists X x.
  Proof.
    unfold sq_dists. rewrite (@mapM_hom _ _ _ _ (convert g) (fun d : R => d) (fun y => let! d := row_sub y x in Ok (Rsum (map (fun a => a * a) d)))).
    - destruct (mapM _ X); cbn [omap]; [now rewrite map_id|reflexivity..].
    - intros y _. rewrite row_sub_convert. destruct (row_sub y x); cbn [omap bind]; try reflexivity. now rewrite vscale_1.
  Qed.
  Lemma trial_shift X cd pot s r : trial (conv X) cd pot s r = trial X cd pot s r.
  Proof.
    unfold trial. destruct (candidate_index cd (r * pot)) as [k| | |]; cbn [bind]; try reflexivity. rewrite vget_hom. destruct (vget X k); cbn [bind omap]; try reflexivity.
    now rewrite sq_dists_shift.
  Qed.
  Lemma more_centres_shift X draws : forall cd pot, more_centres (conv X) draws cd pot = omap conv (more_centres X draws cd pot).
  Proof.
    induction draws as [|rs draws IH]; intros cd pot; cbn [more_centres]; [reflexivity|].
    assert (E : forall s, foldM (trial (conv X) cd pot) rs s = foldM (trial X cd pot) rs s).
    { induction rs as [|r rs IHr]; intros s; cbn [foldM]; [reflexivity|]. rewrite trial_shift. destruct (trial X cd pot s r); cbn [bind]; auto. }
    rewrite E. destruct (foldM (trial X cd pot) rs (dbl_max, None)) as [(p & [(k & ds)|])| | |]; cbn [bind omap]; try reflexivity.
    rewrite vget_hom. apply bind_hom. intros x. rewrite IH. apply bind_hom. reflexivity.
  Qed.
  Lemma init_shift K X init : init_centroid K (conv X) init = omap conv (init_centroid K X init).
  Proof.
    destruct init as [perm|first draws|]; cbn [init_centroid]; [|unfold kmeans_plusplus|reflexivity].
    - destruct (K <=? length perm)%nat; [|reflexivity]. apply mapM_hom'. intros. apply vget_hom.
    - rewrite vget_hom. apply bind_hom. intros c0. rewrite sq_dists_shift. destruct (sq_dists X c0) as [ds| | |]; cbn [bind omap]; try reflexivity.
      rewrite more_centres_shift. apply bind_hom. reflexivity.
  Qed.
  Lemma kmeans_fit_shift asserts nf K tol n init X : width nf X ->
    kmeans_fit asserts nf K tol n init (conv X) = omap conv (kmeans_fit asserts nf K tol n init X).
  Proof.
    intros HW. unfold kmeans_fit. rewrite init_shift. apply bind_hom. intros C.
    pose proof (@lloyd_hom 1 b ltac:(lra) asserts nf K tol X n HW C) as E. now rewrite Rabs_R1, Rmult_1_l in E.
  Qed.
End Shift.

(** Statistics. *)
Section Stats.
  Variables a b : nat -> R.
  Notation g := (units a b).
  Notation conv := (map (convert g)).
  Lemma col_sum_length nc X : width nc X -> length (col_sum nc X) = nc.
  Proof.
    unfold col_sum. intros HW. assert (H : length (zeros nc) = nc) by apply zeros_length. revert H. generalize (zeros nc).
    induction X as [|x X IH]; intros z Hz; cbn [fold_left]; [assumption|]. apply width_cons in HW. destruct HW as (H1 & H2). apply IH; [assumption|]. rewrite vadd_length; lia.
  Qed.
  Lemma col_means_length nc X : width nc X -> length (col_means nc X) = nc.
  Proof. intros H. unfold col_means. now rewrite map_length, col_sum_length. Qed.
  Lemma nth_col_means nc X j : width nc X -> (j < nc)%nat -> nth j (col_means nc X) 0 = total (map (fun r => nth j r 0) X) / INR (length X).
  Proof.
    intros HW Hj. unfold col_means. rewrite (nth_indep _ 0 (0 / INR (length X))) by (now rewrite map_length, col_sum_length).
    rewrite (map_nth (fun s => s / INR (length X))). rewrite col_sum_nth by assumption. reflexivity.
  Qed.
  Lemma INR_length_nz {A} (X : list A) : X <> [] -> INR (length X) <> 0.
  Proof. intros H. apply not_0_INR. destruct X; [congruence|discriminate]. Qed.
  Lemma col_means_units nc X : width nc X -> X <> [] -> col_means nc (conv X) = convert g (col_means nc X).
  Proof.
    intros HW Hne. assert (HW' := width_convert g HW). apply convert_eq; [now rewrite !col_means_length|].
    intros j Hj. rewrite col_means_length in Hj by assumption. rewrite !nth_col_means by assumption. rewrite map_map, map_length.
    rewrite (total_ext _ (fun x => a j * nth j x 0 + b j)). 2: { intros x Hx. rewrite nth_convert by (rewrite (HW x Hx); assumption). reflexivity. }
    rewrite total_plus, total_scal, total_const. unfold units. field. now apply INR_length_nz.
  Qed.
  (** the linear part of the conversion *)
  Notation lin := (convert (fun j x => a j * x)).
  Lemma center_units nc X : width nc X -> center nc (conv X) = map lin (center nc X).
  Proof.
    intros HW. destruct X as [|x0 X0] eqn:EX; [reflexivity|]. rewrite <- EX in *. assert (Hne : X <> []) by (rewrite EX; discriminate). clear EX x0 X0.
    unfold center. rewrite col_means_units by assumption. rewrite !map_map. apply map_ext_in. intros r Hr.
    assert (Hl : length r = length (col_means nc X)) by (rewrite col_means_length by assumption; auto).
    apply convert_eq; [rewrite !vsub_length, length_convert; auto; now rewrite !length_convert|].
    intros j Hj. rewrite vsub_length in Hj by assumption. rewrite !nth_vsub by (rewrite ?length_convert; assumption). rewrite !nth_convert by lia. unfold units. ring.
  Qed.
  Lemma cov_units nc X : width nc X -> (0 < length X)%nat -> cov nc (conv X) = map (fun i => map (fun j => a i * a j * nth j (nth i (cov nc X) []) 0) (seq 0 nc)) (seq 0 nc).
  Proof.
    intros HW Hn. unfold cov. rewrite center_units by assumption. rewrite map_length. apply map_ext_in. intros i Hi. apply map_ext_in. intros j Hj.
    apply in_seq in Hi. apply in_seq in Hj. set (F := fun i j => Rsum (map (fun r => nth i r 0 * nth j r 0) (center nc X)) / (INR (length X) - 1)).
    change (map (fun i => map (fun j => Rsum (map (fun r => nth i r 0 * nth j r 0) (center nc X)) / (INR (length X) - 1)) (seq 0 nc)) (seq 0 nc)) with (map (fun i => map (F i) (seq 0 nc)) (seq 0 nc)).
    rewrite (nth_indep _ [] (map (F 0%nat) (seq 0 nc))) by (rewrite map_length, seq_length; lia). rewrite (map_nth (fun i => map (F i) (seq 0 nc))), seq_nth by lia. cbn [plus].
    rewrite (nth_indep _ 0 (F i 0%nat)) by (rewrite map_length, seq_length; lia). rewrite (map_nth (F i)), seq_nth by lia. cbn [plus]. unfold F.
    rewrite map_map. rewrite (map_ext_in _ (fun r => (a i * a j) * (nth i r 0 * nth j r 0))).
    - rewrite <- (map_map (fun r => nth i r 0 * nth j r 0) (Rmult (a i * a j))), Rsum_scale. unfold Rdiv. ring.
    - intros r Hr. unfold center in Hr. apply in_map_iff in Hr. destruct Hr as (x & <- & Hx). assert (Hl : length (vsub x (col_means nc X)) = nc).
      { rewrite vsub_length; [auto|]. rewrite col_means_length by assumption. auto. }
      rewrite !nth_convert by lia. ring.
  Qed.
  Lemma sq_width nc X : width nc X -> width nc (map (map sq) X).
  Proof. intros H r Hr. apply in_map_iff in Hr. destruct Hr as (x & <- & Hx). rewrite map_length. auto. Qed.
  Lemma var0_length nc X : width nc X -> length (vsub (col_means nc (map (map sq) X)) (map sq (col_means nc X))) = nc.
  Proof. intros H. rewrite vsub_length; rewrite ?map_length, !col_means_length; auto using sq_width. Qed.
  Lemma nth_var0 nc X j : width nc X -> (j < nc)%nat -> nth j (vsub (col_means nc (map (map sq) X)) (map sq (col_means nc X))) 0 =
    total (map (fun r => nth j r 0 * nth j r 0) X) / INR (length X) - (total (map (fun r => nth j r 0) X) / INR (length X)) * (total (map (fun r => nth j r 0) X) / INR (length X)).
  Proof.
    intros HW Hj. rewrite nth_vsub by (rewrite map_length, !col_means_length; auto using sq_width).
    rewrite nth_col_means by (auto using sq_width). rewrite map_map, map_length. rewrite (nth_indep (map sq _) 0 (sq 0)) by (rewrite map_length, col_means_length; auto).
    rewrite map_nth, nth_col_means by assumption. unfold sq at 2. f_equal. f_equal. apply total_ext. intros x Hx.
    rewrite (nth_indep (map sq x) 0 (sq 0)) by (rewrite map_length, (HW x Hx); assumption). rewrite map_nth. reflexivity.
  Qed.
  Lemma var0_units nc X : width nc X -> X <> [] -> vsub (col_means nc (map (map sq) (conv X))) (map sq (col_means nc (conv X))) =
    convert (fun j x => a j ^ 2 * x) (vsub (col_means nc (map (map sq) X)) (map sq (col_means nc X))).
  Proof.
    intros HW Hne. assert (HW' := width_convert g HW). apply convert_eq; [now rewrite !var0_length|]. intros j Hj. rewrite var0_length in Hj by assumption.
    rewrite !nth_var0 by assumption. rewrite !map_map, map_length.
    rewrite (total_ext (fun x => nth j (convert g x) 0 * nth j (convert g x) 0) (fun x => (a j * a j) * (nth j x 0 * nth j x 0) + (2 * a j * b j) * nth j x 0 + b j * b j)).
    2: { intros x Hx. rewrite nth_convert by (rewrite (HW x Hx); assumption). unfold units. ring. }
    rewrite (total_ext (fun x => nth j (convert g x) 0) (fun x => a j * nth j x 0 + b j)).
    2: { intros x Hx. rewrite nth_convert by (rewrite (HW x Hx); assumption). reflexivity. }
    rewrite !total_plus, !total_scal, !total_const. field. now apply INR_length_nz.
  Qed.
  Lemma median1_units u v l : 0 < u -> median1 (map (fun x => u * x + v) l) = omap (fun x => u * x + v) (median1 l).
  Proof.
    intros Hu. unfold median1. rewrite (isort_hom (fun x => u * x + v) Rltb Rltb).
    - rewrite map_length, vget_hom. apply bind_hom. intros m. destruct (length l mod 2 =? 0)%nat; [|reflexivity].
      rewrite vget_hom. apply bind_hom. intros w. cbn [omap]. f_equal. field.
    - intros x y. destruct (Rltb x y) eqn:E; [apply Rltb_true|apply Rltb_false]; [apply Rltb_true in E|apply Rltb_false in E].
      + assert (u * x < u * y) by (now apply Rmult_lt_compat_l). lra.
      + assert (u * y <= u * x) by (apply Rmult_le_compat_l; lra). lra.
  Qed.
End Stats.
