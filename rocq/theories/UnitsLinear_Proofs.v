(** Least squares on converted features and targets. *)
From Coq Require Import Reals Lra.
From Verif Require Import Base Common_Model KDHom_Proofs Impurity_Spec Impurity_Proofs Vec MathFun_Model Loss_Model LossSoftmax_Proofs Loss_Proofs NB_Model Linear_Model Linear_Spec LinSolve_Proofs Linear_Proofs
  Properties_Linear Units_Spec Units_Proofs UnitsMore_Proofs.
Local Open Scope R_scope.
Set Implicit Arguments.

Lemma fit_independent i d X y w : width d X -> length y = length X -> linear_fit i d X y = Ok (Some w) -> independent i d X.
Proof.
  intros HW HL E v Hv H. destruct (list_eq_dec Req_EM_T v (zeros (n_coef i d))) as [|N]; [assumption|].
  rewrite (C48_singular_refuted i d X y v HW HL Hv N H) in E. discriminate.
Qed.
Lemma fit_cases i d X y : width d X -> length y = length X ->
  (linear_fit i d X y = Ok None /\ ~ independent i d X) \/
  (independent i d X /\ exists w, linear_fit i d X y = Ok (Some w) /\ unique_minimum (n_coef i d) (rss i X y) w).
Proof.
  intros HW HL. destruct (linear_fit i d X y) as [[w|]| | |] eqn:E.
  - right. pose proof (fit_independent i y HW HL E) as HI. split; [assumption|]. rewrite <- E. now apply C48_linear.
  - left. split; [reflexivity|]. intros HI. destruct (C48_linear i d X y HW HL HI) as (w & E' & _). congruence.
  - exfalso. unfold linear_fit, normal_solution, tmv in E. destruct (_ =? _)%nat; cbn [bind] in E; discriminate.
  - exfalso. unfold linear_fit, normal_solution, tmv in E. rewrite with_ones_ext, map_length, HL, Nat.eqb_refl in E. cbn [bind] in E. discriminate.
  - exfalso. unfold linear_fit, normal_solution, tmv in E. destruct (_ =? _)%nat; cbn [bind] in E; discriminate.
Qed.

Lemma combine_map_left {A B C} (f : A -> C) (X : list A) : forall (y : list B), combine (map f X) y = map (fun e => (f (fst e), snd e)) (combine X y).
Proof. induction X as [|x X IH]; intros [|t y]; cbn; try reflexivity. now rewrite IH. Qed.
Lemma combine_map_right {A B C} (f : B -> C) (X : list A) : forall (y : list B), combine X (map f y) = map (fun e => (fst e, f (snd e))) (combine X y).
Proof. induction X as [|x X IH]; intros [|t y]; cbn; try reflexivity. now rewrite IH. Qed.
(** Coefficients in the other units, with and without intercept. *)
Section Back.
  Variables (a b : nat -> R) (d : nat).
  Notation g := (units a b).
  Definition back (w' : list R) : list R :=
    convert (fun j v => a j * v) (removelast w') ++ [last w' 0 + total (map (fun j => b j * nth j (removelast w') 0) (seq 0 d))].
  Definition forth (w : list R) : list R :=
    convert (fun j v => / a j * v) (removelast w) ++ [last w 0 - total (map (fun j => b j * (/ a j * nth j (removelast w) 0)) (seq 0 d))].
  Lemma back_length w : length w = S d -> length (back w) = S d.
  Proof. intros H. unfold back. rewrite app_length, length_convert, removelast_length, H. cbn. lia. Qed.
  Lemma forth_length w : length w = S d -> length (forth w) = S d.
  Proof. intros H. unfold forth. rewrite app_length, length_convert, removelast_length, H. cbn. lia. Qed.
  Lemma back_fun w x : length w = S d -> length x = d -> linear_fun true w (convert g x) = linear_fun true (back w) x.
  Proof.
    intros Hw Hx. destruct (split_last w Hw) as (_ & Hr). unfold linear_fun, back. rewrite removelast_last, last_last.
    rewrite (@dot_nths d), (@dot_nths d x) by (rewrite ?length_convert; assumption).
    rewrite (total_ext (fun j => nth j (convert g x) 0 * nth j (removelast w) 0)
      (fun j => nth j x 0 * nth j (convert (fun j v => a j * v) (removelast w)) 0 + b j * nth j (removelast w) 0)).
    - rewrite total_plus. ring.
    - intros j Hj. apply in_seq in Hj. rewrite !nth_convert by lia. unfold units. ring.
  Qed.
  Hypothesis Ha : forall j, (j < d)%nat -> a j <> 0.
  Lemma back_forth w : length w = S d -> back (forth w) = w.
  Proof using Ha.
    intros Hw. destruct (split_last w Hw) as (E & Hr). unfold back, forth. rewrite removelast_last, last_last. transitivity (removelast w ++ [last w 0]); [|symmetry; exact E]. f_equal.
    - symmetry. apply convert_eq; [now rewrite length_convert|]. intros j Hj. rewrite length_convert, Hr in Hj. rewrite nth_convert by lia. field. auto.
    - f_equal. rewrite (total_ext (fun j => b j * nth j (convert (fun j0 v => / a j0 * v) (removelast w)) 0) (fun j => b j * (/ a j * nth j (removelast w) 0))); [ring|].
      intros j Hj. apply in_seq in Hj. now rewrite nth_convert by lia.
  Qed.
  Lemma forth_back w : length w = S d -> forth (back w) = w.
  Proof using Ha.
    intros Hw. destruct (split_last w Hw) as (E & Hr). unfold back, forth. rewrite removelast_last, last_last. transitivity (removelast w ++ [last w 0]); [|symmetry; exact E]. f_equal.
    - symmetry. apply convert_eq; [now rewrite length_convert|]. intros j Hj. rewrite length_convert, Hr in Hj. rewrite nth_convert by lia. field. auto.
    - f_equal. rewrite (total_ext (fun j => b j * (/ a j * nth j (convert (fun j0 v => a j0 * v) (removelast w)) 0)) (fun j => b j * nth j (removelast w) 0)); [ring|].
      intros j Hj. apply in_seq in Hj. rewrite nth_convert by lia. field. apply Ha. lia.
  Qed.
  Lemma zeros_split : zeros (S d) = zeros d ++ [0].
  Proof using. unfold zeros. replace (S d) with (d + 1)%nat by lia. now rewrite repeat_app. Qed.
  Lemma back_zeros : back (zeros (S d)) = zeros (S d).
  Proof using.
    unfold back. rewrite zeros_split, removelast_last, last_last. f_equal.
    - symmetry. apply convert_eq; [reflexivity|]. intros j _. rewrite nth_zeros. ring.
    - f_equal. rewrite (total_ext _ (fun _ => 0)); [rewrite total_const; ring|]. intros j _. rewrite nth_zeros. ring.
  Qed.
  Lemma rss_back X y w : width d X -> length w = S d -> rss true (map (convert g) X) y w = rss true X y (back w).
  Proof using.
    intros HW Hw. unfold rss. rewrite combine_map_left, map_map. apply total_ext. intros (x, t) Hin. cbn [fst snd].
    rewrite back_fun; [reflexivity|assumption|]. apply HW. eapply in_combine_l. exact Hin.
  Qed.
  Lemma independent_units X : width d X -> independent true d (map (convert g) X) <-> independent true d X.
  Proof using Ha.
    intros HW. unfold independent. cbn [n_coef]. rewrite Nat.add_1_r. split; intros H w Hw Hz.
    - rewrite <- (back_forth w Hw). rewrite (H (forth w)); [apply back_zeros|now apply forth_length|].
      intros r Hr. apply in_map_iff in Hr. destruct Hr as (x & <- & Hx). rewrite back_fun by (auto using forth_length). rewrite back_forth by assumption. auto.
    - rewrite <- (forth_back w Hw). rewrite (H (back w)); [rewrite <- back_zeros at 1; apply forth_back, zeros_length|now apply back_length|].
      intros x Hx. rewrite <- back_fun by auto. apply Hz. now apply in_map.
  Qed.
  Lemma fit_units X y : width d X -> length y = length X ->
    match linear_fit true d X y, linear_fit true d (map (convert g) X) y with
    | Ok (Some w), Ok (Some w') => length w' = S d /\ w = back w'
    | Ok None, Ok None => True
    | _, _ => False
    end.
  Proof using Ha.
    intros HW HL. assert (HW' : width d (map (convert g) X)) by (now apply width_convert). assert (HL' : length y = length (map (convert g) X)) by (now rewrite map_length).
    destruct (fit_cases true y HW HL) as [(-> & N)|(I & w & -> & Lw & M)]; destruct (fit_cases true y HW' HL') as [(-> & N')|(I' & w' & -> & Lw' & M')]; auto.
    - apply N. now apply independent_units.
    - apply N'. now apply independent_units.
    - cbn [n_coef] in *. rewrite Nat.add_1_r in *. split; [assumption|]. symmetry. apply (M (back w') (back_length w' Lw')).
      rewrite <- rss_back by assumption. rewrite <- (back_forth w Lw) at 1. rewrite <- rss_back by (auto using forth_length). apply M'. now apply forth_length.
  Qed.
End Back.

(** Targets in other units. *)
Definition retarget (i : bool) (s t : R) (w : list R) : list R :=
  if i then vscale s (removelast w) ++ [s * last w 0 + t] else vscale s w.
Lemma retarget_length i d s t w : length w = n_coef i d -> length (retarget i s t w) = n_coef i d.
Proof. destruct i; cbn; intros H; [|now rewrite vscale_length]. rewrite app_length, vscale_length, removelast_length, H. cbn. lia. Qed.
Lemma retarget_fun i s t w x : i = true \/ t = 0 -> linear_fun i (retarget i s t w) x = s * linear_fun i w x + t.
Proof.
  intros H. destruct i; cbn [linear_fun retarget].
  - rewrite removelast_last, last_last, dot_vscale_r. ring.
  - destruct H as [H | ->]; [discriminate|]. rewrite dot_vscale_r. ring.
Qed.
Lemma rss_retarget i d s t X y w : i = true \/ t = 0 -> width d X -> length w = n_coef i d ->
  rss i X (map (fun v => s * v + t) y) (retarget i s t w) = s ^ 2 * rss i X y w.
Proof.
  intros H HW Hw. unfold rss. rewrite combine_map_right, map_map, <- total_scal. apply total_ext. intros (x, v) _. cbn [fst snd]. rewrite retarget_fun by assumption. ring.
Qed.
Lemma rss_nonneg i X y w : 0 <= rss i X y w.
Proof. unfold rss. apply total_nonneg. intros p _. rewrite <- Rsqr_pow2. apply Rle_0_sqr. Qed.
Lemma retarget_inv i d s t w : s <> 0 -> i = true \/ t = 0 -> length w = n_coef i d -> exists u, length u = n_coef i d /\ retarget i s t u = w.
Proof.
  intros Hs H Hw. exists (retarget i (/ s) (- t / s) w). split; [now apply retarget_length|]. destruct i; cbn [retarget].
  - cbn [n_coef] in Hw. rewrite Nat.add_1_r in Hw. destruct (split_last w Hw) as (E & _). rewrite removelast_last, last_last. transitivity (removelast w ++ [last w 0]); [|symmetry; exact E]. f_equal.
    + unfold vscale. rewrite map_map. rewrite <- (map_id (removelast w)) at 2. apply map_ext. intros. now field.
    + f_equal. now field.
  - unfold vscale. rewrite map_map. rewrite <- (map_id w) at 2. apply map_ext. intros. now field.
Qed.
Lemma fit_retarget i d s t X y : i = true \/ t = 0 -> width d X -> length y = length X ->
  linear_fit i d X (map (fun v => s * v + t) y) = omap (option_map (retarget i s t)) (linear_fit i d X y).
Proof.
  intros H HW HL. assert (HL' : length (map (fun v => s * v + t) y) = length X) by (now rewrite map_length).
  destruct (fit_cases i y HW HL) as [(-> & N)|(I & w & -> & Lw & M)]; destruct (fit_cases i _ HW HL') as [(-> & N')|(I' & w' & -> & Lw' & M')]; cbn [omap option_map]; try tauto.
  do 2 f_equal. symmetry. apply (M' _ (retarget_length i d s t w Lw)). rewrite (@rss_retarget i d) by assumption.
  destruct (Req_EM_T s 0) as [-> | Hs].
  - replace (0 ^ 2 * rss i X y w) with 0 by ring. apply rss_nonneg.
  - destruct (@retarget_inv i d s t w' Hs H Lw') as (u & Lu & <-). rewrite (@rss_retarget i d) by assumption. apply Rmult_le_compat_l; [rewrite <- Rsqr_pow2; apply Rle_0_sqr|]. now apply M.
Qed.
