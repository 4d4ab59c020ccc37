(** C71: how accurate computed means and predictions of linear models are.  Specification: [Accuracy_Spec]; model: [Accuracy_Model], [Round_Model]. *)
From Coq Require Import Reals Lra.
From Flocq Require Import Core.
From Verif Require Import Base KDTree_Spec KDReal_Proofs Vec Round_Spec Round_Proofs RoundMore_Proofs Round_Model Accuracy_Spec Accuracy_Proofs Accuracy_Model AccuracyLin_Proofs.
Local Open Scope R_scope.

(** The mean of doubles, added up in any order. *)
Theorem C71_mean :
  forall s y, y <> [] -> Permutation (entries_of s) (seq 0 (length y)) -> Forall (representable binary64) y ->
    exists a, mean_r binary64 s y = Ok a /\ Rabs (a - mean_of y) <= mean_error y.
Proof. exact mean_accuracy. Qed.
Print Assumptions C71_mean.

Lemma mv_accuracy s w d X : (1 <= d)%nat -> Permutation (entries_of s) (seq 0 d) -> length w = d -> is_matrix d X ->
  exists p, mv_r binary64 s X w = Ok p /\ Forall2 (fun r c => c = add_up binary64 s (map2 (fun a b => binary64 (a * b)) r w)) X p.
Proof.
  intros Hd HP Hw HX. unfold mv_r. induction X as [|r X IH]; [exists []; now split|]. destruct IH as (p & E & H); [intros q Hq; apply HX; now right|].
  cbn [mapM]. rewrite (HX r (or_introl eq_refl)), Hw, Nat.eqb_refl. cbn [bind]. rewrite Hw in E. rewrite E. cbn [bind]. eexists. split; [reflexivity|]. now constructor.
Qed.
(** Predictions of the regressions: every value is that of exact arithmetic up to [linear_error]. *)
Theorem C71_linear :
  forall s (intercept : bool) w d X, (1 <= d)%nat -> Permutation (entries_of s) (seq 0 d) -> Forall (representable binary64) w ->
    length w = (if intercept then S d else d) -> is_matrix d X ->
    exists p, predict_label_r binary64 s intercept w d X = Ok p /\
      Forall2 (fun r c => let b := if intercept then nth d w 0 else 0 in Rabs (c - linear_value (firstn d w) b r) <= linear_error d (firstn d w) b r) X p.
Proof.
  intros s intercept w d X Hd HP Hw HL HX. unfold predict_label_r. destruct intercept.
  - destruct (Nat.leb_spec d (length w)); [|lia]. assert (Lf : length (firstn d w) = d) by (rewrite firstn_length; lia).
    destruct (mv_accuracy s (firstn d w) d X Hd HP Lf HX) as (p & E & H1). rewrite E. cbn [bind]. unfold vget. replace (length w - 1)%nat with d by lia.
    destruct (nth_error w d) as [b|] eqn:Eb; [|apply nth_error_None in Eb; lia]. cbn [bind]. eexists. split; [reflexivity|]. rewrite (nth_error_nth w d 0 Eb).
    assert (Rb : representable binary64 b) by (apply nth_error_In in Eb; rewrite Forall_forall in Hw; now apply Hw). clear E.
    induction H1 as [|r c X p Hc H1 IH]; cbn [map]; constructor; [|apply IH; intros q Hq; apply HX; now right]. cbv zeta. rewrite Hc. pose proof (HX r (or_introl eq_refl)) as Lr.
    pose proof (linear_accuracy s r (firstn d w) b) as A. rewrite Lr, Lf in A. now apply A.
  - rewrite HL, Nat.eqb_refl. destruct (mv_accuracy s w d X Hd HP HL HX) as (p & E & H1). exists p. split; [exact E|]. rewrite <- HL, firstn_all. rewrite HL. clear E.
    induction H1 as [|r c X p Hc H1 IH]; constructor; [|apply IH; intros q Hq; apply HX; now right]. cbv zeta. rewrite Hc. pose proof (HX r (or_introl eq_refl)) as Lr.
    pose proof (plain_accuracy s r w) as A. rewrite Lr, HL in A. now apply A.
Qed.
Print Assumptions C71_linear.
(** The class given by the perceptron is that of exact arithmetic wherever the exact value is further from 0 than the error bound ... *)
Theorem C71_perceptron :
  forall s (intercept : bool) w d X, (1 <= d)%nat -> Permutation (entries_of s) (seq 0 d) -> Forall (representable binary64) w ->
    length w = (if intercept then S d else d) -> is_matrix d X ->
    exists p, perceptron_predict_r binary64 s intercept w d X = Ok p /\
      Forall2 (fun r c => let b := if intercept then nth d w 0 else 0 in
        (linear_error d (firstn d w) b r < linear_value (firstn d w) b r -> c = 1) /\ (linear_value (firstn d w) b r < - linear_error d (firstn d w) b r -> c = 0)) X p.
Proof.
  intros s intercept w d X Hd HP Hw HL HX. destruct (C71_linear s intercept w d X Hd HP Hw HL HX) as (p & E & H). unfold perceptron_predict_r. rewrite E. cbn [bind]. eexists. split; [reflexivity|].
  clear E. induction H as [|r c X p Hc H IH]; cbn [map]; constructor; [|apply IH; intros q Hq; apply HX; now right]. cbv zeta in *. apply Rabs_le_inv in Hc. split; intros L.
  - replace (Rltb 0 c) with true; [reflexivity|]. symmetry. apply Rltb_true. lra.
  - replace (Rltb 0 c) with false; [reflexivity|]. symmetry. apply Rltb_false. lra.
Qed.
Print Assumptions C71_perceptron.
(** ... and may be wrong nearer to it: the sum 2^53 + 1 - 2^53 is 0 when added up from the left. *)
Theorem C71_perceptron_refuted :
  exists s w X, Permutation (entries_of s) (seq 0 3) /\ Forall (representable binary64) w /\ Forall (Forall (representable binary64)) X /\ is_matrix 3 X /\
    Forall (fun r => linear_value w 0 r = 1) X /\ X <> [] /\ perceptron_predict_r binary64 s false w 3 X = Ok [0].
Proof.
  exists (Add (Add (Entry 0) (Entry 1)) (Entry 2)), [1; 1; 1], [[9007199254740992; 1; -9007199254740992]].
  assert (I : forall z, (Z.abs z <= 2 ^ 53)%Z -> representable binary64 (IZR z)) by (intros z Hz; now apply b64_int).
  split; [reflexivity|]. split; [repeat constructor; apply I; cbn; lia|]. split; [constructor; [|constructor]; repeat constructor; apply I; cbn; lia|]. split; [intros r [<- |[]]; reflexivity|].
  split; [constructor; [|constructor]; unfold linear_value, sum; cbn [combine map fold_right fst snd]; lra|]. split; [discriminate|].
  unfold perceptron_predict_r, predict_label_r, mv_r. cbn [length Nat.eqb mapM bind map2 add_up nth map].
  rewrite !Rmult_1_r. rewrite (I 9007199254740992%Z), (I 1%Z), (I (-9007199254740992)%Z) by (cbn; lia).
  assert (E : binary64 (9007199254740992 + 1) = 9007199254740992).
  { rewrite <- (plus_IZR 9007199254740992 1). unfold binary64, round, scaled_mantissa, cexp. rewrite (mag_unique_pos radix2 _ 54).
    - replace (FLT_exp (-1074) 53 54) with 1%Z by reflexivity. replace (IZR (9007199254740992 + 1) * bpow radix2 (- (1))) with (4503599627370496 + / 2) by (cbn; lra).
      unfold F2R. cbn [Fnum Fexp]. replace (ZnearestE (4503599627370496 + / 2)) with 4503599627370496%Z; [cbn; lra|]. symmetry. unfold Znearest.
      assert (F : Zfloor (4503599627370496 + / 2) = 4503599627370496%Z) by (apply Zfloor_imp; rewrite plus_IZR; lra). rewrite F.
      replace (4503599627370496 + / 2 - 4503599627370496) with (/ 2) by lra. rewrite Rcompare_Eq by reflexivity. reflexivity.
    - cbn. lra. }
  rewrite E. replace (9007199254740992 + -9007199254740992) with 0 by lra. rewrite (rnd_0 binary64 binary64_rounding).
  replace (Rltb 0 0) with false; [reflexivity|]. symmetry. apply Rltb_false. lra.
Qed.
Print Assumptions C71_perceptron_refuted.

(** Two rows for which the bound decides the class. *)
Example C71_case : exists p, perceptron_predict_r binary64 (Add (Entry 0) (Entry 1)) true [1; -2; 3] 2 [[4; 1]; [0; 5]] = Ok p /\ p = [1; 0].
Proof.
  assert (I : forall z, (Z.abs z <= 2 ^ 53)%Z -> representable binary64 (IZR z)) by (intros z Hz; now apply b64_int).
  destruct (C71_perceptron (Add (Entry 0) (Entry 1)) true [1; -2; 3] 2 [[4; 1]; [0; 5]]) as (p & E & H); [lia|reflexivity|repeat constructor; apply I; cbn; lia|reflexivity|intros r [<- |[<- |[]]]; reflexivity|].
  exists p. split; [exact E|]. inversion H as [|r1 c1 X1 p1 H1 H']; subst. inversion H' as [|r2 c2 X2 p2 H2 H'']; subst. inversion H''; subst. cbv zeta in *. destruct H1 as [H1 _], H2 as [_ H2].
  assert (U : ulp_half <= / 64) by (unfold ulp_half; change (/ 64) with (bpow radix2 (-6)); apply bpow_le; lia). assert (B : bpow radix2 (-1075) <= / 64) by (change (/ 64) with (bpow radix2 (-6)); apply bpow_le; lia).
  pose proof u_pos. pose proof (bpow_gt_0 radix2 (-1075)).
  assert (Q : forall n, ((1 + ulp_half) ^ n <= (1 + / 64) ^ n)) by (intros n; apply pow_incr; lra). pose proof (Q 3%nat) as Q3. pose proof (Q 2%nat) as Q2. cbn [pow] in Q2, Q3.
  assert (P2 : 1 <= (1 + ulp_half) * ((1 + ulp_half) * 1)) by (pose proof (hi_ge_1 2); cbn [pow] in *; lra).
  assert (L1 : linear_error 2 [1; -2] 3 [4; 1] < linear_value [1; -2] 3 [4; 1]).
  { unfold linear_error, linear_value, linear_size, sum. cbn [combine map fold_right fst snd pow INR]. rewrite (Rabs_pos_eq (4 * 1)), (Rabs_left (1 * -2)), (Rabs_pos_eq 3) by lra. nra. }
  assert (L2 : linear_value [1; -2] 3 [0; 5] < - linear_error 2 [1; -2] 3 [0; 5]).
  { unfold linear_error, linear_value, linear_size, sum. cbn [combine map fold_right fst snd pow INR]. rewrite (Rabs_pos_eq (0 * 1)), (Rabs_left (5 * -2)), (Rabs_pos_eq 3) by lra. nra. }
  cbn [firstn nth] in *. now rewrite (H1 L1), (H2 L2).
Qed.
