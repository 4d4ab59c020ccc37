(** Functions on doubles that round the exact exponential and logarithm: what [DProb_Spec] assumes holds of them. *)
From Coq Require Import Reals Lra Lia.
From Flocq Require Import Core BinarySingleNaN.
From Verif Require Import Base Vec Round_Spec Double_Spec Double_Model Double_Proofs Bounded_Spec Bounded_Proofs DProb_Spec DProb_Model DProb_Proofs.
Local Open Scope R_scope.

(** The double that a real is rounded to, when that does not overflow. *)
Definition dround (x : R) : double :=
  let r := binary64 x in binary_normalize 53 1024 prec_pos prec_small mode_NE (Ztrunc (scaled_mantissa radix2 (FLT_exp (-1074) 53) r)) (cexp radix2 (FLT_exp (-1074) 53) r) false.
Lemma dround_ok x : Rabs x <= bpow radix2 1023 -> finite (dround x) /\ value (dround x) = binary64 x.
Proof.
  intros H. unfold value, dround. set (r := binary64 x). pose proof (binary_normalize_correct 53 1024 prec_pos prec_small mode_NE (Ztrunc (scaled_mantissa radix2 (FLT_exp (-1074) 53) r)) (cexp radix2 (FLT_exp (-1074) 53) r) false) as G.
  assert (Fr : generic_format radix2 (FLT_exp (-1074) 53) r) by (unfold r, binary64; apply generic_format_round; [apply FLT_exp_valid; reflexivity|apply valid_rnd_N]).
  change (SpecFloat.fexp 53 1024) with (FLT_exp (-1074) 53) in G. change (round_mode mode_NE) with ZnearestE in G. rewrite <- Fr in G. cbv zeta in G. rewrite round_generic in G; [|apply valid_rnd_N|exact Fr].
  rewrite Rlt_bool_true in G; [tauto|]. unfold r. apply Rle_lt_trans with (bpow radix2 1023); [|apply bpow_lt; lia].
  assert (E : bpow radix2 1023 = IZR (2 ^ 52) * bpow radix2 971) by (change 1023%Z with (52 + 971)%Z; rewrite bpow_plus; reflexivity). rewrite E in *. apply b64_le; [lia|lia|exact H].
Qed.
Definition rounded_exp (x : double) : double :=
  match x with
  | B754_nan => nan
  | B754_infinity s => if s then zero else inf
  | _ => if Rle_dec (value x) (-1100) then zero else if Rle_dec (exp (value x)) (bpow radix2 1023) then dround (exp (value x)) else inf
  end.
Definition rounded_log (x : double) : double :=
  match x with
  | B754_nan => nan
  | B754_infinity s => if s then nan else inf
  | _ => if Rlt_dec 0 (value x) then dround (ln (value x)) else if Rlt_dec (value x) 0 then nan else minus_inf
  end.
Lemma rounded_exp_finite x : finite x -> rounded_exp x = if Rle_dec (value x) (-1100) then zero else if Rle_dec (exp (value x)) (bpow radix2 1023) then dround (exp (value x)) else inf.
Proof. destruct x; intros F; try discriminate; reflexivity. Qed.
Lemma rounded_log_finite x : finite x -> rounded_log x = if Rlt_dec 0 (value x) then dround (ln (value x)) else if Rlt_dec (value x) 0 then nan else minus_inf.
Proof. destruct x; intros F; try discriminate; reflexivity. Qed.
Lemma exp_le x y : x <= y -> exp x <= exp y.
Proof. intros [H| ->]; [left; now apply exp_increasing|lra]. Qed.
Lemma unit_bound x : 0 <= x <= 1 -> Rabs x <= bpow radix2 1023.
Proof. intros H. rewrite Rabs_pos_eq by lra. apply Rle_trans with 1; [lra|]. change 1 with (bpow radix2 0). apply bpow_le. lia. Qed.
Lemma exp_pow n : exp (INR n) = exp 1 ^ n.
Proof. induction n as [|n IH]; [apply exp_0|]. rewrite S_INR, exp_plus, IH. cbn [pow]. ring. Qed.
Lemma exp_neg64 : exp (-64) <= bpow radix2 (-60).
Proof.
  replace (-64) with (- INR 64) by (rewrite INR_IZR_INZ; cbn; lra). rewrite exp_Ropp, exp_pow. assert (E : 2 <= exp 1) by (pose proof (exp_ineq1 1 ltac:(lra)); lra).
  assert (P : 2 ^ 64 <= exp 1 ^ 64) by (apply pow_incr; lra). replace (bpow radix2 (-60)) with (/ 2 ^ 60) by (cbn; lra). apply Rle_trans with (/ 2 ^ 64); [apply Rinv_le; [apply pow_lt; lra|exact P]|].
  apply Rinv_le; [apply pow_lt; lra|apply Rle_pow; [lra|lia]].
Qed.
Lemma exp_neg32 : bpow radix2 (-52) <= exp (-32).
Proof.
  replace (-32) with (- INR 32) by (rewrite INR_IZR_INZ; cbn; lra). rewrite exp_Ropp, exp_pow. pose proof exp_le_3 as E. assert (P : exp 1 ^ 32 <= 3 ^ 32) by (apply pow_incr; split; [left; apply exp_pos|exact E]).
  replace (bpow radix2 (-52)) with (/ 2 ^ 52) by (cbn; lra). apply Rinv_le; [apply pow_lt, exp_pos|]. lra.
Qed.
Lemma exp_rounded x : finite x -> -1100 < value x <= 0 -> rounded_exp x = dround (exp (value x)) /\ 0 <= exp (value x) <= 1.
Proof.
  intros F H. assert (B : 0 <= exp (value x) <= 1) by (split; [left; apply exp_pos|rewrite <- exp_0; apply exp_le; lra]). split; [|exact B]. rewrite rounded_exp_finite by exact F. destruct (Rle_dec (value x) (-1100)); [lra|].
  destruct (Rle_dec (exp (value x)) (bpow radix2 1023)) as [|Hn]; [reflexivity|exfalso; apply Hn]. pose proof (unit_bound _ B) as U. rewrite Rabs_pos_eq in U by lra. exact U.
Qed.
Theorem rounded_exp_good : good_exp rounded_exp.
Proof.
  assert (Z0 : in_unit zero) by (split; [reflexivity|cbn; lra]).
  split; [|split; [|split; [|split; [|split]]]].
  - intros x N D. assert (V : val x <= 0).
    { rewrite dle_dlt in D by (try exact N; reflexivity). apply negb_true_iff in D. rewrite dlt_val in D by (try exact N; reflexivity). rewrite Rlt_bool_niff in D. exact D. }
    destruct (is_finite x) eqn:F.
    + rewrite finite_val in V by exact F. destruct (Rle_dec (value x) (-1100)) as [C|C].
      * rewrite rounded_exp_finite by exact F. destruct (Rle_dec (value x) (-1100)); [exact Z0|lra].
      * destruct (exp_rounded x F) as (-> & B); [unfold value in *; lra|]. destruct (dround_ok _ (unit_bound _ B)) as (F1 & V1). split; [exact F1|]. rewrite V1. split; [rewrite <- b64_0; apply b64_mono; lra|rewrite <- b64_1; apply b64_mono; lra].
    + destruct x as [s|s| |s m e B]; try discriminate. destruct s; [exact Z0|]. cbn [val] in V. pose proof (bpow_gt_0 radix2 1024). lra.
  - intros x F V. destruct (exp_rounded x F) as (-> & B); [lra|]. destruct (dround_ok _ (unit_bound _ B)) as (_ & V1). rewrite V1, V, exp_0. apply b64_1.
  - intros x F V. destruct (exp_rounded x F) as (-> & B); [lra|]. destruct (dround_ok _ (unit_bound _ B)) as (_ & V1). rewrite V1.
    replace (bpow radix2 (-52)) with (IZR 1 * bpow radix2 (-52)) by lra. rewrite <- (b64_F 1 (-52)) by lia. apply b64_mono. rewrite Rmult_1_l. eapply Rle_trans; [apply exp_neg32|apply exp_le; lra].
  - intros x F V. destruct (Rle_dec (value x) (-1100)) as [C|C].
    + rewrite rounded_exp_finite by exact F. destruct (Rle_dec (value x) (-1100)); [|lra]. cbn [value zero B2R]. apply bpow_ge_0.
    + destruct (exp_rounded x F) as (-> & B); [lra|]. destruct (dround_ok _ (unit_bound _ B)) as (_ & V1). rewrite V1.
      replace (bpow radix2 (-60)) with (IZR 1 * bpow radix2 (-60)) by lra. rewrite <- (b64_F 1 (-60)) by lia. apply b64_mono. rewrite Rmult_1_l. eapply Rle_trans; [apply exp_le; exact V|apply exp_neg64].
  - intros x F V. rewrite rounded_exp_finite by exact F. destruct (Rle_dec (value x) (-1100)); [reflexivity|lra].
  - reflexivity.
Qed.
Lemma ln2_bounds : 0 < ln 2 <= 1.
Proof. split; [rewrite <- ln_1; apply ln_increasing; lra|]. assert (E : 2 <= exp 1) by (pose proof (exp_ineq1 1 ltac:(lra)); lra). rewrite <- (ln_exp 1). destruct E as [E|E]; [left; apply ln_increasing; lra|rewrite <- E; lra]. Qed.
Lemma ln_bpow n : ln (bpow radix2 n) = IZR n * ln 2.
Proof. rewrite bpow_exp. rewrite ln_exp. reflexivity. Qed.
Lemma ln_bound (x : double) : finite x -> 0 < value x -> Rabs (ln (value x)) <= 1074.
Proof.
  intros F H. pose proof ln2_bounds as L2. assert (LO : bpow radix2 (-1074) <= value x).
  { pose proof (generic_format_B2R 53 1024 x) as G. change (SpecFloat.fexp 53 1024) with (FLT_exp (-1074) 53) in G. unfold value in *. rewrite <- (Rabs_pos_eq (B2R x)) by lra.
    destruct x as [s|s| |s m e B]; cbn [B2R] in *; try lra. rewrite <- F2R_Zabs, abs_cond_Zopp. unfold F2R. cbn [Fnum Fexp Z.abs]. assert (He : (-1074 <= e)%Z).
    { pose proof B as B'. apply andb_prop in B'. destruct B' as (B' & _). apply Zeq_bool_eq in B'. unfold SpecFloat.fexp, SpecFloat.emin in B'. lia. }
    apply Rle_trans with (1 * bpow radix2 e); [rewrite Rmult_1_l; now apply bpow_le|]. apply Rmult_le_compat_r; [apply bpow_ge_0|]. apply IZR_le. lia. }
  assert (HI : value x < bpow radix2 1024) by (pose proof (abs_B2R_lt_emax 53 1024 x) as B; unfold value in *; rewrite Rabs_pos_eq in B by lra; exact B).
  assert (M : forall a b, 0 < a -> a <= b -> ln a <= ln b) by (intros a b Ha [Hb| ->]; [left; now apply ln_increasing|lra]).
  pose proof (M _ _ (bpow_gt_0 radix2 (-1074)) LO) as A1. pose proof (M (value x) (bpow radix2 1024) H ltac:(lra)) as A2. rewrite ln_bpow in A1, A2. apply Rabs_le. nra.
Qed.
Theorem rounded_log_good : good_log rounded_log.
Proof.
  assert (B1 : forall x, finite x -> 0 < value x -> finite (dround (ln (value x))) /\ value (dround (ln (value x))) = binary64 (ln (value x))).
  { intros x F H. apply dround_ok. apply Rle_trans with 1074; [now apply ln_bound|]. apply Rle_trans with (bpow radix2 11); [cbn; lra|apply bpow_le; lia]. }
  split; [|split; [|split]].
  - intros x F H. rewrite rounded_log_finite by exact F. destruct (Rlt_dec 0 (value x)); [|lra]. destruct (B1 x F H) as (F1 & V1). split; [exact F1|]. rewrite V1.
    replace 2048 with (IZR 1 * bpow radix2 11) by (cbn; lra). apply b64_le; [lia|lia|]. pose proof (ln_bound x F H). cbn. lra.
  - intros x F H. rewrite rounded_log_finite by exact F. destruct (Rlt_dec 0 (value x)); [|lra]. destruct (B1 x F ltac:(lra)) as (F1 & V1). rewrite V1. rewrite <- b64_0. apply b64_mono.
    destruct H as [H| <-]; [|rewrite ln_1; lra]. left. rewrite <- ln_1. apply ln_increasing; lra.
  - intros x F H. rewrite rounded_log_finite by exact F. destruct (Rlt_dec 0 (value x)); [lra|]. destruct (Rlt_dec (value x) 0); [lra|reflexivity].
  - reflexivity.
Qed.
