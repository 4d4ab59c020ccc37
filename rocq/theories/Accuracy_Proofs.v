(** Error bounds for sums in any order, distances, means and products of rows with weights. *)
From Coq Require Import Reals Lra Psatz.
From Flocq Require Import Core Plus_error Relative.
From Verif Require Import Base KDTree_Spec Round_Spec Round_Proofs RoundMore_Proofs Accuracy_Spec.
Local Open Scope R_scope.
Notation u := ulp_half.

Lemma u_pos : 0 < u. Proof. apply bpow_gt_0. Qed.
Lemma u_small : u < / 2.
Proof. unfold u. change (/ 2) with (bpow radix2 (-1)). apply bpow_lt. lia. Qed.
Lemma u_half : / 2 * bpow radix2 (- (53) + 1) = u.
Proof. change (/ 2) with (bpow radix2 (-1)). rewrite <- bpow_plus. reflexivity. Qed.
Lemma format_of a : representable binary64 a -> generic_format radix2 (FLT_exp (-1074) 53) a.
Proof. intros H. unfold representable in H. rewrite <- H. unfold binary64. apply generic_format_round; [apply FLT_exp_valid; reflexivity|apply valid_rnd_N]. Qed.
Lemma rep_of a : generic_format radix2 (FLT_exp (-1074) 53) a -> representable binary64 a.
Proof. intros H. unfold representable, binary64. apply round_generic; [apply valid_rnd_N|exact H]. Qed.
Lemma rep_rnd a : representable binary64 (binary64 a).
Proof. exact (proj1 (proj2 binary64_format) a). Qed.
Lemma rep_abs a : representable binary64 a -> representable binary64 (Rabs a).
Proof. intros H. unfold representable in *. rewrite <- (rnd_abs binary64 binary64_rounding). now rewrite H. Qed.
Lemma rep_opp a : representable binary64 a -> representable binary64 (- a).
Proof. intros H. unfold representable in *. rewrite (rnd_opp binary64 binary64_rounding). now rewrite H. Qed.
Lemma rep_0 : representable binary64 0.
Proof. exact (rnd_0 binary64 binary64_rounding). Qed.

(** ** One operation *)
Lemma add_error a b : representable binary64 a -> representable binary64 b -> Rabs (binary64 (a + b) - (a + b)) <= u * Rabs (a + b).
Proof.
  intros Ha Hb. destruct (@FLT_plus_error_N_ex radix2 (-1074) 53 eq_refl (fun n => negb (Z.even n)) a b (format_of _ Ha) (format_of _ Hb)) as (eps & He & E).
  unfold binary64. change ZnearestE with (Znearest (fun n => negb (Z.even n))). rewrite E. replace ((a + b) * (1 + eps) - (a + b)) with (eps * (a + b)) by ring.
  rewrite Rabs_mult. apply Rmult_le_compat_r; [apply Rabs_pos|]. eapply Rle_trans; [exact He|]. unfold u_ro. rewrite u_half. pose proof u_pos.
  apply Rmult_le_reg_r with (1 + u); [lra|]. unfold Rdiv. rewrite Rmult_assoc, Rinv_l by lra. nra.
Qed.
Lemma normal_error x : x = 0 \/ bpow radix2 (-1022) <= Rabs x -> Rabs (binary64 x - x) <= u * Rabs x.
Proof.
  intros [-> |H]; [rewrite (rnd_0 binary64 binary64_rounding), Rminus_0_r, Rabs_R0; lra|].
  pose proof (relative_error_N_FLT radix2 (-1074) 53 eq_refl (fun n => negb (Z.even n)) x H) as E. rewrite u_half in E. exact E.
Qed.
Lemma any_error x : Rabs (binary64 x - x) <= u * Rabs x + bpow radix2 (-1075).
Proof.
  destruct (error_N_FLT radix2 (-1074) 53 eq_refl (fun n => negb (Z.even n)) x) as (eps & eta & H1 & H2 & _ & E). rewrite u_half in H1.
  unfold binary64. change ZnearestE with (Znearest (fun n => negb (Z.even n))). rewrite E. replace (x * (1 + eps) + eta - x) with (eps * x + eta) by ring.
  eapply Rle_trans; [apply Rabs_triang|]. rewrite Rabs_mult. apply Rplus_le_compat; [apply Rmult_le_compat_r; [apply Rabs_pos|exact H1]|].
  change (bpow radix2 (-1075)) with (bpow radix2 (-1 + -1074)). rewrite bpow_plus. exact H2.
Qed.
Lemma errors_of c x : 0 <= x -> Rabs (c - x) <= u * x -> within_errors 1 c x.
Proof. intros H E. unfold within_errors. rewrite !pow_1. apply Rabs_le_inv in E. generalize u E. intros v [E1 E2]. split; lra. Qed.
Lemma abs_errors c x : Rabs (c - x) <= u * Rabs x -> within_errors 1 (Rabs c) (Rabs x).
Proof. intros E. apply errors_of; [apply Rabs_pos|]. eapply Rle_trans; [apply Rabs_triang_inv2|exact E]. Qed.

(** ** Algebra of [within_errors] *)
Lemma lo_pos p : 0 < (1 - u) ^ p. Proof. apply pow_lt. pose proof u_small. lra. Qed.
Lemma hi_pos p : 0 < (1 + u) ^ p. Proof. apply pow_lt. pose proof u_pos. lra. Qed.
Lemma lo_le_1 p : (1 - u) ^ p <= 1.
Proof. pose proof u_pos. pose proof u_small. apply Rle_trans with (1 ^ p); [apply pow_incr; lra|rewrite pow1; lra]. Qed.
Lemma hi_ge_1 p : 1 <= (1 + u) ^ p.
Proof. apply pow_R1_Rle. pose proof u_pos. lra. Qed.
Lemma errors_more p q c x : (p <= q)%nat -> 0 <= x -> within_errors p c x -> within_errors q c x.
Proof.
  intros H Hx [H1 H2]. replace q with (p + (q - p))%nat by lia. unfold within_errors. rewrite !pow_add. pose proof (lo_pos p). pose proof (hi_pos p).
  pose proof (lo_le_1 (q - p)). pose proof (hi_ge_1 (q - p)). split.
  - eapply Rle_trans; [|exact H1]. apply Rmult_le_compat_r; [exact Hx|]. nra.
  - eapply Rle_trans; [exact H2|]. apply Rmult_le_compat_r; [exact Hx|]. nra.
Qed.
Lemma errors_pos p c x : 0 <= x -> within_errors p c x -> 0 <= c.
Proof. intros Hx [H1 _]. pose proof (lo_pos p). eapply Rle_trans; [|exact H1]. apply Rmult_le_pos; lra. Qed.
Lemma errors_trans p q a b c : 0 <= c -> within_errors p a b -> within_errors q b c -> within_errors (p + q) a c.
Proof.
  intros Hc [H1 H2] [H3 H4]. unfold within_errors. rewrite !pow_add. pose proof (lo_pos p). pose proof (hi_pos p). split.
  - eapply Rle_trans; [|exact H1]. rewrite Rmult_assoc. apply Rmult_le_compat_l; lra.
  - eapply Rle_trans; [exact H2|]. rewrite Rmult_assoc. apply Rmult_le_compat_l; lra.
Qed.
Lemma errors_add p a b x y : within_errors p a x -> within_errors p b y -> within_errors p (a + b) (x + y).
Proof. intros [H1 H2] [H3 H4]. unfold within_errors. rewrite !Rmult_plus_distr_l. lra. Qed.
Lemma errors_mult p q a b x y : 0 <= x -> 0 <= y -> within_errors p a x -> within_errors q b y -> within_errors (p + q) (a * b) (x * y).
Proof.
  intros Hx Hy Ha Hb. pose proof (errors_pos _ _ _ Hx Ha). pose proof (errors_pos _ _ _ Hy Hb). destruct Ha as [H1 H2], Hb as [H3 H4]. unfold within_errors. rewrite !pow_add.
  pose proof (lo_pos p). pose proof (lo_pos q). pose proof (hi_pos p). pose proof (hi_pos q). split.
  - replace ((1 - u) ^ p * (1 - u) ^ q * (x * y)) with ((1 - u) ^ p * x * ((1 - u) ^ q * y)) by ring. apply Rmult_le_compat; try lra; apply Rmult_le_pos; lra.
  - replace ((1 + u) ^ p * (1 + u) ^ q * (x * y)) with ((1 + u) ^ p * x * ((1 + u) ^ q * y)) by ring. apply Rmult_le_compat; lra.
Qed.
Lemma errors_sqrt p c x : 0 <= x -> within_errors p c x -> within_errors p (sqrt c) (sqrt x).
Proof.
  intros Hx [H1 H2]. pose proof (lo_pos p). pose proof (hi_pos p). pose proof (lo_le_1 p). pose proof (hi_ge_1 p). pose proof (sqrt_pos x). split.
  - apply Rle_trans with (sqrt ((1 - u) ^ p * x)); [|now apply sqrt_le_1_alt]. rewrite sqrt_mult by lra. apply Rmult_le_compat_r; [lra|].
    rewrite <- (sqrt_square ((1 - u) ^ p)) at 1 by lra. apply sqrt_le_1_alt. nra.
  - apply Rle_trans with (sqrt ((1 + u) ^ p * x)); [now apply sqrt_le_1_alt|]. rewrite sqrt_mult by lra. apply Rmult_le_compat_r; [lra|].
    rewrite <- (sqrt_square ((1 + u) ^ p)) at 2 by lra. apply sqrt_le_1_alt. nra.
Qed.
Lemma errors_refl x : within_errors 0 x x.
Proof. unfold within_errors. cbn [pow]. lra. Qed.

(** ** Sums in any order *)
Definition plain (s : order) (x : list R) : R := add_up (fun a => a) s x.
Lemma plain_entries s x : plain s x = sum (map (fun i => nth i x 0) (entries_of s)).
Proof.
  assert (A : forall a b, sum (a ++ b) = sum a + sum b) by (induction a as [|z a IH]; intros b; cbn [app]; unfold sum in *; cbn [fold_right]; [lra|rewrite IH; lra]).
  unfold plain. induction s as [i|l IHl r IHr]; cbn [add_up entries_of map]; [unfold sum; cbn [fold_right]; lra|]. now rewrite map_app, A, IHl, IHr.
Qed.
Lemma nth_seq_all (x : list R) : map (fun i => nth i x 0) (seq 0 (length x)) = x.
Proof.
  apply nth_ext with (d := 0) (d' := 0); [now rewrite map_length, seq_length|]. intros n Hn. rewrite map_length, seq_length in Hn.
  rewrite (nth_indep _ 0 (nth 0%nat x 0)) by (now rewrite map_length, seq_length). rewrite (map_nth (fun i => nth i x 0) (seq 0 (length x)) 0%nat n). now rewrite seq_nth.
Qed.
Lemma plain_sum s x : Permutation (entries_of s) (seq 0 (length x)) -> plain s x = sum x.
Proof.
  intros H. rewrite plain_entries. transitivity (sum (map (fun i => nth i x 0) (seq 0 (length x)))); [|now rewrite nth_seq_all]. assert (P : forall a b : list R, Permutation a b -> sum a = sum b) by (induction 1; unfold sum in *; cbn [fold_right] in *; lra).
  apply P. now apply Permutation_map.
Qed.
Lemma entries_some s : (1 <= length (entries_of s))%nat.
Proof. induction s; cbn [entries_of length]; [lia|rewrite app_length; lia]. Qed.
Lemma rep_nth w i : Forall (representable binary64) w -> representable binary64 (nth i w 0).
Proof. intros H. destruct (nth_in_or_default i w 0) as [Hi| ->]; [rewrite Forall_forall in H; now apply H|apply rep_0]. Qed.
Lemma rep_sum s w : Forall (representable binary64) w -> representable binary64 (add_up binary64 s w).
Proof. intros H. destruct s; cbn [add_up]; [now apply rep_nth|apply rep_rnd]. Qed.
(** Entries without signs *)
Lemma sum_errors k x w : Forall (fun a => 0 <= a) x -> Forall (representable binary64) w -> (forall i, within_errors k (nth i w 0) (nth i x 0)) ->
  forall s, within_errors (k + (length (entries_of s) - 1)) (add_up binary64 s w) (plain s x) /\ 0 <= plain s x.
Proof.
  intros Hx Hw H. induction s as [i|l [IHl Pl] r [IHr Pr]].
  - cbn [entries_of length add_up]. replace (k + (1 - 1))%nat with k by lia. split; [apply H|]. unfold plain. cbn [add_up].
    destruct (nth_in_or_default i x 0) as [Hi| ->]; [rewrite Forall_forall in Hx; now apply Hx|lra].
  - cbn [entries_of add_up]. unfold plain in *. cbn [add_up]. rewrite app_length. pose proof (entries_some l). pose proof (entries_some r). split; [|lra].
    set (p := (k + (length (entries_of l) + length (entries_of r) - 2))%nat).
    assert (Hl : within_errors p (add_up binary64 l w) (add_up (fun a => a) l x)) by (eapply errors_more; [|exact Pl|exact IHl]; subst p; lia).
    assert (Hr : within_errors p (add_up binary64 r w) (add_up (fun a => a) r x)) by (eapply errors_more; [|exact Pr|exact IHr]; subst p; lia).
    pose proof (errors_add _ _ _ _ _ Hl Hr) as HA. assert (HP : 0 <= add_up (fun a => a) l x + add_up (fun a => a) r x) by lra.
    replace (k + (length (entries_of l) + length (entries_of r) - 1))%nat with (1 + p)%nat by (subst p; lia). eapply errors_trans; [exact HP| |exact HA].
    apply errors_of; [now apply (errors_pos p _ _ HP)|]. rewrite <- (Rabs_pos_eq (add_up binary64 l w + add_up binary64 r w)) at 3 by (now apply (errors_pos p _ _ HP)).
    apply add_error; now apply rep_sum.
Qed.
(** Entries with signs *)
Lemma signed_sum_errors w : Forall (representable binary64) w -> forall s,
  Rabs (add_up binary64 s w - plain s w) <= ((1 + u) ^ (length (entries_of s) - 1) - 1) * plain s (map Rabs w) /\ Rabs (plain s w) <= plain s (map Rabs w).
Proof.
  intros Hw. induction s as [i|l [IHl Pl] r [IHr Pr]]; unfold plain in *; cbn [add_up entries_of length].
  - replace (nth i (map Rabs w) 0) with (Rabs (nth i w 0)) by (rewrite <- Rabs_R0 at 2; symmetry; apply map_nth). cbn [Nat.sub pow]. rewrite !Rminus_diag_eq, Rabs_R0 by reflexivity. split; lra.
  - rewrite app_length. pose proof (entries_some l). pose proof (entries_some r). set (A := add_up binary64 l w) in *. set (B := add_up binary64 r w) in *.
    set (a := add_up (fun a => a) l w) in *. set (b := add_up (fun a => a) r w) in *. set (x := add_up (fun a => a) l (map Rabs w)) in *. set (y := add_up (fun a => a) r (map Rabs w)) in *.
    split; [|eapply Rle_trans; [apply Rabs_triang|lra]].
    set (p := (length (entries_of l) + length (entries_of r) - 2)%nat). replace (length (entries_of l) + length (entries_of r) - 1)%nat with (S p) by (subst p; lia).
    assert (M : forall q, (q <= p)%nat -> (1 + u) ^ q <= (1 + u) ^ p) by (intros q Hq; apply Rle_pow; [pose proof u_pos; lra|exact Hq]).
    pose proof (M (length (entries_of l) - 1)%nat ltac:(subst p; lia)) as M1. pose proof (M (length (entries_of r) - 1)%nat ltac:(subst p; lia)) as M2.
    pose proof (Rabs_pos a). pose proof (Rabs_pos b). pose proof u_pos. pose proof (hi_ge_1 p).
    assert (E1 : Rabs (A - a) <= ((1 + u) ^ p - 1) * x) by (eapply Rle_trans; [exact IHl|]; apply Rmult_le_compat_r; lra).
    assert (E2 : Rabs (B - b) <= ((1 + u) ^ p - 1) * y) by (eapply Rle_trans; [exact IHr|]; apply Rmult_le_compat_r; lra).
    pose proof (add_error A B (rep_sum l w Hw) (rep_sum r w Hw)) as E3.
    assert (E4 : Rabs (A + B) <= (1 + u) ^ p * (x + y)).
    { replace (A + B) with ((A - a) + (B - b) + (a + b)) by ring. eapply Rle_trans; [apply Rabs_triang|]. pose proof (Rabs_triang (A - a) (B - b)). pose proof (Rabs_triang a b). lra. }
    replace (binary64 (A + B) - (a + b)) with ((binary64 (A + B) - (A + B)) + ((A - a) + (B - b))) by ring.
    eapply Rle_trans; [apply Rabs_triang|]. pose proof (Rabs_triang (A - a) (B - b)). cbn [pow].
    assert (u * Rabs (A + B) <= u * ((1 + u) ^ p * (x + y))) by (apply Rmult_le_compat_l; lra). lra.
Qed.

(** ** Distances *)
Definition gaps (x y : list R) : list R := map (fun p => fst p - snd p) (combine x y).
Lemma nth_gaps x : forall y i, length x = length y -> nth i (gaps x y) 0 = nth i x 0 - nth i y 0.
Proof.
  unfold gaps. induction x as [|a x IH]; intros [|b y] i HL; try discriminate; cbn [combine map]; [destruct i; cbn [nth]; lra|].
  destruct i; cbn [nth fst snd]; [reflexivity|]. apply IH. cbn in HL. lia.
Qed.
Lemma nth_map0 (f : R -> R) v i : f 0 = 0 -> nth i (map f v) 0 = f (nth i v 0).
Proof. intros H. rewrite <- H at 1. apply map_nth. Qed.
Lemma rnd_gaps x y : map (fun p => binary64 (fst p - snd p)) (combine x y) = map binary64 (gaps x y).
Proof. unfold gaps. now rewrite map_map. Qed.
Lemma gap_error nf x y i : double_row nf x -> double_row nf y -> Rabs (binary64 (nth i (gaps x y) 0) - nth i (gaps x y) 0) <= u * Rabs (nth i (gaps x y) 0).
Proof.
  intros [Lx Hx] [Ly Hy]. rewrite nth_gaps by congruence. unfold Rminus at 1 3 4. apply add_error; [now apply rep_nth|]. apply rep_opp. now apply rep_nth.
Qed.
Lemma gaps_len nf x y : double_row nf x -> double_row nf y -> length (gaps x y) = nf.
Proof. intros [Lx _] [Ly _]. unfold gaps. rewrite map_length, combine_length. lia. Qed.
Lemma abs_all v : Forall (fun a => 0 <= a) (map Rabs v).
Proof. apply Forall_forall. intros a Ha. apply in_map_iff in Ha as (b & <- & _). apply Rabs_pos. Qed.
Lemma rep_map (f : R -> R) v : (forall a, representable binary64 (f a)) -> Forall (representable binary64) (map f v).
Proof. intros H. apply Forall_forall. intros a Ha. apply in_map_iff in Ha as (b & <- & _). apply H. Qed.
Lemma max_errors v : (forall i, Rabs (binary64 (nth i v 0) - nth i v 0) <= u * Rabs (nth i v 0)) ->
  within_errors 1 (fold_right Rmax 0 (map Rabs (map binary64 v))) (fold_right Rmax 0 (map Rabs v)) /\ 0 <= fold_right Rmax 0 (map Rabs v).
Proof.
  induction v as [|a v IH]; intros H; cbn [map fold_right]; [unfold within_errors; split; lra|]. destruct IH as [[I1 I2] I3]; [intros i; apply (H (S i))|].
  destruct (abs_errors _ _ (H 0%nat)) as [J1 J2]. cbn [nth] in *. rewrite !pow_1 in *. split; [|eapply Rle_trans; [apply I3|apply Rmax_r]]. unfold within_errors. rewrite !pow_1.
  pose proof u_pos. pose proof u_small. split.
  - unfold Rmax at 1. destruct (Rle_dec (Rabs a) _); [eapply Rle_trans; [exact I1|apply Rmax_r]|eapply Rle_trans; [exact J1|apply Rmax_l]].
  - apply Rmax_lub; [eapply Rle_trans; [exact J2|]; apply Rmult_le_compat_l; [lra|apply Rmax_l]|eapply Rle_trans; [exact I2|]; apply Rmult_le_compat_l; [lra|apply Rmax_r]].
Qed.
Lemma entries_len s nf : Permutation (entries_of s) (seq 0 nf) -> length (entries_of s) = nf.
Proof. intros H. rewrite (Permutation_length H). apply seq_length. Qed.
Lemma sqrt_normal a : representable binary64 a -> 0 <= a -> sqrt a = 0 \/ bpow radix2 (-1022) <= Rabs (sqrt a).
Proof.
  intros Hr [Ha|<-]; [|left; apply sqrt_0]. right. rewrite Rabs_pos_eq by apply sqrt_pos.
  assert (H : bpow radix2 (-1074) <= a).
  { apply format_of in Hr. unfold generic_format in Hr. rewrite Hr in Ha |- *. apply gt_0_F2R in Ha. eapply Rle_trans; [|apply bpow_le_F2R; exact Ha]. apply bpow_le. unfold cexp, FLT_exp. lia. }
  apply Rle_trans with (sqrt (bpow radix2 (-1074))); [|now apply sqrt_le_1_alt]. change (-1074)%Z with (2 * -537)%Z. rewrite sqrt_bpow. apply bpow_le. lia.
Qed.
Lemma dist_errors s m nf x y : Permutation (entries_of s) (seq 0 nf) -> double_row nf x -> double_row nf y -> (m = Euclidean -> apart x y) ->
  within_errors (distance_errors m nf) (computed_dist binary64 s m x y) (dist m x y).
Proof.
  intros HP Hx Hy HA. unfold computed_dist, dist. rewrite rnd_gaps. fold (gaps x y). pose proof (gaps_len _ _ _ Hx Hy) as HL. pose proof (gap_error nf x y) as HE.
  pose proof (entries_len _ _ HP) as HN. pose proof (entries_some s) as H1. assert (HG : forall i, nth i x 0 - nth i y 0 = nth i (gaps x y) 0) by (intros i; symmetry; apply nth_gaps; destruct Hx, Hy; congruence).
  destruct m; cbn [computed_norm norm_of distance_errors].
  - destruct (sum_errors 1 (map Rabs (gaps x y)) (map Rabs (map binary64 (gaps x y))) (abs_all _)) with (s := s) as [G _].
    + rewrite map_map. apply rep_map. intros a. apply rep_abs, rep_rnd.
    + intros i. rewrite map_map, !nth_map0 by (rewrite ?(rnd_0 binary64 binary64_rounding); apply Rabs_R0). apply abs_errors. now apply HE.
    + rewrite HN in G. replace (1 + (nf - 1))%nat with nf in G by lia. rewrite plain_sum in G by (now rewrite map_length, HL). exact G.
  - specialize (HA eq_refl). set (v := gaps x y) in *.
    assert (HS : forall i, within_errors 3 (nth i (map (fun a => binary64 (a * a)) (map binary64 v)) 0) (nth i (map Rsqr v) 0)).
    { intros i. rewrite map_map. rewrite !nth_map0 by (unfold Rsqr; rewrite ?(rnd_0 binary64 binary64_rounding), ?Rmult_0_l, ?(rnd_0 binary64 binary64_rounding); reflexivity). set (a := nth i v 0).
      assert (EA : a = 0 \/ bpow radix2 (-500) <= Rabs a) by (subst a v; rewrite <- HG; destruct (HA i) as [E|E]; [left; lra|now right]). pose proof (HE i Hx Hy) as HEa. fold v a in HEa.
      pose proof (abs_errors _ _ HEa) as W. assert (Q : within_errors 2 (Rabs (binary64 a) * Rabs (binary64 a)) (Rabs a * Rabs a)) by (apply (errors_mult 1 1); auto using Rabs_pos).
      assert (E2 : forall b, b * b = Rabs b * Rabs b) by (intros b; rewrite <- Rabs_mult; symmetry; apply Rabs_pos_eq, Rle_0_sqr). unfold Rsqr. rewrite (E2 a).
      apply (errors_trans 1 2 _ (Rabs (binary64 a) * Rabs (binary64 a))); [apply Rmult_le_pos; apply Rabs_pos| |exact Q]. rewrite <- E2. apply errors_of; [apply Rle_0_sqr|].
      rewrite <- (Rabs_pos_eq (binary64 a * binary64 a)) at 3 by apply Rle_0_sqr. apply normal_error. destruct EA as [-> |EA].
      { left. rewrite (rnd_0 binary64 binary64_rounding). lra. }
      right. rewrite Rabs_mult. assert (B : bpow radix2 (-500) <= Rabs (binary64 a)).
      { unfold binary64. apply abs_round_ge_generic; [apply FLT_exp_valid; reflexivity|apply valid_rnd_N| |exact EA]. apply generic_format_bpow. cbn. lia. }
      apply Rle_trans with (bpow radix2 (-500 + -500)); [apply bpow_le; lia|]. rewrite bpow_plus. apply Rmult_le_compat; auto using bpow_ge_0. }
    destruct (sum_errors 3 (map Rsqr v) (map (fun a => binary64 (a * a)) (map binary64 v))) with (s := s) as [G PG].
    + apply Forall_forall. intros a Ha. apply in_map_iff in Ha as (b & <- & _). apply Rle_0_sqr.
    + apply rep_map. intros a. apply rep_rnd.
    + exact HS.
    + rewrite HN in G. rewrite plain_sum in G, PG by (now rewrite map_length, HL). replace (nf + 3)%nat with (1 + (3 + (nf - 1)))%nat by lia.
      eapply errors_trans; [apply sqrt_pos| |apply errors_sqrt; [exact PG|exact G]]. apply errors_of; [apply sqrt_pos|]. set (t := add_up binary64 s _) in *.
      rewrite <- (Rabs_pos_eq (sqrt t)) at 3 by apply sqrt_pos. apply normal_error, sqrt_normal; [subst t; apply rep_sum, rep_map; intros; apply rep_rnd|now apply (errors_pos _ _ _ PG G)].
  - apply max_errors. intros i. now apply HE.
Qed.
