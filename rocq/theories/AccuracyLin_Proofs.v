(** Error bounds for means and for products of rows with weights. *)
From Coq Require Import Reals Lra Psatz.
From Flocq Require Import Core.
From Verif Require Import Base KDTree_Spec Round_Spec Round_Proofs RoundMore_Proofs Round_Model Vec Accuracy_Spec Accuracy_Proofs Accuracy_Model.
Local Open Scope R_scope.
Notation u := ulp_half.
Notation eta := (bpow radix2 (-1075)).

Lemma sum_triangle v : Rabs (sum v) <= sum (map Rabs v).
Proof. induction v as [|a v IH]; unfold sum in *; cbn [map fold_right]; [rewrite Rabs_R0; lra|]. eapply Rle_trans; [apply Rabs_triang|lra]. Qed.
Lemma order_sum s v : Permutation (entries_of s) (seq 0 (length v)) -> Forall (representable binary64) v ->
  Rabs (add_up binary64 s v - sum v) <= ((1 + u) ^ (length v - 1) - 1) * sum (map Rabs v).
Proof.
  intros HP Hv. destruct (signed_sum_errors v Hv s) as [H _]. rewrite (entries_len _ _ HP) in H. rewrite plain_sum in H by exact HP. rewrite plain_sum in H by (now rewrite map_length). exact H.
Qed.
Lemma mean_accuracy s y : y <> [] -> Permutation (entries_of s) (seq 0 (length y)) -> Forall (representable binary64) y ->
  exists a, mean_r binary64 s y = Ok a /\ Rabs (a - mean_of y) <= mean_error y.
Proof.
  intros Hne HP Hy. exists (binary64 (add_up binary64 s y / INR (length y))). split; [destruct y; [congruence|reflexivity]|]. pose proof (order_sum s y HP Hy) as H.
  assert (N : 0 < INR (length y)) by (apply lt_0_INR; destruct y; [congruence|cbn; lia]). set (n := INR (length y)) in *. set (S := add_up binary64 s y) in *. set (A := sum (map Rabs y)) in *.
  assert (EP : (1 + u) ^ length y = (1 + u) * (1 + u) ^ (length y - 1)) by (destruct y as [|z y]; [congruence|]; cbn [length]; rewrite Nat.sub_0_r || idtac; replace (Datatypes.S (length y) - 1)%nat with (length y) by lia; reflexivity).
  pose proof (any_error (S / n)) as E. unfold mean_error, mean_of. rewrite map_length. fold n A. rewrite EP. set (P := (1 + u) ^ (length y - 1)) in *.
  assert (HS : Rabs (S / n - sum y / n) <= (P - 1) * (A / n)).
  { replace (S / n - sum y / n) with ((S - sum y) / n) by (field; lra). unfold Rdiv. rewrite Rabs_mult, (Rabs_pos_eq (/ n)) by (left; now apply Rinv_0_lt_compat). rewrite <- Rmult_assoc.
    apply Rmult_le_compat_r; [left; now apply Rinv_0_lt_compat|exact H]. }
  assert (HT : Rabs (sum y / n) <= A / n).
  { unfold Rdiv. rewrite Rabs_mult, (Rabs_pos_eq (/ n)) by (left; now apply Rinv_0_lt_compat). apply Rmult_le_compat_r; [left; now apply Rinv_0_lt_compat|apply sum_triangle]. }
  assert (HB : Rabs (S / n) <= P * (A / n)).
  { replace (S / n) with ((S / n - sum y / n) + sum y / n) by ring. eapply Rle_trans; [apply Rabs_triang|]. lra. }
  replace (binary64 (S / n) - sum y / n) with ((binary64 (S / n) - S / n) + (S / n - sum y / n)) by ring. eapply Rle_trans; [apply Rabs_triang|]. pose proof u_pos.
  assert (u * Rabs (S / n) <= u * (P * (A / n))) by (apply Rmult_le_compat_l; lra). lra.
Qed.
(** ** Products *)
Definition terms (r w : list R) : list R := map (fun p => fst p * snd p) (combine r w).
Lemma map2_terms r : forall w, map2 (fun a b => binary64 (a * b)) r w = map binary64 (terms r w).
Proof. unfold terms. induction r as [|a r IH]; intros [|b w]; cbn [map2 combine map fst snd]; [reflexivity|reflexivity|reflexivity|now rewrite IH]. Qed.
Lemma rounded_terms v : Rabs (sum (map binary64 v) - sum v) <= u * sum (map Rabs v) + INR (length v) * eta /\ sum (map Rabs (map binary64 v)) <= (1 + u) * sum (map Rabs v) + INR (length v) * eta.
Proof.
  induction v as [|a v [I1 I2]]; [unfold sum; cbn [map fold_right length INR]; split; [rewrite Rminus_0_r, Rabs_R0|]; lra|]. cbn [length]. rewrite S_INR. unfold sum in *. cbn [map fold_right].
  set (X := fold_right Rplus 0 (map binary64 v)) in *. set (Y := fold_right Rplus 0 v) in *. set (Z := fold_right Rplus 0 (map Rabs v)) in *. set (W := fold_right Rplus 0 (map Rabs (map binary64 v))) in *.
  pose proof (any_error a) as E. split.
  - replace (binary64 a + X - (a + Y)) with ((binary64 a - a) + (X - Y)) by ring. eapply Rle_trans; [apply Rabs_triang|]. lra.
  - assert (Rabs (binary64 a) <= Rabs (binary64 a - a) + Rabs a) by (replace (binary64 a) with ((binary64 a - a) + a) at 1 by ring; apply Rabs_triang). lra.
Qed.
Lemma product_accuracy s r w : (1 <= length r)%nat -> length r = length w -> Permutation (entries_of s) (seq 0 (length r)) ->
  let c := add_up binary64 s (map2 (fun a b => binary64 (a * b)) r w) in
  representable binary64 c /\ Rabs (c - sum (terms r w)) <= ((1 + u) ^ length r - 1) * sum (map Rabs (terms r w)) + INR (length r) * (1 + u) ^ (length r - 1) * eta.
Proof.
  intros H1 HL HP c. subst c. rewrite map2_terms. set (v := terms r w). assert (Lv : length v = length r) by (unfold v, terms; rewrite map_length, combine_length; lia).
  assert (Hr : Forall (representable binary64) (map binary64 v)) by (apply rep_map, rep_rnd). split; [now apply rep_sum|].
  pose proof (order_sum s (map binary64 v)) as H. rewrite map_length, Lv in H. specialize (H HP Hr). destruct (rounded_terms v) as [R1 R2]. rewrite Lv in R1, R2.
  set (c := add_up binary64 s (map binary64 v)) in *. set (A := sum (map Rabs v)) in *. set (n := INR (length r)) in *.
  assert (EP : (1 + u) ^ length r = (1 + u) * (1 + u) ^ (length r - 1)) by (replace (length r) with (S (length r - 1)) at 1 by lia; reflexivity). rewrite EP.
  pose proof (hi_ge_1 (length r - 1)) as G. set (P := (1 + u) ^ (length r - 1)) in *. replace (c - sum v) with ((c - sum (map binary64 v)) + (sum (map binary64 v) - sum v)) by ring.
  eapply Rle_trans; [apply Rabs_triang|]. assert ((P - 1) * sum (map Rabs (map binary64 v)) <= (P - 1) * ((1 + u) * A + n * eta)) by (apply Rmult_le_compat_l; lra). lra.
Qed.
Lemma linear_accuracy s r w b : (1 <= length r)%nat -> length r = length w -> Permutation (entries_of s) (seq 0 (length r)) -> representable binary64 b ->
  let c := add_up binary64 s (map2 (fun a b => binary64 (a * b)) r w) in
  Rabs (binary64 (c + b) - linear_value w b r) <= linear_error (length r) w b r.
Proof.
  intros H1 HL HP Hb c. destruct (product_accuracy s r w H1 HL HP) as [Hc E]. fold c in Hc, E. unfold linear_error, linear_value, linear_size. fold (terms r w).
  replace (map (fun p => Rabs (fst p * snd p)) (combine r w)) with (map Rabs (terms r w)) by (unfold terms; now rewrite map_map). pose proof (sum_triangle (terms r w)) as T.
  set (A := sum (map Rabs (terms r w))) in *. set (x := sum (terms r w)) in *. set (n := INR (length r)) in *.
  assert (EP : (1 + u) ^ length r = (1 + u) * (1 + u) ^ (length r - 1)) by (replace (length r) with (S (length r - 1)) at 1 by lia; reflexivity). cbn [pow]. rewrite EP in *.
  pose proof (hi_ge_1 (length r - 1)) as G. set (P := (1 + u) ^ (length r - 1)) in *. pose proof (add_error c b Hc Hb) as E2. pose proof u_pos as Hu.
  assert (E3 : Rabs (c + b) <= Rabs (c - x) + A + Rabs b).
  { replace (c + b) with ((c - x) + (x + b)) by ring. eapply Rle_trans; [apply Rabs_triang|]. pose proof (Rabs_triang x b). lra. }
  replace (binary64 (c + b) - (x + b)) with ((binary64 (c + b) - (c + b)) + (c - x)) by ring. eapply Rle_trans; [apply Rabs_triang|].
  assert (u * Rabs (c + b) <= u * (Rabs (c - x) + A + Rabs b)) by (apply Rmult_le_compat_l; lra).
  assert ((1 + u) * Rabs (c - x) <= (1 + u) * (((1 + u) * P - 1) * A + n * P * eta)) by (apply Rmult_le_compat_l; lra).
  assert (0 <= Rabs b) by apply Rabs_pos. assert (u * Rabs b <= ((1 + u) * ((1 + u) * P) - 1) * Rabs b) by (apply Rmult_le_compat_r; nra). lra.
Qed.
Lemma plain_accuracy s r w : (1 <= length r)%nat -> length r = length w -> Permutation (entries_of s) (seq 0 (length r)) ->
  Rabs (add_up binary64 s (map2 (fun a b => binary64 (a * b)) r w) - linear_value w 0 r) <= linear_error (length r) w 0 r.
Proof.
  intros H1 HL HP. pose proof (linear_accuracy s r w 0 H1 HL HP rep_0) as H. cbv zeta in H. rewrite Rplus_0_r in H. destruct (product_accuracy s r w H1 HL HP) as [Hc _].
  unfold representable in Hc. now rewrite Hc in H.
Qed.
