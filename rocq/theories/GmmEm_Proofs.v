(** Expectation maximisation: what a step does to the likelihood, and whole runs. *)
From Coq Require Import Reals Lra String.
From Verif Require Import Base Common_Model KDReal_Proofs Impurity_Model Impurity_Spec Impurity_Proofs Vec MathFun_Model MathFun_Proofs Stats_Model Stats_Spec Stats_Proofs LossSoftmax_Proofs
  Linear_Model LinSolve_Proofs Linear_Proofs NB_Model NB_Spec NB_Proofs Decomp_Model Decomp_Spec Decomp_Proofs DecompPca_Proofs Gmm_Model Det_Spec Gmm_Spec Chol_Proofs Gmm_Proofs.
Local Open Scope R_scope.
Set Implicit Arguments.

Lemma total_seq_nonneg n (f : nat -> R) : (forall i, (i < n)%nat -> 0 <= f i) -> 0 <= total (map f (seq 0 n)).
Proof. intro H. apply total_nonneg. intros i Hi. apply in_seq in Hi. apply H. lia. Qed.
Lemma total_seq_pos n (f : nat -> R) : (0 < n)%nat -> (forall i, (i < n)%nat -> 0 < f i) -> 0 < total (map f (seq 0 n)).
Proof.
  intros Hn H. destruct n as [|n]; [lia|]. cbn [seq map]. unfold total. cbn [fold_right]. fold (total (map f (seq 1 n))). assert (0 < f 0%nat) by (apply H; lia).
  assert (0 <= total (map f (seq 1 n))) by (apply total_nonneg; intros i Hi; apply in_seq in Hi; left; apply H; lia). lra.
Qed.
(** The weighted mean of the logarithms of the ratios is at most the logarithm of the ratio of the sums. *)
Lemma ln_ratio_bound K (t t' : nat -> R) : (0 < K)%nat -> (forall k, (k < K)%nat -> 0 < t k) -> (forall k, (k < K)%nat -> 0 < t' k) ->
  total (map (fun k => t k / total (map t (seq 0 K)) * (ln (t' k) - ln (t k))) (seq 0 K)) <= ln (total (map t' (seq 0 K))) - ln (total (map t (seq 0 K))).
Proof.
  intros PK P P'. set (T := total (map t (seq 0 K))). set (T' := total (map t' (seq 0 K))). assert (PT : 0 < T) by (now apply total_seq_pos). assert (PT' : 0 < T') by (now apply total_seq_pos).
  assert (H : total (map (fun k => t k / T * (ln (t' k) - ln (t k))) (seq 0 K)) <= total (map (fun k => (t' k * / T' - t k * / T) + t k * / T * (ln T' - ln T)) (seq 0 K))).
  { apply total_seq_le. intros k Hk. specialize (P k Hk). specialize (P' k Hk). assert (Pu : 0 < (t' k * T) * / (t k * T')) by (apply Rmult_lt_0_compat; [apply Rmult_lt_0_compat; auto|apply Rinv_0_lt_compat, Rmult_lt_0_compat; auto]).
    pose proof (ln_le_minus Pu) as B. rewrite ln_mult in B by (try apply Rinv_0_lt_compat; now apply Rmult_lt_0_compat). rewrite ln_Rinv in B by (now apply Rmult_lt_0_compat). rewrite !ln_mult in B by auto.
    assert (Q : 0 < t k / T) by (now apply Rdiv_lt_0_compat). apply (Rmult_le_compat_l (t k / T)) in B; [|lra]. replace (t k / T * (t' k * T * / (t k * T') - 1)) with (t' k * / T' - t k * / T) in B by (field; lra).
    replace (t k * / T) with (t k / T) by reflexivity. lra. }
  eapply Rle_trans; [exact H|]. rewrite total_plus, total_minus, !total_scal_r. fold T T'. rewrite !Rinv_r by lra. lra.
Qed.

(** * One direction *)
Section Direction.
  Variables (n : nat) (r t : nat -> R) (nk eps m : R).
  Hypothesis Hn : nk = total (map r (seq 0 n)) + eps.
  Hypothesis Hm : nk * m = total (map (fun i => r i * t i) (seq 0 n)).
  Lemma spread a : total (map (fun i => r i * (t i - a) ^ 2) (seq 0 n)) = total (map (fun i => r i * (t i - m) ^ 2) (seq 0 n)) + nk * (m - a) ^ 2 + eps * (m ^ 2 - a ^ 2).
  Proof.
    assert (E : forall b, total (map (fun i => r i * (t i - b) ^ 2) (seq 0 n)) = total (map (fun i => r i * t i ^ 2) (seq 0 n)) + - (2 * b) * (nk * m) + b ^ 2 * (nk - eps)).
    { intro b. rewrite (total_seq_ext _ (fun i => (r i * t i ^ 2 + - (2 * b) * (r i * t i)) + b ^ 2 * r i)) by (intros; ring). rewrite !total_plus, !total_scal. rewrite Hm. replace (nk - eps) with (total (map r (seq 0 n))) by lra. reflexivity. }
    rewrite (E a), (E m). ring.
  Qed.
End Direction.

(** * The average log density *)
Definition loglik (K d : nat) (p : params) (X : list (list R)) : R := avg (map (fun x => ln (total (terms K d p x))) X).
Lemma posterior_entry K d p X i k : (i < length X)%nat -> (k < K)%nat -> entry (map (posterior K d p) X) i k = term d p (nth i X []) k / total (terms K d p (nth i X [])).
Proof.
  intros Hi Hk. unfold entry. rewrite (nth_map (posterior K d p) X [] []) by auto. unfold posterior, normalise, terms. rewrite map_map, nth_seq_map by auto. reflexivity.
Qed.
Lemma posterior_responsibilities K d p X : (0 < K)%nat -> valid K d p -> responsibilities (length X) K (map (posterior K d p) X).
Proof.
  intros PK V. split; [|split].
  - split; [apply map_length|]. intros r Hr. apply in_map_iff in Hr. destruct Hr as (x & <- & _). unfold posterior, normalise, terms. now rewrite !map_length, seq_length.
  - intros r a Hr. apply in_map_iff in Hr. destruct Hr as (x & <- & _). apply (normalise_distribution (terms_ne d p x PK)). intros b Hb. exact (@terms_pos K d p x b V Hb).
  - intros r Hr. apply in_map_iff in Hr. destruct Hr as (x & <- & _). apply (normalise_distribution (terms_ne d p x PK)). intros b Hb. exact (@terms_pos K d p x b V Hb).
Qed.
Lemma responsibilities_ok n K resp : responsibilities n K resp -> resp_ok n K resp.
Proof. intros (S & P & T). split; [auto|]. split; [intros r a Hr Ha; left; eauto|auto]. Qed.
Lemma mass_pos n K resp k : responsibilities n K resp -> (0 < n)%nat -> (k < K)%nat -> 0 < mass resp k.
Proof.
  intros ((L & S) & P & _) Hn Hk. unfold mass. rewrite L. apply total_seq_pos; [auto|]. intros i Hi. unfold entry. assert (In (nth i resp []) resp) by (apply nth_In; lia). apply (P (nth i resp [])); [auto|]. apply nth_In. rewrite S by auto. auto.
Qed.
(** [new_params] for any regularisation: when it succeeds. *)
Lemma new_params_full_inv eps reg K d X resp p : 0 <= eps -> (0 < K)%nat -> X <> [] -> width d X -> responsibilities (length X) K resp -> new_params eps reg "full" K d X resp = Ok p ->
  p = full_params eps reg K d X resp /\ valid K d p.
Proof.
  intros Pe PK PX W HR E. assert (PN : (0 < length X)%nat) by (destruct X; [congruence|cbn; lia]). pose proof (responsibilities_ok HR) as HO. unfold new_params in E.
  destruct (estimate_parameters eps reg "full" K d X resp) as ((cs, ms), ns) eqn:EE. pose proof (@estimate_means eps reg K d X resp "full") as (E1 & E2). rewrite EE in E1, E2. cbn [fst snd] in E1, E2. subst ms ns.
  assert (C : cs = map (cov_of eps reg d X resp) (seq 0 K)).
  { unfold estimate_parameters in EE. cbn [String.eqb Ascii.eqb Bool.eqb] in EE. injection EE as <- Em En. rewrite Em, En. apply map_ext_in. intros k Hk. apply in_seq in Hk. unfold cov_of. rewrite !nth_seq_map by lia. reflexivity. }
  subst cs. unfold compute_precision_cholesky in E. rewrite (@vget_Ok matrix _ _ []) in E by (rewrite map_length, seq_length; auto). cbn [bind] in E. rewrite nth_seq_map in E by auto.
  assert (LM : forall k, length (mean_of eps d X resp k) = d) by (intro k; now apply mean_length). assert (LR : forall k, length (resp_col k resp) = length X) by (intro k; exact (@resp_col_length K X resp HO k)).
  assert (SQ : forall k, square d (cov_of eps reg d X resp k)) by (intro k; apply full_square; auto). assert (BS : forall k, bsym d (cov_of eps reg d X resp k)) by (intro k; apply full_bsym; auto).
  rewrite (proj1 (SQ 0%nat)), mapM_compose in E. destruct (mapM (fun a => precision_chol d (cov_of eps reg d X resp a)) (seq 0 K)) as [Ps| | |] eqn:EM; try discriminate. cbn [bind] in E. injection E as <-.
  assert (CH : forall k, (k < K)%nat -> exists U, chol d (cov_of eps reg d X resp k) = Some U).
  { intros k Hk. assert (In k (seq 0 K)) by (apply in_seq; lia). revert EM H. clear. generalize (seq 0 K) as l. intro l. revert Ps. induction l as [|a l IH]; intros Ps EM H; [destruct H|]. cbn [mapM] in EM.
    destruct (precision_chol d (cov_of eps reg d X resp a)) as [Q| | |] eqn:EQ; try discriminate. cbn [bind] in EM. destruct (mapM _ l) as [Qs| | |] eqn:EL; try discriminate. destruct H as [<-|H]; [|eapply IH; eauto].
    unfold precision_chol in EQ. destruct (chol d (cov_of eps reg d X resp a)); [eauto|discriminate]. }
  assert (EP : Ps = map (fun k => prec_of d (cov_of eps reg d X resp k)) (seq 0 K)).
  { rewrite (mapM_Ok _ (fun k => prec_of d (cov_of eps reg d X resp k))) in EM; [now injection EM as <-|]. intros k Hk. apply in_seq in Hk. destruct (CH k ltac:(lia)) as (U & EU). unfold precision_chol, prec_of. now rewrite EU. }
  assert (F : Params (map (mean_of eps d X resp) (seq 0 K)) (map (fun a => a / INR (length X)) (map (nk eps resp) (seq 0 K))) (map (cov_of eps reg d X resp) (seq 0 K)) Ps = full_params eps reg K d X resp) by (unfold full_params; now rewrite EP, map_map).
  split; [exact F|]. rewrite F. unfold valid, full_params. cbn [g_means g_weights g_covariances g_precisions_chol]. rewrite !map_length, !seq_length. split; [auto|]. split; [auto|]. split; [auto|]. split; [auto|]. intros k Hk. rewrite !nth_seq_map by auto.
  split. { apply Rdiv_lt_0_compat; [|now apply INR_pos]. unfold nk. pose proof (mass_pos HR PN Hk). lra. }
  destruct (CH k Hk) as (U & EU). unfold prec_of. rewrite EU. split; [auto|]. split; [auto|]. split; [auto|]. eauto.
Qed.
(** the quantities of component [k] *)
Definition gmean (p : params) k := nth k (g_means p) [].
Definition gcov (p : params) k := nth k (g_covariances p) [].
Definition gprec (d : nat) (p : params) k := outer d (nth k (g_precisions_chol p) []).
Definition gweight (p : params) k := nth k (g_weights p) 0.
Lemma valid_weight K d q k : valid K d q -> (k < K)%nat -> 0 < gweight q k.
Proof. intros (_ & _ & _ & _ & VK) Hk. apply (VK k Hk). Qed.
Lemma trace_outer d P : width d P -> trace d (outer d P) = total (map sqn P).
Proof.
  intro W. unfold trace, entry, outer. rewrite (total_seq_ext _ (fun i => total (map (fun c => nth i c 0 * nth i c 0) P))) by (intros i Hi; rewrite !nth_seq_map by auto; apply Rsum_total).
  rewrite total_swap. apply total_ext. intros c Hc. unfold sqn. rewrite (@dot_nths d) by auto. reflexivity.
Qed.
Section Ascent.
  Variables (eps reg : R) (K d : nat) (X : list (list R)) (p p' : params).
  Hypothesis Pe : 0 <= eps.
  Hypothesis PK : (0 < K)%nat.
  Hypothesis PX : X <> [].
  Hypothesis W : width d X.
  Hypothesis V : valid K d p.
  Let resp := map (posterior K d p) X.
  Hypothesis E : new_params eps reg "full" K d X resp = Ok p'.
  Hypothesis TW : total (g_weights p) = total (g_weights p').
  Let HR : responsibilities (length X) K resp := posterior_responsibilities X PK V.
  Let HO := responsibilities_ok HR.
  Let Ep' : p' = full_params eps reg K d X resp := proj1 (@new_params_full_inv eps reg K d X resp p' Pe PK PX W HR E).
  Let V' : valid K d p' := proj2 (@new_params_full_inv eps reg K d X resp p' Pe PK PX W HR E).
  Definition gain (k : nat) : R :=
    reg / 2 * (mass resp k + eps) * (trace d (gprec d p' k) - trace d (gprec d p k)) +
    eps * ((ln (det d (gcov p' k)) - ln (det d (gcov p k))) / 2 + (dot (gmean p' k) (apply (gprec d p k) (gmean p' k)) - dot (gmean p k) (apply (gprec d p k) (gmean p k))) / 2
      - (ln (gweight p' k) - ln (gweight p k))).
  Let N k := mass resp k.
  Lemma nk_positive k : (k < K)%nat -> 0 < N k + eps.
  Proof. intro Hk. pose proof (mass_pos HR ltac:(destruct X; [congruence|cbn; lia]) Hk). unfold N. lra. Qed.
  Lemma new_mean k : (k < K)%nat -> gmean p' k = mean_of eps d X resp k.
  Proof. intro Hk. unfold gmean. rewrite Ep'. unfold full_params. cbn [g_means]. now rewrite nth_seq_map. Qed.
  Lemma new_cov k : (k < K)%nat -> gcov p' k = cov_of eps reg d X resp k.
  Proof. intro Hk. unfold gcov. rewrite Ep'. unfold full_params. cbn [g_covariances]. now rewrite nth_seq_map. Qed.
  Lemma new_weight k : (k < K)%nat -> gweight p' k = (N k + eps) / INR (length X).
  Proof. intro Hk. unfold gweight. rewrite Ep'. unfold full_params. cbn [g_weights]. now rewrite nth_seq_map. Qed.
  Lemma mean_dot k c : (k < K)%nat -> (N k + eps) * dot c (gmean p' k) = total (map (fun i => entry resp i k * dot c (nth i X [])) (seq 0 (length X))).
  Proof. intro Hk. rewrite new_mean by auto. rewrite (@dot_mean eps K d X resp PK W HO). pose proof (nk_positive Hk). unfold nk. fold (N k). field. lra. Qed.
  Lemma spread_cov k c : (k < K)%nat -> length c = d ->
    total (map (fun i => entry resp i k * (dot c (nth i X []) - dot c (gmean p' k)) ^ 2) (seq 0 (length X))) = (N k + eps) * (dot c (apply (gcov p' k) c) - reg * sqn c).
  Proof.
    intros Hk Lc. rewrite new_cov, new_mean by auto. rewrite (@cov_form eps reg K d X resp PK W HO) by auto. fold (sqn c). pose proof (nk_positive Hk). unfold nk. fold (N k).
    rewrite (total_seq_ext _ (fun i => entry resp i k * (dot c (nth i X []) - dot c (mean_of eps d X resp k)) * (dot c (nth i X []) - dot c (mean_of eps d X resp k)))) by (intros; ring). field. lra.
  Qed.
  Lemma mass_total k : N k = total (map (fun i => entry resp i k) (seq 0 (length X))).
  Proof. unfold N, mass. pose proof (proj1 (proj1 HR)) as L. now rewrite L. Qed.
  Definition dist (q : params) (k i : nat) : R := Rsum (map (fun c => sq (dot (nth i X []) c - dot (gmean q k) c)) (nth k (g_precisions_chol q) [])).
  Lemma ln_term q k i : valid K d q -> (k < K)%nat -> (i < length X)%nat ->
    ln (term d q (nth i X []) k) = ln (gweight q k) + INR d * ln (2 * PI) * (- (1 / 2)) - ln (det d (gcov q k)) / 2 - dist q k i / 2.
  Proof.
    intros Vq Hk Hi. assert (Vq' := Vq). destruct Vq' as (_ & _ & _ & _ & VK). destruct (VK k Hk) as (Pw & C). unfold term. rewrite ln_mult by (auto; now apply gaussian_pos).
    assert (LX : length (nth i X []) = d) by (apply W, nth_In; auto). rewrite <- (component_log (nth i X []) C LX). unfold gweight, dist, gmean, gcov. destruct C as (Lm & Q & B & U & EU & EP). rewrite EP at 2. rewrite (log_det_factor Q B EU). destruct (det_factor Q B EU) as (_ & LD). rewrite LD. field.
  Qed.
  (** new distances *)
  Lemma new_dist k : (k < K)%nat -> total (map (fun i => entry resp i k * dist p' k i) (seq 0 (length X))) = (N k + eps) * (INR d - reg * trace d (gprec d p' k)).
  Proof.
    intro Hk. destruct V' as (_ & _ & _ & _ & VK). destruct (VK k Hk) as (Pw & (Lm & Q & B & U & EU & EP)). unfold gprec. set (P := nth k (g_precisions_chol p') []) in *.
    assert (WP : width d P) by (rewrite EP; exact (factor_width Q B EU)). rewrite trace_outer by auto. unfold dist. fold P.
    rewrite (total_seq_ext _ (fun i => total (map (fun c => entry resp i k * (dot c (nth i X []) - dot c (gmean p' k)) ^ 2) P))).
    2: { intros i Hi. rewrite Rsum_total, <- total_scal. apply total_ext. intros c Hc. unfold sq. rewrite (dot_comm (nth i X [])), (dot_comm (gmean p' k)). ring. }
    rewrite total_swap. rewrite (total_ext _ (fun c => (N k + eps) * (dot c (apply (gcov p' k) c) - reg * sqn c))) by (intros c Hc; apply spread_cov; auto).
    rewrite total_scal, total_minus, total_scal. do 2 f_equal. rewrite EP, (total_rows [] _ (map _ (seq 0 d))). rewrite map_length, seq_length. rewrite (total_seq_ext _ (fun _ => 1)) by (intros j Hj; exact (factor_unit Q B EU Hj)). rewrite total_const, seq_length. ring.
  Qed.
  (** old distances *)
  Lemma old_dist k : (k < K)%nat -> (N k + eps) * (INR d + ln (det d (gcov p' k)) - ln (det d (gcov p k)) - reg * trace d (gprec d p k)) +
      eps * (dot (gmean p' k) (apply (gprec d p k) (gmean p' k)) - dot (gmean p k) (apply (gprec d p k) (gmean p k))) <= total (map (fun i => entry resp i k * dist p k i) (seq 0 (length X))).
  Proof.
    intro Hk. pose proof (nk_positive Hk) as PN. assert (V1 := V). destruct V1 as (_ & _ & _ & _ & VK). destruct (VK k Hk) as (Pw & (Lm & Q & B & U & EU & EP)). destruct V' as (_ & _ & _ & _ & VK'). destruct (VK' k Hk) as (Pw' & (Lm' & Q' & B' & U' & EU' & EP')).
    unfold gprec. set (P := nth k (g_precisions_chol p) []) in *. assert (WP : width d P) by (rewrite EP; exact (factor_width Q B EU)). rewrite trace_outer by auto.
    assert (QF : forall v, length v = d -> dot v (apply (outer d P) v) = total (map (fun c => dot c v ^ 2) P)).
    { intros v Lv. rewrite EP. rewrite <- (whiten_sqn Q B EU) by auto. rewrite sqn_sum. unfold whiten. rewrite map_map. apply total_ext. intros c Hc. rewrite (dot_comm v). ring. }
    unfold gmean. rewrite !QF by auto. fold (gmean p k) (gmean p' k). unfold dist. fold P.
    rewrite (total_seq_ext (fun i => entry resp i k * Rsum (map (fun c => sq (dot (nth i X []) c - dot (gmean p k) c)) P)) (fun i => total (map (fun c => entry resp i k * (dot c (nth i X []) - dot c (gmean p k)) ^ 2) P))).
    2: { intros i Hi. rewrite Rsum_total, <- total_scal. apply total_ext. intros c Hc. unfold sq. rewrite (dot_comm (nth i X [])), (dot_comm (gmean p k)). ring. }
    rewrite total_swap.
    rewrite (total_ext (fun c => total (map (fun i => entry resp i k * (dot c (nth i X []) - dot c (gmean p k)) ^ 2) (seq 0 (length X)))) (fun c => (N k + eps) * (dot c (apply (gcov p' k) c) - reg * sqn c) + (N k + eps) * (dot c (gmean p' k) - dot c (gmean p k)) ^ 2 + eps * (dot c (gmean p' k) ^ 2 - dot c (gmean p k) ^ 2))).
    2: { intros c Hc. rewrite (@spread (length X) (fun i => entry resp i k) (fun i => dot c (nth i X [])) (N k + eps) eps (dot c (gmean p' k))) by (try (rewrite mass_total; ring); now apply mean_dot). now rewrite spread_cov by auto. }
    rewrite !total_plus, !total_scal, !total_minus, total_scal.
    assert (T := trace_bound Q B EU Q' B' EU'). cbv zeta in T. rewrite <- EP in T. destruct (det_factor Q B EU) as (_ & LD). destruct (det_factor Q' B' EU') as (_ & LD'). fold (gcov p k) in LD. fold (gcov p' k) in LD', T. rewrite LD, LD'.
    assert (S : 0 <= total (map (fun c => (dot c (gmean p' k) - dot c (gmean p k)) ^ 2) P)) by (apply total_nonneg; intros; apply pow2_ge_0).
    apply (Rmult_le_compat_l (N k + eps)) in T; [|lra]. apply (Rmult_le_compat_l (N k + eps)) in S; [|lra]. rewrite Rmult_0_r in S. lra.
  Qed.
  Lemma ascent : total (map gain (seq 0 K)) <= INR (length X) * (loglik K d p' X - loglik K d p X).
  Proof.
    pose proof (INR_pos PX) as Pn.
    assert (A : forall q, INR (length X) * loglik K d q X = total (map (fun i => ln (total (terms K d q (nth i X [])))) (seq 0 (length X)))).
    { intro q. unfold loglik, avg. rewrite map_length. rewrite (total_rows [] (fun x => ln (total (terms K d q x))) X). field. lra. }
    rewrite Rmult_minus_distr_l, !A. rewrite <- total_minus.
    apply Rle_trans with (total (map (fun i => total (map (fun k => entry resp i k * (ln (term d p' (nth i X []) k) - ln (term d p (nth i X []) k))) (seq 0 K))) (seq 0 (length X)))).
    2: { apply total_seq_le. intros i Hi. pose proof (@ln_ratio_bound K (term d p (nth i X [])) (term d p' (nth i X [])) PK (fun k Hk => term_pos _ V Hk) (fun k Hk => term_pos _ V' Hk)) as H. fold (terms K d p (nth i X [])) in H. fold (terms K d p' (nth i X [])) in H.
      eapply Rle_trans; [|exact H]. apply Req_le. apply total_seq_ext. intros k Hk. unfold resp. now rewrite posterior_entry by auto. }
    rewrite total_swap.
    (* Gibbs: the weights *)
    assert (G : 0 <= total (map (fun k => (N k + eps) * (ln (gweight p' k) - ln (gweight p k))) (seq 0 K))).
    { assert (Wp : forall q, valid K d q -> total (g_weights q) = total (map (gweight q) (seq 0 K))) by (intros q (_ & LW & _); rewrite <- LW; unfold gweight; rewrite <- (list_as_nths 0); auto).
      rewrite (Wp p V), (Wp p' V') in TW. assert (P1 : forall k, (k < K)%nat -> 0 < gweight p k) by (intros k Hk; exact (valid_weight V Hk)). assert (P2 : forall k, (k < K)%nat -> 0 < gweight p' k) by (intros k Hk; exact (valid_weight V' Hk)).
      pose proof (@ln_ratio_bound K (gweight p') (gweight p) PK P2 P1) as H. rewrite TW in H. set (T := total (map (gweight p') (seq 0 K))) in *. assert (PT : 0 < T) by (now apply total_seq_pos). replace (ln T - ln T) with 0 in H by ring.
      rewrite (total_seq_ext (fun k => (N k + eps) * (ln (gweight p' k) - ln (gweight p k))) (fun k => - (INR (length X) * T) * (gweight p' k / T * (ln (gweight p k) - ln (gweight p' k))))).
      2: { intros k Hk. rewrite new_weight at 2 by auto. field. lra. }
      rewrite total_scal. assert (0 < INR (length X) * T) by (now apply Rmult_lt_0_compat). nra. }
    apply Rle_trans with (total (map gain (seq 0 K)) + total (map (fun k => (N k + eps) * (ln (gweight p' k) - ln (gweight p k))) (seq 0 K))); [lra|].
    rewrite <- total_plus. apply total_seq_le. intros k Hk.
    rewrite (total_seq_ext _ (fun i => (ln (gweight p' k) - ln (gweight p k) - ln (det d (gcov p' k)) / 2 + ln (det d (gcov p k)) / 2) * entry resp i k + (- (1 / 2) * (entry resp i k * dist p' k i) + 1 / 2 * (entry resp i k * dist p k i)))).
    2: { intros i Hi. rewrite !ln_term by auto. field. }
    rewrite !total_plus, !total_scal, <- mass_total, new_dist by auto. pose proof (old_dist Hk) as O. unfold gain. fold (N k). lra.
  Qed.
End Ascent.
