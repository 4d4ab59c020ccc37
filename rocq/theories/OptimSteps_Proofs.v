(** Single steps: schedules, update policies, SAG table, truncation, coordinate descent. *)
From Coq Require Import Reals Lra Psatz.
From Verif Require Import Base Common_Model RDR_Proofs KDReal_Proofs Impurity_Spec Impurity_Model Impurity_Proofs Vec Loss_Model
  Shuffle_Model Shuffle_Proofs Optim_Model Optim_Spec Optim_Proofs.
Local Open Scope R_scope.
Set Implicit Arguments.

(** ** Invariants of a whole run *)
Section Inv.
  Context {Row Lab S : Type}.
  Variable step : S -> R -> nat -> list Row -> list Lab -> outcome (S * R).
  Variable decay : nat -> outcome R.
  Variable perm : nat -> list nat.
  Variable shuffle : bool.
  Variable bs N : nat.
  Variable tol : R.
  Variable I : S -> Prop.
  Variable n : nat.
  Hypothesis Hstep : forall s lr j X y s' l, I s -> (j < n / bs)%nat -> step s lr j X y = Ok (s', l) -> I s'.

  Lemma foldM_I lr X y js s hs r : (forall j, In j js -> (j < n / bs)%nat) -> I s ->
    foldM (run_batch step bs lr X y) js (s, hs) = Ok r -> I (fst r).
  Proof.
    revert s hs; induction js as [|j js IH]; intros s hs Hj Is H; cbn [foldM] in H; [injection H as <-; auto|].
    unfold run_batch at 1 in H. destruct (middle_rows X _ _); try discriminate. cbn [bind] in H.
    destruct (middle_rows y _ _); try discriminate. cbn [bind fst snd] in H.
    destruct (step s lr j _ _) as [[s' l]| | |] eqn:E; try discriminate. cbn [bind fst snd] in H.
    eapply IH; [|eapply Hstep; [exact Is|apply Hj; cbn; auto|exact E]|exact H]. intros; apply Hj; cbn; auto.
  Qed.
  Lemma permute_length {A} p (x x' : list A) : permute p x = Ok x' -> length x' = length x.
  Proof. unfold permute. destruct (_ =? _)%nat; [|discriminate]. intro H; injection H as <-. apply fold_set_length. Qed.
  Lemma epochs_I iters X y best count s r : length X = n -> I s ->
    epochs step decay perm shuffle bs N tol iters X y best count s = Ok r -> I r.
  Proof.
    revert X y best count s; induction iters as [|i iters IH]; intros X y best count s L Is H; cbn [epochs] in H; [discriminate|].
    destruct (reshuffle _ _ _ _ _) as [[X' y']| | |] eqn:Er; try discriminate. cbn [bind fst snd] in H.
    assert (L' : length X' = n).
    { unfold reshuffle, shuffle_data2 in Er. destruct shuffle; [|injection Er as <- <-; auto].
      destruct (permute (perm i) X) eqn:E1; try discriminate. cbn in Er. destruct (permute (perm i) y); try discriminate. cbn in Er.
      injection Er as <- <-. apply permute_length in E1. congruence. }
    destruct (run_epoch _ _ _ _ _ _ _) as [[s' L1]| | |] eqn:Ee; try discriminate. cbn [bind fst snd] in H.
    assert (Is' : I s').
    { unfold run_epoch in Ee. destruct (decay i) as [lr| | |]; try discriminate. cbn [bind] in Ee.
      destruct (foldM _ _ _) as [q| | |] eqn:F; try discriminate. cbn [bind] in Ee. injection Ee as <- _.
      eapply foldM_I; [|exact Is|exact F]. intros j Hj. apply in_seq in Hj. rewrite L' in Hj. lia. }
    destruct (N <=? _)%nat; [injection H as <-; auto|]. eapply IH; eauto.
  Qed.
  Lemma optimize_I max_iter X y s r : length X = n -> I s -> optimize step decay perm shuffle bs N tol max_iter X y s = Ok r -> I r.
  Proof. intros L Is H. unfold optimize in H. destruct (bs =? 0)%nat; [discriminate|]. eapply epochs_I; eauto. Qed.
End Inv.

(** ** Schedules *)
Lemma step_rate_unique base gamma step epoch r r' : step_rate base gamma step epoch r -> step_rate base gamma step epoch r' -> r = r'.
Proof.
  intros (q & Hq & ->) (q' & Hq' & ->). assert (q = q') by nia. subst; auto.
Qed.
Lemma step_decay_rate base gamma step epoch : (0 < step)%nat ->
  exists r, step_decay base gamma step epoch = Ok r /\ step_rate base gamma step (epoch + 1) r.
Proof.
  intro P. unfold step_decay. destruct (step =? 0)%nat eqn:E; [apply Nat.eqb_eq in E; lia|]. eexists; split; [reflexivity|].
  exists ((1 + epoch) / step)%nat. split; [|reflexivity].
  pose proof (Nat.div_mod_eq (1 + epoch) step). pose proof (Nat.mod_upper_bound (1 + epoch) step ltac:(lia)). nia.
Qed.
Lemma pow_anti g a b : 0 <= g <= 1 -> (a <= b)%nat -> g ^ b <= g ^ a.
Proof.
  intros G H. induction H as [|b H IH]; [lra|]. cbn [pow]. pose proof (pow_le g b (proj1 G)). nra.
Qed.
Lemma step_rate_mono base gamma step e e' r r' : 0 <= base -> 0 <= gamma <= 1 -> (e <= e')%nat ->
  step_rate base gamma step e r -> step_rate base gamma step e' r' -> r' <= r.
Proof.
  intros B G L (q & Hq & ->) (q' & Hq' & ->). assert (q <= q')%nat by nia. apply Rmult_le_compat_l; auto. apply pow_anti; auto.
Qed.

(** ** Update policies *)
Lemma sub_Ok u v : length u = length v -> sub u v = Ok (vsub u v).
Proof. intro H; unfold sub; rewrite H, Nat.eqb_refl; auto. Qed.
Lemma add_Ok u v : length u = length v -> add u v = Ok (vadd u v).
Proof. intro H; unfold add; rewrite H, Nat.eqb_refl; auto. Qed.
Lemma sub_inv u v w : sub u v = Ok w -> length u = length v /\ w = vsub u v.
Proof. unfold sub. destruct (_ =? _)%nat eqn:E; [|discriminate]. apply Nat.eqb_eq in E. intro H; injection H as <-; auto. Qed.
Lemma add_inv u v w : add u v = Ok w -> length u = length v /\ w = vadd u v.
Proof. unfold add. destruct (_ =? _)%nat eqn:E; [|discriminate]. apply Nat.eqb_eq in E. intro H; injection H as <-; auto. Qed.

Lemma vadd_zeros n v : length v = n -> vadd (zeros n) v = v.
Proof. revert v; induction n as [|n IH]; intros [|a v] H; cbn in *; try easy. f_equal; [lra|]. apply IH; lia. Qed.
Lemma map_zeros (f : R -> R) n : f 0 = 0 -> map f (zeros n) = zeros n.
Proof. intro F; induction n as [|n IH]; cbn; auto. rewrite F. f_equal; exact IH. Qed.

Lemma momentum_is_vanilla mu W g lr : momentum_update mu W g lr = vanilla_update W g lr.
Proof.
  unfold momentum_update, vanilla_update. rewrite map_zeros by ring.
  destruct (Nat.eq_dec (length W) (length g)) as [E|E].
  - rewrite add_Ok by (rewrite zeros_length, map_length; auto). cbn [bind].
    rewrite vadd_zeros by (rewrite map_length; auto). f_equal. apply map_ext; intro; ring.
  - unfold add, sub, vscale. rewrite zeros_length, !map_length. apply Nat.eqb_neq in E; rewrite E. auto.
Qed.
Lemma nesterov_is_scaled mu W g lr : nesterov_update mu W g lr = vanilla_update W g ((1 + mu) * lr).
Proof.
  unfold nesterov_update, vanilla_update.
  assert (Z : vscale mu (zeros (length W)) = zeros (length W)) by (apply map_zeros; ring). rewrite Z.
  destruct (Nat.eq_dec (length W) (length g)) as [E|E].
  - rewrite add_Ok by (rewrite zeros_length, vscale_length; auto). cbn [bind]. rewrite vadd_zeros by (rewrite vscale_length; auto).
    rewrite sub_Ok by (rewrite vscale_length, zeros_length; auto). cbn [bind].
    assert (D : vsub (vscale lr g) (zeros (length W)) = vscale lr g).
    { rewrite E. clear. induction g as [|a g IH]; cbn; auto. f_equal; [lra|exact IH]. }
    rewrite D, add_Ok by (rewrite !vscale_length; auto). cbn [bind]. f_equal.
    clear. induction g as [|a g IH]; cbn; auto. f_equal; [lra|apply IH].
  - unfold add at 1, sub. rewrite zeros_length, !vscale_length. apply Nat.eqb_neq in E; rewrite E. auto.
Qed.

Lemma nth_vsub u v i : length u = length v -> nth i (vsub u v) 0 = nth i u 0 - nth i v 0.
Proof.
  revert v i; induction u as [|a u IH]; intros [|b v] [|i] H; cbn in *; try easy; try lra; try (apply IH; lia).
Qed.
Lemma nth_vadd u v i : length u = length v -> nth i (vadd u v) 0 = nth i u 0 + nth i v 0.
Proof.
  revert v i; induction u as [|a u IH]; intros [|b v] [|i] H; cbn in *; try easy; try lra; try (apply IH; lia).
Qed.
Lemma nth_map0 (f : R -> R) v i : f 0 = 0 -> nth i (map f v) 0 = f (nth i v 0).
Proof. intro F. transitivity (nth i (map f v) (f 0)); [congruence|apply map_nth]. Qed.
Lemma nth_vscale c v i : nth i (vscale c v) 0 = c * nth i v 0.
Proof. apply nth_map0; ring. Qed.
Lemma nth_zeros n i : nth i (zeros n) 0 = 0.
Proof. revert i; induction n as [|n IH]; intros [|i]; cbn; auto. Qed.

(** ** SAG *)
Lemma total_set_nth {A} (f : A -> R) (l : list A) j a b : nth_error l j = Some b ->
  total (map f (set_nth l j a)) = total (map f l) - f b + f a.
Proof.
  revert j; induction l as [|c l IH]; intros [|j] H; cbn in *; try easy.
  - injection H as ->. lra.
  - specialize (IH _ H). fold (total (map f l)). fold (total (map f (set_nth l j a))). rewrite IH. lra.
Qed.
Lemma total_repeat_zero {A} (f : A -> R) a n : f a = 0 -> total (map f (repeat a n)) = 0.
Proof. intro F; induction n as [|n IH]; cbn; auto. fold (total (map f (repeat a n))). rewrite IH, F. lra. Qed.

Section Sag.
  Context {Row Lab : Type}.
  Variable gradient : list Row -> list Lab -> list R -> outcome (list R).
  Variable evaluate : list Row -> list Lab -> list R -> outcome R.
  Variable update : list R -> list R -> R -> outcome (list R).
  Variable bs : nat.
  Hypothesis Hbs : (0 < bs)%nat.

  (** What happened so far: slot and clipped gradient of each step, most recent first. *)
  Inductive sag_trace (init : sag_state) : list (nat * list R) -> sag_state -> Prop :=
  | sag_start : sag_trace init [] init
  | sag_more log s lr j X y g s' l : sag_trace init log s -> gradient X y (sg_w s) = Ok g ->
      sag_step gradient evaluate update bs s lr j X y = Ok (s', l) -> sag_trace init ((j, clip_grad g) :: log) s'.

  Lemma sag_step_inv s lr j X y s' l : sag_step gradient evaluate update bs s lr j X y = Ok (s', l) ->
    exists g old, gradient X y (sg_w s) = Ok g /\ nth_error (sg_hist s) j = Some old /\
      length g = length old /\ length (sg_avg s) = length g /\
      sg_avg s' = vadd (sg_avg s) (map (fun a => a / INR bs) (vsub (clip_grad g) old)) /\
      sg_hist s' = set_nth (sg_hist s) j (clip_grad g) /\
      update (sg_w s) (sg_avg s') lr = Ok (sg_w s') /\ evaluate X y (sg_w s') = Ok l.
  Proof.
    unfold sag_step. intro H. destruct (gradient X y (sg_w s)) as [g| | |]; try discriminate. cbn [bind] in H.
    unfold vget in H. destruct (nth_error (sg_hist s) j) as [old|] eqn:Eo; try discriminate. cbn [bind] in H.
    destruct (sub (clip_grad g) old) as [d| | |] eqn:Ed; try discriminate. cbn [bind] in H. apply sub_inv in Ed. destruct Ed as (L1 & ->).
    unfold clip_grad in L1; rewrite map_length in L1. fold (clip_grad g) in *.
    destruct (add _ _) as [a| | |] eqn:Ea; try discriminate. cbn [bind] in H. apply add_inv in Ea. destruct Ea as (L2 & ->).
    rewrite map_length, vsub_length in L2 by (unfold clip_grad; rewrite map_length; auto). unfold clip_grad in L2; rewrite map_length in L2. fold (clip_grad g) in *.
    destruct (update _ _ _) as [w| | |] eqn:Ew; try discriminate. cbn [bind] in H.
    destruct (evaluate X y w) as [e| | |] eqn:Ee; try discriminate. cbn [bind] in H. injection H as <- <-.
    exists g, old. cbn. repeat (split; auto).
  Qed.

  Lemma sag_trace_inv w d nb log s : sag_trace (sag_init w d nb) log s ->
    length (sg_hist s) = nb /\ length (sg_avg s) = d /\
    (forall i, nth i (sg_avg s) 0 * INR bs = total (map (fun h => nth i h 0) (sg_hist s))) /\
    (forall j, (j < nb)%nat -> nth_error (sg_hist s) j = Some (latest log j (zeros d))).
  Proof.
    assert (P : INR bs <> 0) by (apply not_0_INR; lia).
    intro T; induction T as [|log s lr j X y g s' l T IH Eg Es].
    - cbn. split; [apply repeat_length|]. split; [apply zeros_length|]. split.
      + intro i. rewrite nth_zeros, Rmult_0_l, total_repeat_zero; auto. apply nth_zeros.
      + intros j Hj. apply nth_error_repeat; auto.
    - destruct IH as (L & La & A & H). destruct (sag_step_inv _ _ _ _ _ Es) as (g' & old & Eg' & Eo & L1 & L2 & Ea & Eh & _).
      rewrite Eg in Eg'; injection Eg' as <-.
      assert (Lc : length (clip_grad g) = length g) by (unfold clip_grad; apply map_length).
      rewrite Eh, Ea. split; [rewrite set_nth_length; auto|]. split; [rewrite vadd_length; auto; rewrite map_length, vsub_length; congruence|].
      split.
      + intro i. rewrite nth_vadd by (rewrite map_length, vsub_length; congruence).
        rewrite nth_map0 by (unfold Rdiv; ring). rewrite nth_vsub by congruence.
        rewrite (@total_set_nth (list R) (fun h => nth i h 0) (sg_hist s) j (clip_grad g) old Eo), <- A. field. auto.
      + intros k Hk. cbn [latest]. destruct (j =? k)%nat eqn:E.
        * apply Nat.eqb_eq in E; subst. apply set_nth_same. congruence.
        * apply Nat.eqb_neq in E. rewrite set_nth_other by auto. auto.
  Qed.
End Sag.

(** ** Truncation *)
Lemma Rabs_cases a : (0 <= a /\ Rabs a = a) \/ (a < 0 /\ Rabs a = - a).
Proof. destruct (Rle_lt_dec 0 a); [left; split; auto; apply Rabs_right; lra|right; split; auto; apply Rabs_left; lra]. Qed.

Lemma truncate1_spec M w : 0 <= M ->
  let v := truncate1 M w 0 in
  soft_threshold M w v /\ 0 <= v * w /\ Rabs w - M <= Rabs v <= Rabs w /\ (Rabs w <= M -> v = 0) /\ (M < Rabs w -> Rabs v = Rabs w - M).
Proof.
  intros HM v. unfold v, truncate1, soft_threshold.
  destruct (Rltb 0 w) eqn:E1; [apply Rltb_true in E1|apply Rltb_false in E1; destruct (Rltb w 0) eqn:E2; [apply Rltb_true in E2|apply Rltb_false in E2]].
  - unfold Rmax. destruct (Rle_dec 0 (w - (M + 0))) as [L|L].
    + rewrite (Rabs_right w), (Rabs_right (w - (M + 0))) by lra. split; [|repeat split; try lra; nra].
      intros u Hu. assert (0 < (u - (w - (M + 0))) * (u - (w - (M + 0)))) by nra. destruct (Rabs_cases u) as [(U & ->)|(U & ->)]; nra.
    + rewrite (Rabs_right w), Rabs_R0 by lra. split; [|repeat split; try lra; nra].
      intros u Hu. assert (0 < u * u) by nra. destruct (Rabs_cases u) as [(U & ->)|(U & ->)]; nra.
  - unfold Rmin. destruct (Rle_dec 0 (w + (M - 0))) as [L|L].
    + rewrite (Rabs_left w), Rabs_R0 by lra. split; [|repeat split; try lra; nra].
      intros u Hu. assert (0 < u * u) by nra. destruct (Rabs_cases u) as [(U & ->)|(U & ->)]; nra.
    + rewrite (Rabs_left w), (Rabs_left (w + (M - 0))) by lra. split; [|repeat split; try lra; nra].
      intros u Hu. assert (0 < (u - (w + (M - 0))) * (u - (w + (M - 0)))) by nra. destruct (Rabs_cases u) as [(U & ->)|(U & ->)]; nra.
  - assert (w = 0) by lra; subst w. rewrite Rabs_R0. split; [|repeat split; try lra].
    intros u Hu. assert (0 < u * u) by nra. destruct (Rabs_cases u) as [(U & ->)|(U & ->)]; nra.
Qed.

(** ** Coordinate descent *)
Definition model1 (lambda beta x g eta : R) : R := g * eta + beta / 2 * eta * eta + lambda * Rabs (x + eta).

Lemma scd_eta_min lambda beta x g u : 0 < beta -> 0 <= lambda ->
  let eta := scd_eta lambda beta x g in
  model1 lambda beta x g eta + beta / 2 * ((u - eta) * (u - eta)) <= model1 lambda beta x g u.
Proof.
  intros B L eta. unfold eta, scd_eta, model1.
  set (gb := g / beta). set (lb := lambda / beta).
  assert (Eg : g = beta * gb) by (unfold gb; field; lra). assert (El : lambda = beta * lb) by (unfold lb; field; lra).
  assert (Lb : 0 <= lb) by (unfold lb; apply Rmult_le_pos; [lra|left; apply Rinv_0_lt_compat; lra]).
  replace (- g / beta) with (- gb) by (unfold gb; field; lra). replace (- lambda / beta) with (- lb) by (unfold lb; field; lra).
  clearbody gb lb. subst g lambda. clear eta L.
  assert (K : forall e, (forall t, gb * t + / 2 * t * t + lb * Rabs (x + t) >= gb * e + / 2 * e * e + lb * Rabs (x + e) + / 2 * ((t - e) * (t - e))) ->
     beta * gb * e + beta / 2 * e * e + beta * lb * Rabs (x + e) + beta / 2 * ((u - e) * (u - e)) <= beta * gb * u + beta / 2 * u * u + beta * lb * Rabs (x + u)).
  { intros e H. specialize (H u). apply Rge_le in H. apply Rmult_le_compat_l with (r := beta) in H; [|lra]. lra. }
  destruct (Rltb lb (x - gb)) eqn:E1; [apply Rltb_true in E1|apply Rltb_false in E1; destruct (Rltb (x - gb) (- lb)) eqn:E2; [apply Rltb_true in E2|apply Rltb_false in E2]]; apply K; intro t.
  - rewrite (Rabs_right (x + (- gb - lb))) by lra. destruct (Rabs_cases (x + t)) as [(U & ->)|(U & ->)]; nra.
  - rewrite (Rabs_left (x + (- gb + lb))) by lra. destruct (Rabs_cases (x + t)) as [(U & ->)|(U & ->)]; nra.
  - replace (x + - x) with 0 by ring. rewrite Rabs_R0. destruct (Rabs_cases (x + t)) as [(U & ->)|(U & ->)]; nra.
Qed.

Lemma scd_descent_model lambda beta x g eta : scd_descent lambda beta x g eta = model1 lambda beta x g 0 - model1 lambda beta x g eta.
Proof. unfold scd_descent, model1. rewrite Rplus_0_r. unfold Rdiv. ring. Qed.

Lemma scd_descent_lower lambda beta x g : 0 < beta -> 0 <= lambda ->
  beta / 2 * (scd_eta lambda beta x g * scd_eta lambda beta x g) <= scd_descent lambda beta x g (scd_eta lambda beta x g).
Proof.
  intros B L. rewrite scd_descent_model. pose proof (scd_eta_min x g 0 B L) as H. cbv zeta in H. lra.
Qed.

(** No step in a coordinate means that zero is a subgradient there. *)
Lemma scd_eta_zero lambda beta x g : 0 < beta -> 0 <= lambda -> scd_eta lambda beta x g = 0 ->
  forall t, 0 <= g * t + lambda * Rabs (x + t) - lambda * Rabs x.
Proof.
  intros B L E t. unfold scd_eta in E.
  set (gb := g / beta) in *. set (lb := lambda / beta) in *.
  assert (Eg : g = beta * gb) by (unfold gb; field; lra). assert (El : lambda = beta * lb) by (unfold lb; field; lra).
  assert (Lb : 0 <= lb) by (unfold lb; apply Rmult_le_pos; [lra|left; apply Rinv_0_lt_compat; lra]).
  replace (- g / beta) with (- gb) in E by (unfold gb; field; lra). replace (- lambda / beta) with (- lb) in E by (unfold lb; field; lra).
  clearbody gb lb. subst g lambda.
  assert (K : 0 <= gb * t + lb * Rabs (x + t) - lb * Rabs x -> 0 <= beta * gb * t + beta * lb * Rabs (x + t) - beta * lb * Rabs x).
  { intro H. apply Rmult_le_compat_l with (r := beta) in H; lra. }
  apply K.
  destruct (Rltb lb (x - gb)) eqn:E1; [apply Rltb_true in E1|apply Rltb_false in E1; destruct (Rltb (x - gb) (- lb)) eqn:E2; [apply Rltb_true in E2|apply Rltb_false in E2]].
  - rewrite (Rabs_right x) by lra. destruct (Rabs_cases (x + t)) as [(U & ->)|(U & ->)]; nra.
  - rewrite (Rabs_left x) by lra. destruct (Rabs_cases (x + t)) as [(U & ->)|(U & ->)]; nra.
  - assert (x = 0) by lra; subst x. rewrite Rabs_R0, Rplus_0_l. destruct (Rabs_cases t) as [(U & ->)|(U & ->)]; nra.
Qed.

Section Scd.
  Variable lambda beta : R.
  Hypothesis HB : 0 < beta.
  Hypothesis HL : 0 <= lambda.
  Definition eta_at (w g : list R) (j : nat) : R := scd_eta lambda beta (nth j w 0) (nth j g 0).
  Definition descent_at (w g : list R) (j : nat) : R := scd_descent lambda beta (nth j w 0) (nth j g 0) (eta_at w g j).

  Lemma descent_nonneg w g j : 0 <= descent_at w g j.
  Proof. pose proof (scd_descent_lower (nth j w 0) (nth j g 0) HB HL). unfold descent_at, eta_at. nra. Qed.

  Lemma pick_spec w g m : (m <= length w)%nat -> (m <= length g)%nat -> (0 < m)%nat ->
    exists j, (j < m)%nat /\ foldM (scd_pick lambda beta w g) (seq 0 m) (-1, 0%nat, 0) = Ok (descent_at w g j, j, eta_at w g j) /\
      (forall i, (i < m)%nat -> descent_at w g i <= descent_at w g j) /\ (forall i, (i < j)%nat -> descent_at w g i < descent_at w g j).
  Proof.
    induction m as [|m IH]; [lia|]. intros Hw Hg _. rewrite seq_S, foldM_app. cbn [Nat.add].
    assert (St : forall b, foldM (scd_pick lambda beta w g) [m] b = Ok (if Rltb (fst (fst b)) (descent_at w g m) then (descent_at w g m, m, eta_at w g m) else b)).
    { intro b. cbn [foldM]. unfold scd_pick. rewrite (@vget_Ok R w m 0) by lia. cbn [bind]. rewrite (@vget_Ok R g m 0) by lia. cbn [bind].
      fold (eta_at w g m). fold (descent_at w g m). destruct (Rltb _ _); auto. }
    destruct (Nat.eq_dec m 0) as [->|Hm].
    - change (foldM (scd_pick lambda beta w g) (seq 0 0) (-1, 0%nat, 0)) with (@Ok (R * nat * R) (-1, 0%nat, 0)). cbn [bind]. rewrite St. cbn [fst]. pose proof (descent_nonneg w g 0).
      assert (E : Rltb (-1) (descent_at w g 0) = true) by (apply Rltb_true; lra). rewrite E.
      exists 0%nat. split; [lia|]. split; auto. split; [|intros; lia]. intros i Hi. assert (i = 0)%nat as -> by lia. lra.
    - destruct IH as (j & Hj & E & M & F); try lia. rewrite E. cbn [bind]. rewrite St. cbn [fst].
      destruct (Rltb (descent_at w g j) (descent_at w g m)) eqn:C.
      + apply Rltb_true in C. exists m. split; [lia|]. split; auto. split.
        * intros i Hi. assert (i = m \/ i < m)%nat as [->|K] by lia; [lra|]. specialize (M i K). lra.
        * intros i Hi. specialize (M i Hi). lra.
      + apply Rltb_false in C. exists j. split; [lia|]. split; auto. split; auto.
        intros i Hi. assert (i = m \/ i < m)%nat as [->|K] by lia; [lra|]. auto.
  Qed.

  Lemma moved_set_nth w j e : (j < length w)%nat -> moved w j e (set_nth w j (nth j w 0 + e)).
  Proof.
    intro H. split; [apply set_nth_length|]. split; auto. split.
    - rewrite nth_set_nth by auto. destruct (Nat.eq_dec j j); easy.
    - intros i Hi. rewrite nth_set_nth by auto. destruct (Nat.eq_dec i j); easy.
  Qed.
End Scd.
