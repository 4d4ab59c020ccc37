(** Gradient descent on the losses that are convex and smooth. *)
From Coq Require Import Reals Lra Psatz.
From Verif Require Import Base Common_Model KDReal_Proofs Impurity_Spec Impurity_Model Impurity_Proofs Vec Loss_Model Loss_Spec Loss_Proofs Metric_Proofs
  Shuffle_Model Optim_Model Optim_Spec Optim_Proofs OptimSteps_Proofs OptimRun_Proofs Descent_Spec.
Local Open Scope R_scope.
Set Implicit Arguments.

(** * Curvature *)
Lemma logistic_derivable z : derivable_pt_lim logistic z (logistic z * (1 - logistic z)).
Proof.
  pose proof (exp_pos z) as P.
  apply (derivable_ext (f := fun t => 1 - / (1 + exp t))). { intro t. rewrite logistic_ratio. pose proof (exp_pos t). field. lra. }
  apply (derivable_val (l := 0 - - (0 + exp z) / Rsqr (1 + exp z))).
  2: { rewrite logistic_ratio. unfold Rsqr. field. lra. }
  apply (derivable_pt_lim_minus (fct_cte 1) (fun t => / (1 + exp t))); [apply derivable_pt_lim_const|].
  apply (derivable_ext (f := inv_fct (fun t => 1 + exp t))). { intro; reflexivity. }
  apply (derivable_val (l := (0 * (1 + exp z) - (0 + exp z) * 1) / Rsqr (1 + exp z))); [|unfold Rsqr; field; lra].
  apply (derivable_ext (f := div_fct (fct_cte 1) (fun t => 1 + exp t))). { intro t. unfold div_fct, inv_fct, fct_cte. unfold Rdiv. ring. }
  apply (@derivable_pt_lim_div (fct_cte 1) (fun t => 1 + exp t) z 0 (0 + exp z)); [apply derivable_pt_lim_const| |lra].
  apply (derivable_pt_lim_plus (fct_cte 1) exp); [apply derivable_pt_lim_const|apply derivable_pt_lim_exp].
Qed.
Lemma logistic_slope a b : a <= b -> logistic b - logistic a <= (b - a) / 4.
Proof.
  intros [H| ->]; [|lra].
  destruct (MVT_cor2 logistic (fun z => logistic z * (1 - logistic z)) a b H) as (c & E & _). { intros; apply logistic_derivable. }
  rewrite E. assert (logistic c * (1 - logistic c) <= 1 / 4) by (pose proof (Rle_0_sqr (logistic c - 1 / 2)) as Q; unfold Rsqr in Q; nra). nra.
Qed.
Lemma log_phi_smooth b a z : cross_entropy b z <= cross_entropy b a + log_dphi b a * (z - a) + (1 / 4) / 2 * (z - a) ^ 2.
Proof.
  set (h := fun t => cross_entropy b a + log_dphi b a * (t - a) + (1 / 4) / 2 * (t - a) ^ 2 - cross_entropy b t).
  set (h' := fun t => log_dphi b a + (t - a) / 4 - log_dphi b t).
  assert (D : forall t, derivable_pt_lim h t (h' t)).
  { intro t. unfold h, h'.
    apply (derivable_pt_lim_minus (fun t => cross_entropy b a + log_dphi b a * (t - a) + (1 / 4) / 2 * (t - a) ^ 2) (cross_entropy b)); [|apply log_phi_derivable].
    apply (derivable_ext (f := fun t => (cross_entropy b a - log_dphi b a * a + (1 / 4) / 2 * (a * a)) + ((log_dphi b a - a / 4) * t + (1 / 4) / 2 * (t * t)))). { intro; ring_simplify; field. }
    apply (derivable_val (l := 0 + ((log_dphi b a - a / 4) * 1 + (1 / 4) / 2 * (1 * t + t * 1)))); [|field].
    apply (derivable_pt_lim_plus (fct_cte (cross_entropy b a - log_dphi b a * a + (1 / 4) / 2 * (a * a)))); [apply derivable_pt_lim_const|].
    apply (derivable_pt_lim_plus (mult_real_fct (log_dphi b a - a / 4) id) (mult_real_fct ((1 / 4) / 2) (mult_fct id id)));
      apply derivable_pt_lim_scal; [apply derivable_pt_lim_id|]. apply derivable_pt_lim_mult; apply derivable_pt_lim_id. }
  assert (H0 : h a = 0) by (unfold h; ring).
  assert (G : 0 <= h z); [|unfold h in G; lra].
  destruct (Rtotal_order a z) as [L|[ -> |L]]; [|lra|].
  - destruct (MVT_cor2 h h' a z L) as (c & E & Hc). { intros; apply D. }
    assert (0 <= h' c). { unfold h', log_dphi. pose proof (@logistic_slope a c ltac:(lra)). lra. } nra.
  - destruct (MVT_cor2 h h' z a L) as (c & E & Hc). { intros; apply D. }
    assert (h' c <= 0). { unfold h', log_dphi. pose proof (@logistic_slope c a ltac:(lra)). lra. } nra.
Qed.
Lemma log_phi_nonneg b z : 0 <= b <= 1 -> 0 <= cross_entropy b z.
Proof.
  intros Hb. unfold cross_entropy. pose proof (logistic_bounds z) as H.
  assert (A : forall x, 0 < x < 1 -> ln x <= 0). { intros x Hx. rewrite <- ln_1. left. apply ln_increasing; lra. }
  pose proof (A (logistic z) H). pose proof (A (1 - logistic z) ltac:(lra)). nra.
Qed.

Section Above.
  Context {T : Type}.
  Variables (phi dphi : T -> R -> R) (c lambda beta : R).
  Hypothesis Hc : 0 <= c.
  Hypothesis Hl : 0 <= lambda.
  Hypothesis Hb : 0 <= beta.
  Lemma glm_above X y W V : shapes X y W -> length V = length W ->
    (forall b a z, phi b z <= phi b a + dphi b a * (z - a) + beta / 2 * (z - a) ^ 2) ->
    glm phi c lambda X y V <= glm phi c lambda X y W + dot (glm_grad dphi c lambda X y W) (vsub V W) +
      (c * beta * sum_squares X + lambda / INR (length X)) / 2 * sqn (vsub V W).
  Proof.
    intros HS HV Hcv. pose proof HS as (H1 & H2 & H3). rewrite glm_grad_dot by (auto; rewrite vsub_length; auto).
    unfold glm, over_samples, penalty. assert (Hn : 0 < INR (length X)) by (apply lt_0_INR; destruct X; [congruence|simpl; lia]).
    assert (A : total (map (fun p => phi (snd p) (dot (fst p) V)) (combine X y)) <=
                total (map (fun p => phi (snd p) (dot (fst p) W)) (combine X y)) +
                total (map (fun p => dphi (snd p) (dot (fst p) W) * dot (fst p) (vsub V W)) (combine X y)) +
                beta / 2 * (sum_squares X * sqn (vsub V W))).
    { apply Rle_trans with (total (map (fun p => phi (snd p) (dot (fst p) W) + dphi (snd p) (dot (fst p) W) * dot (fst p) (vsub V W) + beta / 2 * (sqn (vsub V W) * sqn (fst p))) (combine X y))).
      - apply total_le. intros (x, b) Hp. simpl fst; simpl snd. assert (Hx : length x = length W) by (apply H2; now apply in_combine_l in Hp).
        eapply Rle_trans; [apply (Hcv b (dot x W))|]. rewrite !dot_vsub_r by assumption. apply Rplus_le_compat_l. apply Rmult_le_compat_l; [lra|].
        pose proof (@cauchy_schwarz x (vsub V W)) as CS. rewrite vsub_length in CS by auto. specialize (CS ltac:(congruence)). rewrite dot_vsub_r in CS by auto. nra.
      - rewrite (total_plus (fun p => phi (snd p) (dot (fst p) W) + dphi (snd p) (dot (fst p) W) * dot (fst p) (vsub V W)) (fun p => beta / 2 * (sqn (vsub V W) * sqn (fst p)))), total_plus.
        apply Rplus_le_compat_l. right. rewrite (total_ext _ (fun p : list R * T => beta / 2 * sqn (vsub V W) * sqn (fst p))) by (intros; ring). rewrite total_scal.
        rewrite <- (map_map fst sqn). unfold sum_squares. replace (map fst (combine X y)) with X; [ring|].
        clear - H3. revert y H3; induction X as [|x X IH]; intros [|b y] H; cbn in *; try lia; auto. f_equal; auto. }
    assert (B : lambda * dot V V / (2 * INR (length X)) = lambda * dot W W / (2 * INR (length X)) + lambda / INR (length X) * dot W (vsub V W) + lambda / INR (length X) / 2 * sqn (vsub V W)).
    { rewrite dot_vsub_r, sqn_vsub by assumption. unfold sqn. rewrite (dot_comm V W). field. lra. }
    rewrite B. apply (Rmult_le_compat_l c) in A; [|assumption]. nra.
  Qed.
End Above.

Lemma total_sq_pos X : 0 <= sum_squares X.
Proof. apply total_nonneg. intros; apply sqn_nonneg. Qed.

(** * One step *)
Lemma clip_dot g : let c := clip_grad g in sqn c <= dot g c.
Proof.
  cbv zeta. unfold clip_grad, sqn. induction g as [|a g IH]; [cbn; lra|]. cbn [map]. rewrite !dot_cons.
  assert (P : 0 < 10 ^ 10) by (apply pow_lt; lra). revert IH P. generalize (10 ^ 10) as B. intros B IH P.
  assert (Rmax (Rmin a B) (- B) * Rmax (Rmin a B) (- B) <= a * Rmax (Rmin a B) (- B)); [|lra].
  unfold Rmax, Rmin. destruct (Rle_dec a B); [destruct (Rle_dec a (- B))|destruct (Rle_dec B (- B))]; nra.
Qed.
Lemma clip_id g : sqn g <= 10 ^ 20 -> clip_grad g = g.
Proof.
  intro H. unfold clip_grad. rewrite <- (map_id g) at 2. apply map_ext_in. intros a Ha.
  assert (S : a * a <= sqn g).
  { clear H. induction g as [|b g IH]; [contradiction|]. unfold sqn in *. rewrite dot_cons. pose proof (sqn_nonneg g) as P. unfold sqn in P.
    destruct Ha as [->|Ha]; [lra|]. specialize (IH Ha). nra. }
  assert (P : 0 < 10 ^ 10) by (apply pow_lt; lra). assert (Q : 10 ^ 20 = 10 ^ 10 * 10 ^ 10) by (rewrite <- pow_add; reflexivity). rewrite Q in H. clear Q.
  revert H P. generalize (10 ^ 10) as B. intros B H P.
  assert (- B <= a <= B) by nra. unfold Rmax, Rmin. destruct (Rle_dec a B); [|lra]. destruct (Rle_dec a (- B)); lra.
Qed.
Lemma clip_length g : length (clip_grad g) = length g.
Proof. unfold clip_grad. apply map_length. Qed.

Section Step.
  Variables (F : list R -> R) (L : R).
  Variables (w g : list R) (lr : R).
  Hypothesis Ht : tangent F L w g.
  Hypothesis Hlr : 0 < lr.
  Hypothesis HlrL : lr * L <= 1.
  Let c := clip_grad g.
  Let w' := vsub w (vscale lr c).
  Let Lc : length w = length (vscale lr c).
  Proof. unfold c. rewrite vscale_length, clip_length. symmetry. apply Ht. Qed.
  Lemma step_length : length w' = length w.
  Proof. unfold w'. now apply vsub_length. Qed.
  Lemma step_diff : vsub w' w = vscale (- lr) c.
  Proof.
    unfold w'. revert Lc. unfold vscale. generalize c. clear. intro c. revert c. induction w as [|a w0 IH]; intros [|b c] H; try discriminate; [reflexivity|].
    cbn [map vsub map2] in *. unfold vsub in *. cbn [map2]. f_equal; [ring|]. apply IH. cbn in H. lia.
  Qed.
  Lemma step_descent : F w' + lr / 2 * sqn c <= F w.
  Proof.
    destruct Ht as (Lg & Hb). destruct (Hb w' step_length) as (_ & U). rewrite step_diff, dot_vscale_r, sqn_vscale in U.
    pose proof (clip_dot g) as C. cbv zeta in C. fold c in C. pose proof (sqn_nonneg c) as P.
    assert (lr * sqn c <= lr * dot g c) by (apply Rmult_le_compat_l; lra).
    assert (L / 2 * (lr * lr * sqn c) <= lr / 2 * sqn c). { replace (L / 2 * (lr * lr * sqn c)) with (lr * L * (lr / 2 * sqn c)) by field. assert (0 <= lr / 2 * sqn c) by nra. nra. }
    replace (L / 2 * (- lr * - lr * sqn c)) with (L / 2 * (lr * lr * sqn c)) in U by ring. lra.
  Qed.
  Lemma step_distance u : length u = length w -> sqn g <= 10 ^ 20 -> sqn (vsub w' u) + 2 * lr * (F w' - F u) <= sqn (vsub w u).
  Proof.
    intros Lu Hg. pose proof step_descent as D. assert (Ec : c = g) by (unfold c; now apply clip_id). destruct Ht as (Lg & Hb). destruct (Hb u Lu) as (Lo & _).
    assert (E : sqn (vsub w' u) = sqn (vsub w u) - 2 * lr * dot g (vsub w u) + lr * lr * sqn g).
    { unfold w'. rewrite Ec. assert (L1 : length w = length (vscale lr g)) by (rewrite vscale_length; auto).
      rewrite sqn_vsub by (rewrite vsub_length; auto). rewrite sqn_vsub by auto. rewrite (sqn_vsub w u) by auto. rewrite dot_vsub_l by auto. rewrite !sqn_vscale, dot_vscale_l, dot_vscale_r.
      rewrite dot_vsub_r by auto. rewrite (dot_comm w g). ring. }
    assert (Es : dot g (vsub u w) = - dot g (vsub w u)) by (rewrite !dot_vsub_r by auto; ring). rewrite Es in Lo. rewrite Ec in D. rewrite E. nra.
  Qed.
  (** The gradient is bounded by the loss. *)
  Lemma vsub_step s : vsub (vsub w (vscale s g)) w = vscale (- s) g.
  Proof.
    destruct Ht as (Lg & _). unfold vscale. clear - Lg. revert g Lg. induction w as [|a w0 IH]; intros [|b g] H; try discriminate; [reflexivity|].
    cbn [map vsub map2] in *. unfold vsub in *. cbn [map2]. f_equal; [ring|]. apply IH. cbn in H. lia.
  Qed.
  Lemma gradient_bound : 0 <= L -> (forall v, length v = length w -> 0 <= F v) -> sqn g <= 2 * L * F w.
  Proof using Ht.
    intros PL Fp. destruct Ht as (Lg & Hb).
    assert (Q : forall s, s * sqn g <= F w + L / 2 * (s * s * sqn g)).
    { intro s. assert (Lv : length (vsub w (vscale s g)) = length w) by (apply vsub_length; rewrite vscale_length; auto).
      destruct (Hb _ Lv) as (_ & U). pose proof (Fp _ Lv) as P. rewrite vsub_step, dot_vscale_r, sqn_vscale in U. fold (sqn g) in U. lra. }
    pose proof (sqn_nonneg g) as Pg. pose proof (Fp w eq_refl) as Pw. destruct PL as [PL|PL].
    - specialize (Q (/ L)). replace (L / 2 * (/ L * / L * sqn g)) with (/ L / 2 * sqn g) in Q by (field; lra).
      assert (H : / L / 2 * sqn g <= F w) by lra. apply (Rmult_le_compat_l (2 * L)) in H; [|lra].
      replace (2 * L * (/ L / 2 * sqn g)) with (sqn g) in H by (field; lra). exact H.
    - rewrite <- PL in Q |- *. destruct Pg as [Pg|Pg]; [|lra]. specialize (Q ((F w + 1) / sqn g)). 
      replace ((F w + 1) / sqn g * sqn g) with (F w + 1) in Q by (field; lra). lra.
  Qed.
End Step.

(** * A run *)
(** [ws] are the weights before each step, [lrs] the learning rates. *)
Section Run.
  Variables (F : list R -> R) (L : R) (d : nat).
  Hypothesis HL : 0 <= L.
  Hypothesis Fp : forall v, length v = d -> 0 <= F v.
  Variables (w : nat -> list R) (lr : nat -> R).
  Variable T : nat.
  Hypothesis Hw0 : length (w 0%nat) = d.
  Hypothesis Hstep : forall t, (t < T)%nat -> exists g, tangent F L (w t) g /\ w (S t) = vsub (w t) (vscale (lr t) (clip_grad g)).
  Hypothesis Hlr : forall t, (t < T)%nat -> 0 < lr t /\ lr t * L <= 1.
  Lemma run_length t : (t <= T)%nat -> length (w t) = d.
  Proof.
    induction t as [|t IH]; intro H; [exact Hw0|]. destruct (Hstep H) as (g & Tg & ->). rewrite (step_length (lr t) Tg). apply IH. lia.
  Qed.
  Lemma run_descent t : (t < T)%nat -> F (w (S t)) <= F (w t).
  Proof.
    intro H. destruct (Hstep H) as (g & Tg & E). destruct (Hlr H) as (P & Q). pose proof (step_descent Tg P Q) as D. rewrite <- E in D.
    pose proof (sqn_nonneg (clip_grad g)). nra.
  Qed.
  Lemma run_monotone s t : (s <= t <= T)%nat -> F (w t) <= F (w s).
  Proof.
    intros (H1 & H2). induction H1 as [|t H1 IH]; [lra|]. pose proof (@run_descent t ltac:(lia)). specialize (IH ltac:(lia)). lra.
  Qed.
  Lemma run_rate u : length u = d -> 2 * L * F (w 0%nat) <= 10 ^ 20 -> forall t, (t <= T)%nat ->
    sqn (vsub (w t) u) + 2 * total (map lr (seq 0 t)) * (F (w t) - F u) <= sqn (vsub (w 0%nat) u).
  Proof.
    intros Lu HB. induction t as [|t IH]; intro H; [cbn; lra|]. specialize (IH ltac:(lia)). destruct (Hstep H) as (g & Tg & E). destruct (Hlr H) as (P & Q).
    assert (Lt : length (w t) = d) by (apply run_length; lia).
    assert (B : sqn g <= 10 ^ 20). { eapply Rle_trans; [apply (gradient_bound Tg HL); intros v Lv; apply Fp; congruence|]. pose proof (@run_monotone 0%nat t ltac:(lia)). nra. }
    pose proof (step_distance Tg P Q u ltac:(congruence) B) as S1. rewrite <- E in S1.
    rewrite seq_S, map_app, total_app; cbn [map plus]. replace (total [lr t]) with (lr t) by (cbn; ring).
    assert (0 <= total (map lr (seq 0 t))). { apply total_nonneg. intros x Hx. apply in_seq in Hx. destruct (Hlr (t := x)); [lia|lra]. }
    pose proof (@run_descent t ltac:(lia)). nra.
  Qed.
End Run.

(** * Full batches *)
Lemma in_batches_full {A B} (X : list A) (y : list B) bl : X <> [] -> length y = length X -> in_batches (length X) X y bl -> bl = [(X, y)].
Proof.
  intros HX Hy (H1 & (rx & EX & Lx) & (ry & Ey & Ly)). assert (P : (0 < length X)%nat) by (destruct X; [congruence|cbn; lia]).
  destruct bl as [|(a, b) [|q bl]].
  - exfalso. cbn in EX. subst rx. lia.
  - destruct (H1 _ (or_introl eq_refl)) as (La & Lb). cbn in La, Lb, EX, Ey. rewrite app_nil_r in EX, Ey.
    assert (rx = []). { destruct rx; auto. apply (f_equal (@length A)) in EX. rewrite app_length in EX. cbn in EX. lia. }
    assert (ry = []). { destruct ry; auto. apply (f_equal (@length B)) in Ey. rewrite app_length in Ey. cbn in Ey. lia. }
    subst rx ry. rewrite app_nil_r in EX, Ey. now subst.
  - exfalso. destruct (H1 _ (or_introl eq_refl)) as (La & _). destruct (H1 q (or_intror (or_introl eq_refl))) as (Lq & _).
    apply (f_equal (@length A)) in EX. cbn [map concat fst] in EX, La. rewrite !app_length in EX. lia.
Qed.

Section FullBatch.
  Variables (gradient : list (list R) -> list R -> list R -> outcome (list R)) (evaluate : list (list R) -> list R -> list R -> outcome R).
  Variables (X : list (list R)) (y : list R) (w0 : list R) (F : list R -> R) (L : R).
  Hypothesis HX : X <> [].
  Hypothesis Hy : length y = length X.
  (** The loss of the whole data in any order is [F]. *)
  Hypothesis Hloss : forall X' y' w, reordered X X' y y' -> length w = length w0 ->
    evaluate X' y' w = Ok (F w) /\ exists g, gradient X' y' w = Ok g /\ tangent F L w g.
  Let step := sgd_step gradient evaluate clip_grad vanilla_update.

  Lemma full_step w lr j X' y' : reordered X X' y y' -> length w = length w0 ->
    exists g, tangent F L w g /\ let w' := vsub w (vscale lr (clip_grad g)) in step w lr j X' y' = Ok (w', F w') /\ length w' = length w0.
  Proof.
    intros Hr Lw. destruct (Hloss w Hr Lw) as (_ & g & Eg & Tg). exists g. split; [exact Tg|]. cbv zeta.
    assert (L' : length (vsub w (vscale lr (clip_grad g))) = length w0) by (rewrite (step_length lr Tg); auto).
    split; [|exact L']. unfold step, sgd_step. rewrite Eg; cbn [bind]. unfold vanilla_update. rewrite sub_Ok by (rewrite vscale_length, clip_length; symmetry; apply Tg). cbn [bind].
    destruct (Hloss _ Hr L') as (-> & _). reflexivity.
  Qed.
  Lemma full_run decay shuffle K data state loss : training_run step decay shuffle (length X) X y w0 K data state loss ->
    forall e, (e < K)%nat -> exists lr g, decay e = Ok lr /\ tangent F L (state e) g /\
      state (S e) = vsub (state e) (vscale lr (clip_grad g)) /\ loss e = F (state (S e)).
  Proof.
    intros (E0 & HR). assert (A : forall e, (e <= K)%nat -> length (state e) = length w0 /\ ((e < K)%nat -> exists lr g, decay e = Ok lr /\ tangent F L (state e) g /\
      state (S e) = vsub (state e) (vscale lr (clip_grad g)) /\ loss e = F (state (S e)))).
    { assert (Q : forall e, (e < K)%nat -> length (state e) = length w0 -> exists lr g, decay e = Ok lr /\ tangent F L (state e) g /\
        state (S e) = vsub (state e) (vscale lr (clip_grad g)) /\ loss e = F (state (S e))).
      { clear E0. intros e He Le. destruct (HR e He) as (Hr & _ & lr & bl & Ed & Hb & Hrun). pose proof Hr as (L1 & L2 & _).
        rewrite <- L1 in Hb. apply in_batches_full in Hb; [|intro Z; rewrite Z in L1; destruct X; [congruence|discriminate]|congruence]. subst bl.
        inversion Hrun as [|? ? ? ? ? ? ? l ? Es Hend]; subst. inversion Hend; subst.
        destruct (@full_step (state e) lr 0 _ _ Hr Le) as (g & Tg & Eg & _). rewrite Eg in Es. injection Es as Ew El.
        exists lr, g. repeat (split; [solve [auto]|]). rewrite <- El, <- Ew. ring. }
      induction e as [|e IH]; intro He; [split; [now rewrite E0|intro; apply Q; auto; now rewrite E0]|].
      destruct (IH ltac:(lia)) as (Le & He'). destruct (He' ltac:(lia)) as (lr & g & _ & Tg & Es & _).
      assert (L' : length (state (S e)) = length w0) by (rewrite Es, (step_length lr Tg); auto). split; auto. }
    intros e He. destruct (A e ltac:(lia)) as (_ & H). auto.
  Qed.
  Lemma full_total w lr j Xb yb : length w = length w0 -> reordered X Xb y yb -> exists w' l, step w lr j Xb yb = Ok (w', l) /\ length w' = length w0.
  Proof. intros Lw Hr. destruct (@full_step w lr j Xb yb Hr Lw) as (g & _ & E & L'). eauto. Qed.
End FullBatch.

(** * Patience *)
Lemma stalled_dec margin loss k : {stalled margin loss k} + {~ stalled margin loss k}.
Proof.
  enough (D : forall n, {exists i, (i < n)%nat /\ loss i - margin < loss k} + {~ exists i, (i < n)%nat /\ loss i - margin < loss k}) by apply D.
  induction n as [|n IH]; [right; intros (i & H & _); lia|]. destruct IH as [H|H]; [left; destruct H as (i & ? & ?); exists i; split; [lia|auto]|].
  destruct (Rlt_dec (loss n - margin) (loss k)) as [D|D]; [left; exists n; split; [lia|auto]|]. right. intros (i & Hi & Q). destruct (Nat.eq_dec i n) as [->|]; [auto|].
  apply H. exists i. split; [lia|auto].
Qed.
Lemma not_stops margin loss N e : ~ stops margin loss N e -> exists k, (k <= e)%nat /\ (e < k + N)%nat /\ ~ stalled margin loss k.
Proof.
  intro H. assert (D : forall n, (exists k, (k < n)%nat /\ (e < k + N)%nat /\ ~ stalled margin loss k) \/ forall k, (k < n)%nat -> (e < k + N)%nat -> stalled margin loss k).
  { induction n as [|n IH]; [right; intros; lia|]. destruct IH as [(k & ? & ?)|IH]; [left; exists k; split; [lia|auto]|].
    destruct (Nat.lt_ge_cases e (n + N)) as [Hn|Hn]; [|right; intros k Hk He; apply IH; lia].
    destruct (stalled_dec margin loss n) as [S1|S1]; [|left; exists n; split; [lia|auto]]. right. intros k Hk He. destruct (Nat.eq_dec k n) as [->|]; [auto|apply IH; lia]. }
  destruct (D (S e)) as [(k & H1 & H2)|Q]; [exists k; split; [lia|auto]|]. exfalso. apply H. intros k H1 H2. apply Q; lia.
Qed.
(** Every [N] epochs without a stop bring an improvement of [margin]. *)
Lemma patience margin loss N K : (forall e, (e < K)%nat -> ~ stops margin loss N e) -> forall B, (N * B < K)%nat ->
  exists k, (k <= N * B)%nat /\ loss k <= loss 0%nat - INR B * margin.
Proof.
  intros H. induction B as [|B IH]; intro HB; [exists 0%nat; split; [lia|cbn [INR]; lra]|].
  destruct IH as (k0 & K0 & L0); [nia|]. destruct (not_stops (H (N * S B)%nat HB)) as (k & K1 & K2 & NS). exists k. split; [exact K1|].
  assert (Hk : (k0 < k)%nat) by nia. destruct (Rlt_dec (loss k0 - margin) (loss k)) as [D|D]; [exfalso; apply NS; exists k0; auto|].
  rewrite S_INR. lra.
Qed.

(** * The two losses *)
Lemma shapes_reordered (X X' : list (list R)) (y y' : list R) w : shapes X y w -> reordered X X' y y' -> shapes X' y' w.
Proof.
  intros (H1 & H2 & H3) (L1 & L2 & P). split; [destruct X; [congruence|]; destruct X'; discriminate|]. split; [|congruence].
  intros x Hx. apply H2. assert (Ex : exists b, In (x, b) (combine X' y')).
  { assert (Ly : length y' = length X') by congruence. clear - Hx Ly. revert y' Ly. induction X' as [|a X' IH]; intros [|b y'] Ly; cbn in *; try lia; try contradiction.
    destruct Hx as [->|Hx]; [exists b; auto|]. destruct (IH Hx y' ltac:(lia)) as (c & ?). exists c; auto. }
  destruct Ex as (b & Hb). apply Permutation_sym in P. apply (Permutation_in _ P) in Hb. now apply in_combine_l in Hb.
Qed.
Lemma sum_squares_reordered (X X' : list (list R)) (y y' : list R) : length y = length X -> reordered X X' y y' -> sum_squares X' = sum_squares X.
Proof.
  intros Hy (L1 & L2 & P). unfold sum_squares.
  assert (G : forall (X : list (list R)) (y : list R), length y = length X -> map sqn X = map (fun p => sqn (fst p)) (combine X y)).
  { clear. induction X as [|x X IH]; intros [|b y] H; cbn in *; try lia; auto. f_equal; auto. }
  rewrite (G X' y'), (G X y) by congruence. apply total_perm. apply Permutation_map. now apply Permutation_sym.
Qed.
Lemma labels_reordered (X X' : list (list R)) (y y' : list R) : length y = length X -> reordered X X' y y' -> incl y' y.
Proof.
  intros Hy (L1 & L2 & P) b Hb. assert (Ex : exists x, In (x, b) (combine X' y')).
  { assert (Ly : length y' = length X') by congruence. clear - Hb Ly. revert X' Ly. induction y' as [|a y' IH]; intros [|x X'] Ly; cbn in *; try lia; try contradiction.
    destruct Hb as [->|Hb]; [exists x; auto|]. destruct (IH Hb X' ltac:(lia)) as (c & ?). exists c; auto. }
  destruct Ex as (x & Hx). apply Permutation_sym in P. apply (Permutation_in _ P) in Hx. now apply in_combine_r in Hx.
Qed.
Lemma glm_reordered (phi : R -> R -> R) c lambda X X' y y' W : reordered X X' y y' -> glm phi c lambda X' y' W = glm phi c lambda X y W.
Proof.
  intros (L1 & L2 & P). unfold glm. rewrite L1. f_equal. f_equal. symmetry. now apply over_samples_perm.
Qed.

Lemma mse_loss_glm lambda X y W : mse_loss lambda X y W = glm mse_phi (mse_c X) lambda X y W.
Proof. reflexivity. Qed.
Lemma log_loss_glm lambda X y W : log_loss lambda X y W = glm cross_entropy (/ INR (length X)) lambda X y W.
Proof. reflexivity. Qed.
Lemma mse_full lambda X y w0 : 0 <= lambda -> shapes X y w0 -> forall X' y' w, reordered X X' y y' -> length w = length w0 ->
  mse_evaluate lambda X' y' w = Ok (mse_loss lambda X y w) /\ exists g, mse_gradient lambda X' y' w = Ok g /\ tangent (mse_loss lambda X y) (mse_curvature lambda X) w g.
Proof.
  intros Hl HS X' y' w Hr Lw. assert (Sv : forall v, length v = length w0 -> shapes X' y' v).
  { intros v Lv. apply (@shapes_reordered X X' y y'); auto. destruct HS as (H1 & H2 & H3). split; [auto|]. split; [now rewrite Lv|auto]. }
  assert (Hn : 0 < INR (length X)) by (apply lt_0_INR; destruct X; [destruct HS; congruence|simpl; lia]).
  pose proof Hr as (L1 & _). assert (Ec : mse_c X' = mse_c X) by (unfold mse_c; now rewrite L1).
  assert (Pc : 0 <= mse_c X) by (unfold mse_c; left; apply Rinv_0_lt_compat; lra).
  split; [rewrite mse_evaluate_glm by auto; rewrite Ec, (glm_reordered _ _ _ _ Hr); auto|].
  eexists. split; [apply mse_gradient_glm; auto|]. split; [apply glm_grad_length; auto|]. intros v Lv.
  rewrite !mse_loss_glm, <- !(@glm_reordered mse_phi (mse_c X) lambda X X' y y' _ Hr), <- Ec. split.
  - apply glm_below; auto; [rewrite Ec; auto|]. intros b a z _. unfold mse_phi, mse_dphi. pose proof (Rle_0_sqr (z - a)) as Q. unfold Rsqr in Q. nra.
  - replace (mse_curvature lambda X) with (mse_c X' * 2 * sum_squares X' + lambda / INR (length X')).
    + apply glm_above; auto; [rewrite Ec; auto|lra|]. intros b a z. unfold mse_phi, mse_dphi. nra.
    + unfold mse_curvature. rewrite (sum_squares_reordered (proj2 (proj2 HS)) Hr), Ec, L1. unfold mse_c. field. lra.
Qed.
Lemma log_full lambda X y w0 : 0 <= lambda -> shapes X y w0 -> forall X' y' w, reordered X X' y y' -> length w = length w0 ->
  log_evaluate lambda X' y' w = Ok (log_loss lambda X y w) /\ exists g, log_gradient lambda X' y' w = Ok g /\ tangent (log_loss lambda X y) (log_curvature lambda X) w g.
Proof.
  intros Hl HS X' y' w Hr Lw. assert (Sv : forall v, length v = length w0 -> shapes X' y' v).
  { intros v Lv. apply (@shapes_reordered X X' y y'); auto. destruct HS as (H1 & H2 & H3). split; [auto|]. split; [now rewrite Lv|auto]. }
  assert (Hn : 0 < INR (length X)) by (apply lt_0_INR; destruct X; [destruct HS; congruence|simpl; lia]).
  pose proof Hr as (L1 & _). assert (Ec : / INR (length X') = / INR (length X)) by (now rewrite L1).
  assert (Pc : 0 <= / INR (length X)) by (left; apply Rinv_0_lt_compat; lra).
  split; [rewrite log_evaluate_glm by auto; rewrite Ec, (glm_reordered _ _ _ _ Hr); auto|].
  eexists. split; [apply log_gradient_glm; auto|]. split; [apply glm_grad_length; auto|]. intros v Lv.
  rewrite !log_loss_glm, <- !(@glm_reordered cross_entropy (/ INR (length X)) lambda X X' y y' _ Hr), <- Ec. split.
  - apply glm_below; auto; [rewrite Ec; auto|]. intros b a z _. apply log_phi_convex.
  - replace (log_curvature lambda X) with (/ INR (length X') * (1 / 4) * sum_squares X' + lambda / INR (length X')).
    + apply glm_above; auto; [rewrite Ec; auto|lra|]. intros b a z. apply log_phi_smooth.
    + unfold log_curvature. rewrite (sum_squares_reordered (proj2 (proj2 HS)) Hr), L1. field. lra.
Qed.
Lemma penalty_nonneg lambda n W : 0 <= lambda -> 0 < INR n -> 0 <= penalty lambda n W.
Proof.
  intros Hl Hn. unfold penalty. apply Rmult_le_pos; [apply Rmult_le_pos; auto; apply sqn_nonneg|]. left. apply Rinv_0_lt_compat. lra.
Qed.
Lemma mse_loss_nonneg lambda X y W : 0 <= lambda -> X <> [] -> 0 <= mse_loss lambda X y W.
Proof.
  intros Hl HX. assert (Hn : 0 < INR (length X)) by (apply lt_0_INR; destruct X; [congruence|simpl; lia]).
  unfold mse_loss. apply Rplus_le_le_0_compat; [|now apply penalty_nonneg]. apply Rmult_le_pos; [|left; apply Rinv_0_lt_compat; lra].
  apply total_nonneg. intros (x, b) _. apply pow2_ge_0.
Qed.
Lemma log_loss_nonneg lambda X y W : 0 <= lambda -> X <> [] -> (forall b, In b y -> 0 <= b <= 1) -> 0 <= log_loss lambda X y W.
Proof.
  intros Hl HX Hy. assert (Hn : 0 < INR (length X)) by (apply lt_0_INR; destruct X; [congruence|simpl; lia]).
  unfold log_loss. apply Rplus_le_le_0_compat; [|now apply penalty_nonneg]. apply Rmult_le_pos; [|left; apply Rinv_0_lt_compat; lra].
  apply total_nonneg. intros (x, b) Hp. cbn [fst snd]. apply log_phi_nonneg. apply Hy. now apply in_combine_r in Hp.
Qed.
Lemma curvature_nonneg lambda X : 0 <= lambda -> X <> [] -> 0 <= mse_curvature lambda X /\ 0 <= log_curvature lambda X.
Proof.
  intros Hl HX. assert (Hn : 0 < INR (length X)) by (apply lt_0_INR; destruct X; [congruence|simpl; lia]). pose proof (total_sq_pos X).
  split; apply Rmult_le_pos; try lra; left; now apply Rinv_0_lt_compat.
Qed.
