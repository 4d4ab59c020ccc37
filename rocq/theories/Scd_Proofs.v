(** Greedy coordinate descent approaches the minimum at the rate 1 / k. *)
From Coq Require Import Reals Lra Psatz.
From Verif Require Import Base Common_Model RDR_Proofs KDReal_Proofs Impurity_Spec Impurity_Model Impurity_Proofs Vec Loss_Model Loss_Spec Loss_Proofs Metric_Proofs
  Shuffle_Model Shuffle_Proofs Optim_Model Optim_Spec Optim_Proofs OptimSteps_Proofs OptimRun_Proofs Descent_Spec Descent_Proofs Scd_Spec.
Local Open Scope R_scope.
Set Implicit Arguments.

(** If no coordinate alone promises more than [- q], neither does their average on the segment towards [v]. *)
Lemma average lambda beta t q w g v : 0 <= lambda -> 0 <= t <= 1 -> length g = length w -> length v = length w ->
  (forall i, (i < length w)%nat -> q <= model_change lambda beta (nth i w 0) (nth i g 0) (t * (nth i v 0 - nth i w 0))) ->
  INR (length w) * q <= t * dot g (vsub v w) + beta / 2 * (t * t * sqn (vsub v w)) + t * (lambda * norm1 v - lambda * norm1 w).
Proof.
  intros Hl Ht. revert g v; induction w as [|a w IH]; intros [|c g] [|b v] Lg Lv H; cbn in Lg, Lv; try easy.
  - unfold norm1, dot, sqn, dot; cbn; lra.
  - cbn [vsub map2]. fold (vsub v w). rewrite dot_cons. unfold sqn. rewrite dot_cons. fold (sqn (vsub v w)). unfold norm1 in *. cbn [map total fold_right]. fold (total (map Rabs v)). fold (total (map Rabs w)).
    specialize (IH g v ltac:(lia) ltac:(lia) (fun i Hi => H (S i) ltac:(cbn [length]; lia))). specialize (H 0%nat ltac:(cbn [length]; lia)). cbn [nth] in H.
    cbn [length]. rewrite S_INR.
    assert (A : Rabs (a + t * (b - a)) <= (1 - t) * Rabs a + t * Rabs b).
    { replace (a + t * (b - a)) with ((1 - t) * a + t * b) by ring. eapply Rle_trans; [apply Rabs_triang|]. rewrite !Rabs_mult, (Rabs_pos_eq t), (Rabs_pos_eq (1 - t)) by lra. lra. }
    unfold model_change in H. apply (Rmult_le_compat_l lambda) in A; [|assumption]. nra.
Qed.

(** The recurrence behind the rate. *)
Lemma rate_step D m delta delta' : 0 < D -> 0 <= m -> 0 <= delta <= D -> delta' <= delta - delta * delta / D -> delta * m <= D -> delta' * (m + 1) <= D.
Proof.
  intros PD Pm Hd H Hm. set (x := delta / D). assert (Ed : delta = x * D) by (unfold x; field; lra).
  assert (Px : 0 <= x) by (unfold x; apply Rmult_le_pos; [lra|left; apply Rinv_0_lt_compat; lra]).
  assert (Px1 : x <= 1) by nra. assert (Hx : x * m <= 1) by nra.
  replace (delta - delta * delta / D) with (D * (x * (1 - x))) in H by (rewrite Ed; field; lra).
  apply Rle_trans with (D * (x * (1 - x)) * (m + 1)); [apply Rmult_le_compat_r; lra|].
  assert (x * (1 - x) * (m + 1) <= 1); nra.
Qed.

Section Rate.
  Context {Row Lab : Type}.
  Variable gradient : list Row -> list Lab -> list R -> outcome (list R).
  Variables lambda beta : R.
  Hypothesis HB : 0 < beta.
  Hypothesis HL : 0 <= lambda.
  Variable F : list R -> R.
  Variable d : nat.
  Hypothesis Pd : (0 < d)%nat.
  Let Obj w := F w + lambda * norm1 w.
  (** [g] is a gradient of the convex [F] whose curvature along each axis is at most [beta]. *)
  Definition axis_tangent (w g : list R) : Prop := length g = d /\ (forall v, length v = d -> F w + dot g (vsub v w) <= F v) /\
    forall j eta w', moved w j eta w' -> F w' <= F w + nth j g 0 * eta + beta / 2 * (eta * eta).

  Lemma scd_gain X y w g v t : length w = d -> length v = d -> gradient X y w = Ok g -> axis_tangent w g -> 0 <= t <= 1 ->
    exists w', scd_step gradient lambda beta d X y w = Ok w' /\ length w' = d /\ Obj w' <= Obj w /\
      INR d * (Obj w' - Obj w) <= t * (Obj v - Obj w) + beta / 2 * (t * t * sqn (vsub v w)).
  Proof.
    intros Lw Lv Eg (Lg & Hc & Hq) Ht.
    destruct (@scd_step_spec Row Lab gradient lambda beta HB HL X y w g Eg) as (w' & j & Es & M & Best); try lia. rewrite Lw in Es.
    exists w'. split; [exact Es|]. split; [destruct M; lia|].
    set (q := model_change lambda beta (nth j w 0) (nth j g 0) (eta_at lambda beta w g j)).
    assert (Q : Obj w' <= Obj w + q). { unfold Obj, q, model_change. rewrite (norm1_moved M). pose proof (Hq _ _ _ M). lra. }
    split.
    - assert (q <= 0); [|lra]. unfold q. eapply Rle_trans; [apply (@eta_best_le lambda beta HB HL w g j 0)|]. unfold model_change. rewrite Rplus_0_r. lra.
    - assert (Hi : forall i, (i < length w)%nat -> q <= model_change lambda beta (nth i w 0) (nth i g 0) (t * (nth i v 0 - nth i w 0))).
      { intros i Hi. eapply Rle_trans; [|apply (@eta_best_le lambda beta HB HL w g i)]. specialize (Best i Hi). rewrite !descent_change in Best. unfold q. lra. }
      pose proof (@average lambda beta t q w g v HL Ht ltac:(congruence) ltac:(congruence) Hi) as A. rewrite Lw in A.
      specialize (Hc v Lv). assert (t * dot g (vsub v w) <= t * (F v - F w)) by (apply Rmult_le_compat_l; lra).
      assert (INR d * (Obj w' - Obj w) <= INR d * q) by (apply Rmult_le_compat_l; [apply pos_INR|lra]).
      unfold Obj in *. nra.
  Qed.

  Variables (X0 : list Row) (y0 : list Lab) (perm : nat -> list nat) (shuffle : bool).
  Hypothesis Hlen : length y0 = length X0.
  Hypothesis Hp : shuffle = true -> forall k, is_perm (length X0) (perm k).
  Hypothesis HF : forall X y w, reordered X0 X y0 y -> length w = d -> exists g, gradient X y w = Ok g /\ axis_tangent w g.
  Variables (v : list R) (top C : R).
  Hypothesis Lv : length v = d.
  Hypothesis Htop : top - Obj v <= C.
  Hypothesis PC : 0 < C.
  Hypothesis Hball : forall w, length w = d -> Obj w <= top -> beta * sqn (vsub v w) <= C.

  Lemma scd_decrease X y w : reordered X0 X y0 y -> length w = d -> Obj w <= top ->
    exists w', scd_step gradient lambda beta d X y w = Ok w' /\ length w' = d /\ Obj w' <= Obj w /\
      (0 <= Obj w - Obj v -> Obj w' - Obj v <= (Obj w - Obj v) - (Obj w - Obj v) * (Obj w - Obj v) / (2 * INR d * C)).
  Proof.
    intros RO Lw Ht. destruct (@HF X y w RO Lw) as (g & Eg & T). assert (Pn : 0 < INR d) by (apply lt_0_INR; auto).
    set (delta := Obj w - Obj v). destruct (Rle_dec 0 delta) as [Pdl|N].
    - assert (T01 : 0 <= delta / C <= 1). { split; [apply Rmult_le_pos; [auto|left; apply Rinv_0_lt_compat; auto]|]. apply (Rmult_le_reg_r C); auto. replace (delta / C * C) with delta by (field; lra). unfold delta; lra. }
      destruct (@scd_gain X y w g v (delta / C) Lw Lv Eg T T01) as (w' & Es & L' & Mo & G). exists w'. split; [exact Es|]. split; [exact L'|]. split; [exact Mo|]. intros _.
      pose proof (@Hball w Lw Ht) as B. assert (B2 : beta / 2 * (delta / C * (delta / C) * sqn (vsub v w)) <= delta * delta / C / 2).
      { replace (beta / 2 * (delta / C * (delta / C) * sqn (vsub v w))) with ((delta / C * (delta / C)) / 2 * (beta * sqn (vsub v w))) by (field; lra).
        replace (delta * delta / C / 2) with ((delta / C * (delta / C)) / 2 * C) by (field; lra). apply Rmult_le_compat_l; auto. nra. }
      assert (G2 : INR d * (Obj w' - Obj w) <= - (delta * delta / C / 2)).
      { replace (delta / C * (Obj v - Obj w)) with (- (delta * delta / C)) in G by (unfold delta; field; lra). lra. }
      apply (Rmult_le_reg_l (INR d)); auto. replace (INR d * (delta - delta * delta / (2 * INR d * C))) with (INR d * delta - delta * delta / C / 2) by (field; lra).
      unfold delta in *. lra.
    - destruct (@scd_gain X y w g v 0 Lw Lv Eg T ltac:(lra)) as (w' & Es & L' & Mo & G). exists w'. split; [exact Es|]. split; [exact L'|]. split; [exact Mo|]. intro. contradiction.
  Qed.

  Lemma scd_rate_loop iters : forall X y w m, reordered X0 X y0 y -> (shuffle = false -> X = X0 /\ y = y0) -> length w = d -> Obj w <= top -> 0 <= m ->
    (Obj w - Obj v) * m <= 2 * INR d * C ->
    exists w', scd_loop gradient lambda beta d perm shuffle iters X y w = Ok w' /\ length w' = d /\ Obj w' <= Obj w /\
      (Obj w' - Obj v) * (m + INR (length iters)) <= 2 * INR d * C.
  Proof.
    induction iters as [|i iters IH]; intros X y w m RO Fs L Ht Pm Hm; cbn [scd_loop length].
    - exists w. rewrite Rplus_0_r. split; [reflexivity|]. split; [exact L|]. split; [lra|exact Hm].
    - destruct (@reshuffle_spec Row Lab perm shuffle X0 y0 Hlen Hp i X y RO Fs) as (X' & y' & Er & RO' & Fs'). rewrite Er. cbn [bind fst snd].
      destruct (@scd_decrease X' y' w RO' L Ht) as (w' & Es & L' & Mo & G). rewrite Es. cbn [bind].
      assert (Pn : 1 <= INR d) by (replace 1 with (INR 1) by reflexivity; apply le_INR; lia).
      assert (P2 : C <= 2 * INR d * C) by nra. assert (PD : 0 < 2 * INR d * C) by lra.
      assert (Hm' : (Obj w' - Obj v) * (m + 1) <= 2 * INR d * C).
      { destruct (Rle_dec 0 (Obj w - Obj v)) as [P|N]; [apply (@rate_step (2 * INR d * C) m (Obj w - Obj v)); auto; lra|nra]. }
      destruct (IH X' y' w' (m + 1) RO' Fs' L' ltac:(lra) ltac:(lra) Hm') as (w2 & E2 & L2 & M2 & H2).
      exists w2. split; [exact E2|]. split; [exact L2|]. split; [lra|]. rewrite S_INR. replace (m + (INR (length iters) + 1)) with (m + 1 + INR (length iters)) by ring. exact H2.
  Qed.
End Rate.

(** The squared distance is at most the square of the sum of the two norms. *)
Lemma norm1_nonneg w : 0 <= norm1 w.
Proof. unfold norm1. apply total_nonneg. intros; apply Rabs_pos. Qed.
Lemma sqn_norm1 v w : length v = length w -> sqn (vsub v w) <= (norm1 v + norm1 w) * (norm1 v + norm1 w).
Proof.
  revert w; induction v as [|a v IH]; intros [|b w] L; cbn in L; try lia; [unfold sqn, dot, norm1; cbn; lra|].
  specialize (IH w ltac:(lia)). cbn [vsub map2]. fold (vsub v w). unfold sqn in *. rewrite dot_cons. 
  pose proof (norm1_nonneg v) as P1. pose proof (norm1_nonneg w) as P2. unfold norm1 in *. cbn [map total fold_right]. fold (total (map Rabs v)). fold (total (map Rabs w)).
  pose proof (Rabs_pos a). pose proof (Rabs_pos b).
  assert ((a - b) * (a - b) <= (Rabs a + Rabs b) * (Rabs a + Rabs b)).
  { assert (E : (a - b) * (a - b) = Rabs (a - b) * Rabs (a - b)) by (rewrite <- Rabs_mult; rewrite Rabs_pos_eq; [reflexivity|apply Rle_0_sqr]). rewrite E.
    assert (Rabs (a - b) <= Rabs a + Rabs b) by (unfold Rminus; eapply Rle_trans; [apply Rabs_triang|]; rewrite Rabs_Ropp; lra). pose proof (Rabs_pos (a - b)). nra. }
  set (p := total (map Rabs v)) in *; set (q := total (map Rabs w)) in *. assert (0 <= (Rabs a + Rabs b) * (p + q)) by (apply Rmult_le_pos; lra). unfold Vec.dot in *. lra.
Qed.

(** Curvature of a loss along one axis. *)
Section Axis.
  Variables (phi dphi : R -> R -> R) (c lambda kappa : R).
  Lemma glm_axis X y W j eta W' : 0 <= c -> 0 <= kappa -> shapes X y W -> moved W j eta W' ->
    (forall b a z, phi b z <= phi b a + dphi b a * (z - a) + kappa / 2 * (z - a) ^ 2) ->
    glm phi c lambda X y W' <= glm phi c lambda X y W + nth j (glm_grad dphi c lambda X y W) 0 * eta
      + (c * kappa * column_squares j X + lambda / INR (length X)) / 2 * (eta * eta).
  Proof.
    intros Pc Pk HS M Hs. pose proof HS as (H1 & H2 & H3). pose proof M as (L & Hj & _).
    assert (Hn : 0 < INR (length X)) by (apply lt_0_INR; destruct X; [congruence|cbn; lia]).
    set (u := unit (length W) j).
    assert (Lu : length u = length W) by apply unit_length.
    assert (E : W' = vadd W (vscale eta u)).
    { rewrite (moved_eq M). rewrite (@set_nth_line W j (nth j W 0) (nth j W 0 + eta)) by (apply nth_error_nth'; auto).
      replace (nth j W 0 + eta - nth j W 0) with eta by ring. reflexivity. }
    assert (G : nth j (glm_grad dphi c lambda X y W) 0 = dot (glm_grad dphi c lambda X y W) u).
    { symmetry. unfold u. rewrite <- (@glm_grad_length R dphi c lambda X y W HS). apply dot_unit. apply nth_error_nth'.
      rewrite (@glm_grad_length R dphi c lambda X y W HS); auto. }
    rewrite G, (@glm_grad_dot R phi dphi c lambda X y W u HS Lu). rewrite E. unfold glm, over_samples, penalty.
    assert (Lv : length W = length (vscale eta u)) by (rewrite vscale_length; auto).
    assert (P1 : dot (vadd W (vscale eta u)) (vadd W (vscale eta u)) = dot W W + 2 * eta * dot W u + eta * eta * dot u u).
    { rewrite dot_vadd_l by auto. rewrite !dot_vadd_r by auto. rewrite !dot_vscale_l, !dot_vscale_r, (dot_comm u W). ring. }
    assert (Uu : dot u u = 1).
    { unfold u at 2. rewrite <- Lu. apply dot_unit. unfold u, unit. apply set_nth_same. rewrite zeros_length; auto. }
    rewrite P1, Uu.
    assert (P2 : total (map (fun p => phi (snd p) (dot (fst p) (vadd W (vscale eta u)))) (combine X y)) <=
       total (map (fun p => phi (snd p) (dot (fst p) W)) (combine X y)) + eta * total (map (fun p => dphi (snd p) (dot (fst p) W) * dot (fst p) u) (combine X y))
         + kappa / 2 * (eta * eta) * column_squares j X).
    { assert (Ec : column_squares j X = total (map (fun p => nth j (fst p) 0 * nth j (fst p) 0) (combine X y))).
      { unfold column_squares. f_equal. clear - H3. revert y H3; induction X as [|x X IH]; intros [|b y] H; cbn in *; try lia; auto. f_equal; auto. }
      rewrite Ec. clear Ec.
      assert (Bx : forall p, In p (combine X y) -> dot (fst p) u = nth j (fst p) 0).
      { intros (x, b) Hq. apply in_combine_l in Hq. cbn [fst]. pose proof (H2 _ Hq) as Lx. unfold u. rewrite <- Lx. apply dot_unit. apply nth_error_nth'. congruence. }
      induction (combine X y) as [|p l IH]; [cbn; lra|]. cbn [map total fold_right].
      fold (total (map (fun p => phi (snd p) (dot (fst p) (vadd W (vscale eta u)))) l)).
      fold (total (map (fun p => phi (snd p) (dot (fst p) W)) l)). fold (total (map (fun p => dphi (snd p) (dot (fst p) W) * dot (fst p) u) l)).
      fold (total (map (fun p => nth j (fst p) 0 * nth j (fst p) 0) l)).
      specialize (IH (fun q Hq => Bx q (or_intror Hq))). pose proof (Bx p (or_introl eq_refl)) as Bp.
      rewrite (@dot_vadd_r W (vscale eta u) (fst p)), dot_vscale_r by auto.
      pose proof (Hs (snd p) (dot (fst p) W) (dot (fst p) W + eta * dot (fst p) u)) as Hsp.
      replace (dot (fst p) W + eta * dot (fst p) u - dot (fst p) W) with (eta * dot (fst p) u) in Hsp by ring.
      rewrite <- Bp. nra. }
    apply (Rmult_le_compat_l c) in P2; [|assumption].
    match type of P2 with _ <= _ * (?a + eta * ?b + _) => set (A0 := a) in *; set (B0 := b) in * end.
    match type of P2 with _ * ?a <= _ => set (C0 := a) in * end.
    replace (lambda * (dot W W + 2 * eta * dot W u + eta * eta * 1) / (2 * INR (length X))) with
      (lambda * dot W W / (2 * INR (length X)) + lambda / INR (length X) * dot W u * eta + lambda / INR (length X) / 2 * (eta * eta)) by (field; lra).
    lra.
  Qed.
End Axis.

Lemma column_squares_reordered j (X X' : list (list R)) (y y' : list R) : length y = length X -> reordered X X' y y' -> column_squares j X' = column_squares j X.
Proof.
  intros Hy (L1 & L2 & P). unfold column_squares.
  assert (G : forall (X : list (list R)) (y : list R), length y = length X -> map (fun x => nth j x 0 * nth j x 0) X = map (fun p => nth j (fst p) 0 * nth j (fst p) 0) (combine X y)).
  { clear. induction X as [|x X IH]; intros [|b y] H; cbn in *; try lia; auto. f_equal; auto. }
  rewrite (G X' y'), (G X y) by congruence. apply total_perm. apply Permutation_map. now apply Permutation_sym.
Qed.
Lemma mse_axis lambda beta X y w0 : 0 <= lambda -> shapes X y w0 -> (forall j, (j < length w0)%nat -> (column_squares j X + lambda) / INR (length X) <= beta) ->
  forall X' y' w, reordered X X' y y' -> length w = length w0 ->
  exists g, mse_gradient lambda X' y' w = Ok g /\ axis_tangent beta (mse_loss lambda X y) (length w0) w g.
Proof.
  intros Hl HS Hb X' y' w Hr Lw. assert (Sv : forall v, length v = length w0 -> shapes X' y' v).
  { intros v Lv. apply (@shapes_reordered X X' y y'); auto. destruct HS as (H1 & H2 & H3). split; [auto|]. split; [now rewrite Lv|auto]. }
  assert (Hn : 0 < INR (length X)) by (apply lt_0_INR; destruct X; [destruct HS; congruence|simpl; lia]).
  pose proof Hr as (L1 & _). assert (Ec : mse_c X' = mse_c X) by (unfold mse_c; now rewrite L1).
  assert (Pc : 0 <= mse_c X') by (rewrite Ec; unfold mse_c; left; apply Rinv_0_lt_compat; lra).
  eexists. split; [apply mse_gradient_glm; auto|]. split; [rewrite glm_grad_length; auto|]. split.
  - intros v Lv. rewrite !mse_loss_glm, <- !(@glm_reordered mse_phi (mse_c X) lambda X X' y y' _ Hr), <- Ec.
    apply glm_below; auto; [congruence|]. intros b a z _. unfold mse_phi, mse_dphi. pose proof (Rle_0_sqr (z - a)) as Q. unfold Rsqr in Q. nra.
  - intros j eta w' M. rewrite !mse_loss_glm, <- !(@glm_reordered mse_phi (mse_c X) lambda X X' y y' _ Hr), <- Ec.
    eapply Rle_trans; [apply (@glm_axis mse_phi mse_dphi (mse_c X') lambda 2 X' y' w j eta w'); auto; [lra|]; intros b a z; unfold mse_phi, mse_dphi; nra|].
    apply Rplus_le_compat_l. apply Rmult_le_compat_r; [nra|]. unfold Rdiv. apply Rmult_le_compat_r; [lra|].
    destruct M as (_ & Hj & _). eapply Rle_trans; [|apply (Hb j); congruence]. right. rewrite (column_squares_reordered j (proj2 (proj2 HS)) Hr), Ec, L1. unfold mse_c. field. lra.
Qed.
Lemma log_axis lambda beta X y w0 : 0 <= lambda -> shapes X y w0 -> (forall j, (j < length w0)%nat -> (column_squares j X / 4 + lambda) / INR (length X) <= beta) ->
  forall X' y' w, reordered X X' y y' -> length w = length w0 ->
  exists g, log_gradient lambda X' y' w = Ok g /\ axis_tangent beta (log_loss lambda X y) (length w0) w g.
Proof.
  intros Hl HS Hb X' y' w Hr Lw. assert (Sv : forall v, length v = length w0 -> shapes X' y' v).
  { intros v Lv. apply (@shapes_reordered X X' y y'); auto. destruct HS as (H1 & H2 & H3). split; [auto|]. split; [now rewrite Lv|auto]. }
  assert (Hn : 0 < INR (length X)) by (apply lt_0_INR; destruct X; [destruct HS; congruence|simpl; lia]).
  pose proof Hr as (L1 & _). assert (Ec : / INR (length X') = / INR (length X)) by (now rewrite L1).
  assert (Pc : 0 <= / INR (length X')) by (rewrite Ec; left; apply Rinv_0_lt_compat; lra).
  eexists. split; [apply log_gradient_glm; auto|]. split; [rewrite glm_grad_length; auto|]. split.
  - intros v Lv. rewrite !log_loss_glm, <- !(@glm_reordered cross_entropy (/ INR (length X)) lambda X X' y y' _ Hr), <- Ec.
    apply glm_below; auto; [congruence|]. intros b a z _. apply log_phi_convex.
  - intros j eta w' M. rewrite !log_loss_glm, <- !(@glm_reordered cross_entropy (/ INR (length X)) lambda X X' y y' _ Hr), <- Ec.
    eapply Rle_trans; [apply (@glm_axis cross_entropy log_dphi (/ INR (length X')) lambda (1 / 4) X' y' w j eta w'); auto; [lra|]; intros b a z; apply log_phi_smooth|].
    apply Rplus_le_compat_l. apply Rmult_le_compat_r; [nra|]. unfold Rdiv. apply Rmult_le_compat_r; [lra|].
    destruct M as (_ & Hj & _). eapply Rle_trans; [|apply (Hb j); congruence]. right. rewrite (column_squares_reordered j (proj2 (proj2 HS)) Hr), L1. field. lra.
Qed.
