(** Whole runs: coordinate descent never increases the objective; runs with too few samples; the ignored tail. *)
From Coq Require Import Reals Lra Psatz.
From Verif Require Import Base Common_Model RDR_Proofs KDReal_Proofs Impurity_Spec Impurity_Model Impurity_Proofs Vec Loss_Model Loss_Spec Loss_Proofs
  Shuffle_Model Shuffle_Proofs Optim_Model Optim_Spec Optim_Proofs OptimSteps_Proofs.
Local Open Scope R_scope.
Set Implicit Arguments.

Lemma moved_eq w j e w' : moved w j e w' -> w' = set_nth w j (nth j w 0 + e).
Proof.
  intros (L & H & E & O). destruct (moved_set_nth w e H) as (L' & _ & E' & O').
  apply (nth_ext _ _ 0 0); [congruence|]. intros i Hi. destruct (Nat.eq_dec i j) as [->|D]; [congruence|]. rewrite O, O'; auto.
Qed.
Lemma norm1_moved w j e w' : moved w j e w' -> norm1 w' = norm1 w - Rabs (nth j w 0) + Rabs (nth j w 0 + e).
Proof.
  intro M. rewrite (moved_eq M). destruct M as (_ & H & _). unfold norm1.
  apply total_set_nth. apply nth_error_nth'; auto.
Qed.

Section Scd.
  Context {Row Lab : Type}.
  Variable gradient : list Row -> list Lab -> list R -> outcome (list R).
  Variable lambda beta : R.
  Hypothesis HB : 0 < beta.
  Hypothesis HL : 0 <= lambda.

  Lemma scd_step_spec X y w g : gradient X y w = Ok g -> length g = length w -> (0 < length w)%nat ->
    exists w' j, scd_step gradient lambda beta (length w) X y w = Ok w' /\ moved w j (eta_at lambda beta w g j) w' /\
      (forall i, (i < length w)%nat -> descent_at lambda beta w g i <= descent_at lambda beta w g j).
  Proof.
    intros Eg L P. unfold scd_step. rewrite Eg. cbn [bind].
    destruct (@pick_spec lambda beta HB HL w g (length w)) as (j & Hj & E & M & _); try lia. rewrite E. cbn [bind fst snd].
    rewrite (@vget_Ok R w j 0) by auto. cbn [bind]. eexists _, j. split; [reflexivity|]. split; auto. apply moved_set_nth; auto.
  Qed.
  Lemma descent_change w g j : descent_at lambda beta w g j = - model_change lambda beta (nth j w 0) (nth j g 0) (eta_at lambda beta w g j).
  Proof. unfold descent_at, scd_descent, model_change. unfold Rdiv. ring. Qed.

  Lemma eta_best w g j u : u <> eta_at lambda beta w g j ->
    model_change lambda beta (nth j w 0) (nth j g 0) (eta_at lambda beta w g j) < model_change lambda beta (nth j w 0) (nth j g 0) u.
  Proof.
    intro D. pose proof (scd_eta_min (nth j w 0) (nth j g 0) u HB HL) as H. cbv zeta in H. fold (eta_at lambda beta w g j) in H.
    unfold model_change, model1 in *. assert (0 < (u - eta_at lambda beta w g j) * (u - eta_at lambda beta w g j)) by nra. nra.
  Qed.
  Lemma eta_best_le w g j u :
    model_change lambda beta (nth j w 0) (nth j g 0) (eta_at lambda beta w g j) <= model_change lambda beta (nth j w 0) (nth j g 0) u.
  Proof. destruct (Req_dec u (eta_at lambda beta w g j)) as [->|D]; [lra|left; apply eta_best; auto]. Qed.

  Lemma scd_loop_spec (F : list R -> R) (X0 : list Row) (y0 : list Lab) d perm shuffle :
    (0 < d)%nat -> length y0 = length X0 -> (shuffle = true -> forall k, is_perm (length X0) (perm k)) ->
    (forall X y w, reordered X0 X y0 y -> length w = d -> exists g, gradient X y w = Ok g /\ length g = d /\
       forall j eta w', moved w j eta w' -> F w' <= F w + nth j g 0 * eta + beta / 2 * (eta * eta)) ->
    forall iters X y w, reordered X0 X y0 y -> (shuffle = false -> X = X0 /\ y = y0) -> length w = d ->
    exists w', scd_loop gradient lambda beta d perm shuffle iters X y w = Ok w' /\ length w' = d /\
      F w' + lambda * norm1 w' <= F w + lambda * norm1 w.
  Proof.
    intros Pd Hlen Hp HF iters; induction iters as [|i iters IH]; intros X y w RO Fs L; cbn [scd_loop]; [exists w; repeat split; auto; lra|].
    destruct (@reshuffle_spec Row Lab perm shuffle X0 y0 Hlen Hp i X y RO Fs) as (X' & y' & Er & RO' & Fs'). rewrite Er. cbn [bind fst snd].
    destruct (HF X' y' w RO' L) as (g & Eg & Lg & Q). rewrite <- L.
    destruct (@scd_step_spec X' y' w g Eg) as (w' & j & Es & M & _); try lia. rewrite Es. cbn [bind].
    rewrite L. destruct (IH X' y' w' RO' Fs') as (w2 & E2 & L2 & H2). { destruct M; lia. }
    exists w2. split; auto. split; auto. specialize (Q _ _ _ M). pose proof (norm1_moved M) as Nm.
    pose proof (eta_best_le w g j 0) as B. unfold model_change in B. rewrite Rplus_0_r in B. rewrite Nm in H2. nra.
  Qed.
End Scd.

(** Coordinatewise subgradient inequality, summed. *)
Lemma norm1_subgradient lambda w g v : length g = length w -> length v = length w ->
  (forall j t, 0 <= nth j g 0 * t + lambda * Rabs (nth j w 0 + t) - lambda * Rabs (nth j w 0)) ->
  0 <= dot g (vsub v w) + lambda * norm1 v - lambda * norm1 w.
Proof.
  revert g v; induction w as [|a w IH]; intros [|c g] [|b v] Lg Lv H; cbn in Lg, Lv; try easy.
  - unfold norm1, dot; cbn; lra.
  - cbn [vsub map2]. fold (vsub v w). rewrite dot_cons. unfold norm1 in *. cbn [map total fold_right]. fold (total (map Rabs v)). fold (total (map Rabs w)).
    specialize (IH g v ltac:(lia) ltac:(lia) (fun j t => H (S j) t)). specialize (H 0%nat (b - a)). cbn in H.
    replace (a + (b - a)) with b in H by ring. lra.
Qed.

(** MSE: moving one coordinate changes the loss by a quadratic with curvature at most that of the column. *)
Lemma over_samples_perm {T} (phi : T -> R -> R) X X' y y' W : Permutation (combine X y) (combine X' y') ->
  over_samples phi X y W = over_samples phi X' y' W.
Proof. intro P. unfold over_samples. apply total_perm. apply Permutation_map; auto. Qed.

Lemma mse_quadratic lambda X y W j eta W' : shapes X y W -> moved W j eta W' ->
  (forall x, In x X -> Rabs (nth j x 0) <= 1) -> 0 <= lambda ->
  glm mse_phi (mse_c X) lambda X y W' <= glm mse_phi (mse_c X) lambda X y W + nth j (glm_grad mse_dphi (mse_c X) lambda X y W) 0 * eta
    + (1 + lambda / INR (length X)) / 2 * (eta * eta).
Proof.
  intros HS M B Hl. pose proof HS as (H1 & H2 & H3). pose proof M as (L & Hj & _).
  assert (Hn : 0 < INR (length X)) by (apply lt_0_INR; destruct X; [congruence|cbn; lia]).
  set (u := unit (length W) j).
  assert (Lu : length u = length W) by apply unit_length.
  assert (E : W' = vadd W (vscale eta u)).
  { rewrite (moved_eq M). rewrite (@set_nth_line W j (nth j W 0) (nth j W 0 + eta)) by (apply nth_error_nth'; auto).
    replace (nth j W 0 + eta - nth j W 0) with eta by ring. reflexivity. }
  assert (G : nth j (glm_grad mse_dphi (mse_c X) lambda X y W) 0 = dot (glm_grad mse_dphi (mse_c X) lambda X y W) u).
  { symmetry. unfold u. rewrite <- (@glm_grad_length R mse_dphi (mse_c X) lambda X y W HS). apply dot_unit. apply nth_error_nth'.
    rewrite (@glm_grad_length R mse_dphi (mse_c X) lambda X y W HS); auto. }
  rewrite G, (@glm_grad_dot R mse_phi mse_dphi (mse_c X) lambda X y W u HS Lu). rewrite E. unfold glm, over_samples, penalty.
  assert (Lv : length W = length (vscale eta u)) by (rewrite vscale_length; auto).
  assert (P1 : dot (vadd W (vscale eta u)) (vadd W (vscale eta u)) = dot W W + 2 * eta * dot W u + eta * eta * dot u u).
  { rewrite dot_vadd_l by auto. rewrite !dot_vadd_r by auto. rewrite !dot_vscale_l, !dot_vscale_r, (dot_comm u W). ring. }
  assert (Uu : dot u u = 1).
  { unfold u at 2. rewrite <- Lu. apply dot_unit. unfold u, unit. apply set_nth_same. rewrite zeros_length; auto. }
  rewrite P1, Uu.
  assert (P2 : total (map (fun p => mse_phi (snd p) (dot (fst p) (vadd W (vscale eta u)))) (combine X y)) <=
     total (map (fun p => mse_phi (snd p) (dot (fst p) W)) (combine X y)) + eta * total (map (fun p => mse_dphi (snd p) (dot (fst p) W) * dot (fst p) u) (combine X y)) + eta * eta * INR (length X)).
  { rewrite <- (Nat.min_id (length X)). rewrite <- H3 at 2. rewrite <- combine_length. rewrite <- (Rmult_1_r (INR (length (combine X y)))).
    assert (Bx : forall p, In p (combine X y) -> dot (fst p) u * dot (fst p) u <= 1).
    { intros (x, b) Hp. apply in_combine_l in Hp. cbn [fst]. pose proof (H2 _ Hp) as Lx. 
      assert (D : dot x u = nth j x 0). { unfold u. rewrite <- Lx. apply dot_unit. apply nth_error_nth'. congruence. }
      rewrite D. specialize (B _ Hp). destruct (Rabs_cases (nth j x 0)) as [(U & K)|(U & K)]; nra. }
    induction (combine X y) as [|p l IH]; [cbn; lra|]. cbn [map total fold_right length]. 
    fold (total (map (fun p => mse_phi (snd p) (dot (fst p) (vadd W (vscale eta u)))) l)).
    fold (total (map (fun p => mse_phi (snd p) (dot (fst p) W)) l)). fold (total (map (fun p => mse_dphi (snd p) (dot (fst p) W) * dot (fst p) u) l)).
    specialize (IH (fun q Hq => Bx q (or_intror Hq))). pose proof (Bx p (or_introl eq_refl)) as Bp. rewrite S_INR.
    rewrite (@dot_vadd_r W (vscale eta u) (fst p)), dot_vscale_r by auto. unfold mse_phi, mse_dphi in *. nra. }
  unfold mse_c.
  apply (Rmult_le_compat_l (/ (2 * INR (length X)))) in P2; [|left; apply Rinv_0_lt_compat; lra].
  match type of P2 with _ <= / _ * (?a + eta * ?b + _) => set (A0 := a) in *; set (B0 := b) in * end.
  match type of P2 with _ * ?a <= _ => set (C0 := a) in * end.
  replace (/ (2 * INR (length X)) * (A0 + eta * B0 + eta * eta * INR (length X))) with
    (/ (2 * INR (length X)) * A0 + / (2 * INR (length X)) * B0 * eta + / 2 * (eta * eta)) in P2 by (field; lra).
  replace (lambda * (dot W W + 2 * eta * dot W u + eta * eta * 1) / (2 * INR (length X))) with
    (lambda * dot W W / (2 * INR (length X)) + lambda / INR (length X) * dot W u * eta + lambda / INR (length X) / 2 * (eta * eta)) by (field; lra).
  lra.
Qed.

(** ** Too few samples, ignored tail *)
Section Tail.
  Context {Row Lab S : Type}.
  Variable step : S -> R -> nat -> list Row -> list Lab -> outcome (S * R).
  Variable decay : nat -> outcome R.
  Variable perm : nat -> list nat.
  Variable bs N : nat.
  Variable tol : R.

  Lemma few_epochs shuffle m : 0 < tol * INR bs -> (forall k, exists lr, decay k = Ok lr) ->
    forall i X y c s, (length X < bs)%nat -> length y = length X -> (shuffle = true -> forall k, is_perm (length X) (perm k)) ->
    (0 < m)%nat -> (N <= c + m)%nat -> epochs step decay perm shuffle bs N tol (seq i m) X y (Some 0) c s = Ok s.
  Proof.
    intros T D. induction m as [|m IH]; intros i X y c s L Ly Hp Pm HN; [lia|]. cbn [seq epochs].
    destruct (@reshuffle_spec Row Lab perm shuffle X y Ly Hp i X y) as (X' & y' & Er & (L1 & L2 & _) & _); [repeat split; auto|auto|].
    rewrite Er. cbn [bind fst snd]. unfold run_epoch. destruct (D i) as (lr & ->). cbn [bind].
    rewrite (Nat.div_small (length X') bs) by lia. cbn [seq foldM bind fst snd not_improved]. change (Rsum []) with 0.
    assert (E : Rltb (0 - tol * INR bs) 0 = true) by (apply Rltb_true; lra). rewrite E.
    destruct (N <=? Datatypes.S c)%nat eqn:C; auto. apply Nat.leb_gt in C.
    assert (B : better 0 (Some 0) = Some 0). { cbn. destruct (Rltb 0 0); auto. } rewrite B.
    apply IH; try lia. rewrite L1; auto.
  Qed.
  Lemma few_samples shuffle max_iter X y s : 0 < tol -> (forall k, exists lr, decay k = Ok lr) -> (length X < bs)%nat -> length y = length X ->
    (shuffle = true -> forall k, is_perm (length X) (perm k)) -> (N < max_iter)%nat ->
    optimize step decay perm shuffle bs N tol max_iter X y s = Ok s.
  Proof.
    intros T D L Ly Hp HN. assert (Pb : (0 < bs)%nat) by lia. assert (T' : 0 < tol * INR bs) by (apply Rmult_lt_0_compat; auto; apply lt_0_INR; auto).
    unfold optimize. destruct (bs =? 0)%nat eqn:Eb; [apply Nat.eqb_eq in Eb; lia|]. destruct max_iter as [|m]; [lia|]. cbn [seq epochs].
    destruct (@reshuffle_spec Row Lab perm shuffle X y Ly Hp 0%nat X y) as (X' & y' & Er & (L1 & L2 & _) & _); [repeat split; auto|auto|].
    rewrite Er. cbn [bind fst snd]. unfold run_epoch. destruct (D 0%nat) as (lr & ->). cbn [bind].
    rewrite (Nat.div_small (length X') bs) by lia. cbn [seq foldM bind fst snd not_improved].
    destruct (N <=? 0)%nat eqn:C; auto. apply Nat.leb_gt in C. cbn [better]. change (Rsum []) with 0.
    apply few_epochs; auto; try lia. rewrite L1; auto.
  Qed.

  Lemma tail_batch q (A T T' : list Row) (B U U' : list Lab) lr : length A = (q * bs)%nat -> length B = (q * bs)%nat ->
    length T = length T' -> length U = length U' ->
    forall m k st, (k + m <= q)%nat -> foldM (run_batch step bs lr (A ++ T) (B ++ U)) (seq k m) st = foldM (run_batch step bs lr (A ++ T') (B ++ U')) (seq k m) st.
  Proof.
    intros LA LB LT LU. induction m as [|m IH]; intros k st Hk; cbn [seq foldM]; auto.
    assert (K : (k * bs + bs <= q * bs)%nat) by nia.
    assert (M : forall {Z} (a t t' : list Z), length a = (q * bs)%nat -> length t = length t' -> middle_rows (a ++ t) (k * bs) bs = middle_rows (a ++ t') (k * bs) bs).
    { intros Z a t t' La Lt. rewrite !middle_rows_Ok by (rewrite app_length; lia). f_equal.
      rewrite !skipn_app, !firstn_app, skipn_length, La. replace (bs - (q * bs - k * bs))%nat with 0%nat by lia. cbn. auto. }
    unfold run_batch at 1 3. rewrite (M _ A T T'), (M _ B U U'); auto.
    destruct (middle_rows (A ++ T') _ _); auto. cbn [bind]. destruct (middle_rows (B ++ U') _ _); auto. cbn [bind].
    destruct (step _ _ _ _ _) as [[s' l]| | |]; auto. cbn [bind]. apply IH; lia.
  Qed.
  Lemma tail_ignored max_iter q (A T T' : list Row) (B U U' : list Lab) s : length A = (q * bs)%nat -> length B = (q * bs)%nat ->
    length T = length T' -> length U = length U' -> (length T < bs)%nat ->
    optimize step decay perm false bs N tol max_iter (A ++ T) (B ++ U) s = optimize step decay perm false bs N tol max_iter (A ++ T') (B ++ U') s.
  Proof.
    intros LA LB LT LU Lb. unfold optimize. destruct (bs =? 0)%nat; auto. generalize (seq 0 max_iter). intro iters.
    generalize (@None R), 0%nat. revert s. induction iters as [|i iters IH]; intros s best c; cbn [epochs]; auto.
    cbn [reshuffle bind fst snd]. assert (E : run_epoch step decay bs i (A ++ T) (B ++ U) s = run_epoch step decay bs i (A ++ T') (B ++ U') s).
    { unfold run_epoch. destruct (decay i); auto. cbn [bind]. rewrite !app_length, <- LT, LA.
      rewrite (@tail_batch q A T T' B U U'); auto. rewrite (Nat.add_comm (q * bs)), Nat.div_add, Nat.div_small by lia. cbn; lia. }
    rewrite E. destruct (run_epoch _ _ _ _ (A ++ T') _ _) as [[s' L]| | |]; auto. cbn [bind fst snd]. destruct (N <=? _)%nat; auto.
  Qed.
End Tail.
