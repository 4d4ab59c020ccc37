(** Proofs for C79: two optimisers whose steps correspond make the same run. *)
From Coq Require Import Reals Lra.
From Verif Require Import Base Common_Model RDR_Proofs KDReal_Proofs Impurity_Model Vec Loss_Model Shuffle_Model Optim_Model OptimSteps_Proofs Units_Spec UnitsMono_Proofs Solvers_Spec.
Local Open Scope R_scope.
Set Implicit Arguments.

Lemma same_refl {A} (o : outcome A) : same_outcome eq o o.
Proof. destruct o; cbn; auto. Qed.

Section Sim.
  Context {Row Lab S S' : Type}.
  Variable step : S -> R -> nat -> list Row -> list Lab -> outcome (S * R).
  Variable step' : S' -> R -> nat -> list Row -> list Lab -> outcome (S' * R).
  Variable decay decay' : nat -> outcome R.
  Variable rs : S -> S' -> Prop.
  Variable rl : R -> R -> Prop.
  Variable perm : nat -> list nat.
  Variable shuffle : bool.
  Variable bs nc : nat.
  Variable tol : R.
  Variable n : nat.
  Hypothesis Hdecay : forall it, same_outcome rl (decay it) (decay' it).
  Hypothesis Hstep : forall s s' lr lr' j Xb yb, rs s s' -> rl lr lr' -> (j < n / bs)%nat ->
    same_outcome (fun a b => rs (fst a) (fst b) /\ snd a = snd b) (step s lr j Xb yb) (step' s' lr' j Xb yb).

  Lemma batches_sim lr lr' X y js : rl lr lr' -> (forall j, In j js -> (j < n / bs)%nat) -> forall s s' hs, rs s s' ->
    same_outcome (fun a b => rs (fst a) (fst b) /\ snd a = snd b) (foldM (run_batch step bs lr X y) js (s, hs)) (foldM (run_batch step' bs lr' X y) js (s', hs)).
  Proof.
    intros Hl. induction js as [|j js IH]; intros Hj s s' hs Hs; cbn [foldM]; [cbn; auto|].
    apply (@orel_bind _ _ _ _ (fun (a : S * list R) (b : S' * list R) => rs (fst a) (fst b) /\ snd a = snd b)).
    - unfold run_batch. cbn [fst snd]. apply (@orel_bind _ _ _ _ eq); [apply same_refl|]. intros Xb ? _ _ <-.
      apply (@orel_bind _ _ _ _ eq); [apply same_refl|]. intros yb ? _ _ <-.
      eapply orel_bind; [apply (Hstep Xb yb Hs Hl); apply Hj; cbn; auto|]. intros a b _ _ (A1 & A2). cbn. split; [exact A1|congruence].
    - intros [a la] [b lb] _ _ (A1 & A2). cbn in A1, A2. subst lb. apply IH; auto. intros; apply Hj; cbn; auto.
  Qed.
  Lemma epoch_sim it X y s s' : length X = n -> rs s s' ->
    same_outcome (fun a b => rs (fst a) (fst b) /\ snd a = snd b) (run_epoch step decay bs it X y s) (run_epoch step' decay' bs it X y s').
  Proof.
    intros L Hs. unfold run_epoch. eapply orel_bind; [apply Hdecay|]. intros lr lr' _ _ Hl.
    eapply orel_bind; [apply batches_sim; [exact Hl| |exact Hs]|].
    - intros j Hj. apply in_seq in Hj. rewrite L in Hj. lia.
    - intros a b _ _ (A1 & A2). cbn. split; [exact A1|congruence].
  Qed.
  Lemma reshuffle_length it (X : list Row) (y : list Lab) X' y' : reshuffle perm shuffle it X y = Ok (X', y') -> length X' = length X.
  Proof.
    unfold reshuffle, shuffle_data2. destruct shuffle; [|intro H; injection H as <- <-; auto].
    destruct (permute (perm it) X) eqn:E1; try discriminate. cbn. destruct (permute (perm it) y); try discriminate. cbn.
    intro H; injection H as <- <-. now apply permute_length in E1.
  Qed.
  Lemma epochs_sim iters : forall X y best count s s', length X = n -> rs s s' ->
    same_outcome rs (epochs step decay perm shuffle bs nc tol iters X y best count s) (epochs step' decay' perm shuffle bs nc tol iters X y best count s').
  Proof.
    induction iters as [|it rest IH]; intros X y best count s s' L Hs; cbn [epochs]; [reflexivity|].
    apply (@orel_bind _ _ _ _ eq); [apply same_refl|]. intros [X' y'] ? E _ <-. cbn [fst snd].
    assert (L' : length X' = n) by (apply reshuffle_length in E; congruence).
    eapply orel_bind; [apply epoch_sim; [exact L'|exact Hs]|]. intros a b _ _ (A1 & A2). rewrite A2.
    destruct (nc <=? _)%nat; [exact A1|]. now apply IH.
  Qed.
  Lemma optimize_sim m X y s s' : length X = n -> rs s s' ->
    same_outcome rs (optimize step decay perm shuffle bs nc tol m X y s) (optimize step' decay' perm shuffle bs nc tol m X y s').
  Proof. intros L Hs. unfold optimize. destruct (bs =? 0)%nat; [exact I|]. now apply epochs_sim. Qed.
End Sim.

Lemma same_seen {A B} (f : A -> B) o o' : same_outcome (fun a b => f a = b) o o' -> seen f o = o'.
Proof. destruct o, o'; cbn; intros H; try contradiction; congruence. Qed.
Lemma same_weaken {A B} (r q : A -> B -> Prop) o o' : (forall a b, r a b -> q a b) -> same_outcome r o o' -> same_outcome q o o'.
Proof. destruct o, o'; cbn; intros H; auto. Qed.
Lemma decay_scaled c decay it : same_outcome (fun a b => b = c * a) (decay it) (scaled_rates c decay it).
Proof. unfold scaled_rates. destruct (decay it); cbn; auto. Qed.

Lemma same_eq_bind {A B B'} (r : B -> B' -> Prop) (o : outcome A) k k' : (forall a, o = Ok a -> same_outcome r (k a) (k' a)) -> same_outcome r (bind o k) (bind o k').
Proof. intros H. apply (@orel_bind _ _ _ _ eq); [apply same_refl|]. intros a b E _ <-. auto. Qed.

Section Sgd.
  Context {Row Lab : Type}.
  Variable gradient : list Row -> list Lab -> list R -> outcome (list R).
  Variable evaluate : list Row -> list Lab -> list R -> outcome R.
  (** Updates that agree up to a factor of the rate. *)
  Lemma sgd_updates c up up' decay decay' perm shuffle bs nc tol m (X : list Row) (y : list Lab) w0 :
    (forall w g lr, up w g lr = up' w g (c * lr)) -> (forall e, decay' e = scaled_rates c decay e) ->
    optimize (sgd_step gradient evaluate clip_grad up) decay perm shuffle bs nc tol m X y w0 =
    optimize (sgd_step gradient evaluate clip_grad up') decay' perm shuffle bs nc tol m X y w0.
  Proof.
    intros Hu Hd. assert (G : seen (fun w : list R => w) (optimize (sgd_step gradient evaluate clip_grad up) decay perm shuffle bs nc tol m X y w0) = optimize (sgd_step gradient evaluate clip_grad up') decay' perm shuffle bs nc tol m X y w0).
    { apply same_seen. apply (@optimize_sim _ _ _ _ _ _ _ _ eq (fun a b => b = c * a)) with (n := length X); auto.
      - intro e. rewrite Hd. apply decay_scaled.
      - intros s s' lr lr' j Xb yb <- -> _. unfold sgd_step. apply same_eq_bind. intros g _. rewrite Hu. apply same_eq_bind. intros v _. apply same_eq_bind. intros l _. cbn. auto. }
    rewrite <- G. now destruct (optimize _ _ _ _ _ _ _ _ _ _ _).
  Qed.

  (** Truncation by nothing. *)
  Lemma truncate1_0 a : truncate1 0 a 0 = a.
  Proof.
    unfold truncate1, Rltb. destruct (Rlt_dec 0 a); [rewrite Rmax_right; lra|].
    destruct (Rlt_dec a 0); [rewrite Rmin_right; lra|reflexivity].
  Qed.
  Lemma map2_trunc0 (w : list R) k : (length w <= k)%nat -> map2 (truncate1 0) w (zeros k) = w.
  Proof.
    revert k. induction w as [|a w IH]; intros [|k] H; cbn in *; try reflexivity; [lia|]. rewrite truncate1_0. f_equal. apply IH. lia.
  Qed.

  (** TruncatedGradient when nothing is to be truncated. *)
  Lemma tg_step_sim alpha l1 up d lr j (Xb : list Row) (yb : list Lab) (s : tg_state) w : l1 * alpha = 0 ->
    (forall w g lr w', length w = d -> up w g lr = Ok w' -> length w' = d) ->
    tg_w s = w -> length w = d -> tg_cum s = zeros d -> tg_max s = 0 ->
    same_outcome (fun a b => (tg_w (fst a) = fst b /\ length (fst b) = d /\ tg_cum (fst a) = zeros d /\ tg_max (fst a) = 0) /\ snd a = snd b)
      (tg_step gradient evaluate up alpha l1 s lr j Xb yb) (sgd_step gradient evaluate clip_grad up w lr j Xb yb).
  Proof.
    intros H0 Hup <- L C M. unfold tg_step, sgd_step. apply same_eq_bind. intros g _. apply same_eq_bind. intros v Ev. apply Hup in Ev; auto.
    replace (tg_max s + l1 * lr * alpha) with 0 by (rewrite M; replace (l1 * lr * alpha) with (l1 * alpha * lr) by ring; rewrite H0; ring).
    unfold truncate. rewrite C. assert (LZ : length (zeros d) = d) by apply repeat_length. rewrite LZ. destruct (Nat.leb_spec (length v) d) as [H|H]; [|lia].
    cbn [bind fst snd]. rewrite (map2_trunc0 _ H). apply same_eq_bind. intros l _. cbn. auto.
  Qed.

  (** The invariant of SAG when there is one batch. *)
  Definition sag_one (d bs : nat) (s : sag_state) (w : list R) : Prop :=
    sg_w s = w /\ length w = d /\ exists old, sg_hist s = [old] /\ length old = d /\ sg_avg s = map (fun a => a / INR bs) old.
  Lemma avg_one (bs : nat) : forall g old, length g = length old ->
    vadd (map (fun a => a / INR bs) old) (map (fun a => a / INR bs) (vsub g old)) = map (fun a => a / INR bs) g.
  Proof.
    induction g as [|a g IH]; intros [|b old] E; cbn in *; try discriminate; auto. f_equal; [lra|]. apply IH. lia.
  Qed.
  Lemma sag_step_sim d bs lr (Xb : list Row) (yb : list Lab) s w : sag_one d bs s w ->
    same_outcome (fun a b => sag_one d bs (fst a) (fst b) /\ snd a = snd b)
      (sag_step gradient evaluate vanilla_update bs s lr 0 Xb yb) (sgd_step gradient evaluate clip_grad vanilla_update w (/ INR bs * lr) 0 Xb yb).
  Proof.
    intros (<- & L & old & EH & LO & EA). unfold sag_step, sgd_step. apply same_eq_bind. intros g _. rewrite EH. cbn [vget nth_error bind].
    unfold sub at 1. set (c := clip_grad g). unfold vanilla_update.
    destruct (Nat.eqb_spec (length c) (length old)) as [E|E].
    - cbn [bind]. rewrite EA. unfold add. rewrite !map_length. assert (LV : length (vsub c old) = length old) by (rewrite vsub_length; congruence). rewrite LV, Nat.eqb_refl. cbn [bind].
      rewrite avg_one by exact E.
      assert (EV : vscale lr (map (fun a => a / INR bs) c) = vscale (/ INR bs * lr) c).
      { unfold vscale. rewrite map_map. apply map_ext. intro a. unfold Rdiv. ring. }
      rewrite EV. apply same_eq_bind. intros v Ev. apply same_eq_bind. intros l _. cbn. split; [|reflexivity]. split; [reflexivity|]. split.
      + unfold sub in Ev. destruct (Nat.eqb_spec (length (sg_w s)) (length (vscale (/ INR bs * lr) c))) as [E2|]; [|discriminate]. injection Ev as <-. rewrite vsub_length; auto.
      + exists c. split; [reflexivity|]. split; [congruence|reflexivity].
    - unfold sub. rewrite vscale_length. destruct (Nat.eqb_spec (length (sg_w s)) (length c)); [congruence|]. exact I.
  Qed.
End Sgd.
