(** Losses and optimizers on data with the features in another order. *)
From Coq Require Import Reals Lra.
From Verif Require Import Base Common_Model KDReal_Proofs Impurity_Spec Impurity_Model Impurity_Proofs Vec MathFun_Model Loss_Model Shuffle_Model Optim_Model Lbfgs_Model Linear_Model Units_Spec UnitsMono_Proofs Cols_Spec.
Local Open Scope R_scope.
Set Implicit Arguments.

Section Order.
  Variable d : nat.
  Variable s : list nat.
  Hypothesis Hs : column_order d s.
  Notation ro := (reorder 0 s).
  Notation rel := (reordered d s).

  Lemma order_length : length s = d.
  Proof. now rewrite <- (Permutation_length Hs), seq_length. Qed.
  Lemma order_lt j : In j s -> (j < d)%nat.
  Proof. intros H. apply (Permutation_in _ (Permutation_sym Hs)), in_seq in H. lia. Qed.
  Lemma ro_length {A} (z : A) v : length (reorder z s v) = d.
  Proof. unfold reorder. rewrite map_length. apply order_length. Qed.
  Lemma nth_all {A} (z : A) v : map (fun j => nth j v z) (seq 0 (length v)) = v.
  Proof.
    apply (nth_ext _ _ z z); [now rewrite map_length, seq_length|]. intros n Hn. rewrite map_length, seq_length in Hn.
    rewrite (nth_indep _ z (nth 0 v z)) by (rewrite map_length, seq_length; exact Hn). rewrite (map_nth (fun j => nth j v z)), seq_nth by exact Hn. reflexivity.
  Qed.
  Lemma ro_perm {A} (z : A) v : length v = d -> Permutation v (reorder z s v).
  Proof. intros H. rewrite <- (nth_all z v) at 1. rewrite H. unfold reorder. now apply Permutation_map. Qed.
  Lemma ro_map {A B} (z : A) (z' : B) (f : A -> B) v : length v = d -> reorder z' s (map f v) = map f (reorder z s v).
  Proof.
    intros H. unfold reorder. rewrite map_map. apply map_ext_in. intros j Hj. apply order_lt in Hj.
    rewrite (nth_indep _ z' (f z)) by (rewrite map_length; lia). apply map_nth.
  Qed.
  Lemma nth_map2 {A B C} (f : A -> B -> C) a b c u : forall v j, (j < length u)%nat -> length u = length v -> nth j (map2 f u v) c = f (nth j u a) (nth j v b).
  Proof. induction u as [|x u IH]; intros [|y v] j Hj HL; cbn in *; try lia. destruct j; [reflexivity|]. apply IH; lia. Qed.
  Lemma ro_map2 {A B C} (a : A) (b : B) (c : C) (f : A -> B -> C) u v : length u = d -> length v = d ->
    reorder c s (map2 f u v) = map2 f (reorder a s u) (reorder b s v).
  Proof.
    intros Hu Hv. unfold reorder.
    assert (E : forall l, (forall j, In j l -> (j < d)%nat) -> map (fun j => nth j (map2 f u v) c) l = map2 f (map (fun j => nth j u a) l) (map (fun j => nth j v b) l)).
    { induction l as [|j l IH]; intros Hl; [reflexivity|]. cbn [map map2]. rewrite IH by (intros; apply Hl; now right). f_equal. apply nth_map2; [|congruence]. rewrite Hu. apply Hl. now left. }
    apply E. exact order_lt.
  Qed.
  Lemma total_perm' u v : Permutation u v -> total u = total v.
  Proof. induction 1; cbn; unfold total in *; try lra. Qed.
  Lemma ro_zeros : ro (zeros d) = zeros d.
  Proof.
    assert (Z : forall n j, nth j (zeros n) 0 = 0) by (induction n as [|n IH]; intros [|j]; try reflexivity; apply IH).
    assert (E : forall l, map (fun j => nth j (zeros d) 0) l = zeros (length l)) by (induction l as [|j l IH]; [reflexivity|]; cbn [map length]; rewrite IH, Z; reflexivity).
    unfold reorder. rewrite E. now rewrite order_length.
  Qed.

  (** Operations on vectors. *)
  Lemma rel_len u u' : rel u u' -> length u = d /\ length u' = d.
  Proof. intros (H & ->). split; [exact H|apply ro_length]. Qed.
  Lemma rel_map f u u' : rel u u' -> rel (map f u) (map f u').
  Proof. intros (H & ->). split; [now rewrite map_length|]. symmetry. now apply ro_map. Qed.
  Lemma rel_map2 f u u' v v' : rel u u' -> rel v v' -> rel (map2 f u v) (map2 f u' v').
  Proof. intros (H & ->) (G & ->). split; [rewrite map2_length; congruence|]. symmetry. now apply ro_map2. Qed.
  Lemma rel_total u u' : rel u u' -> total u' = total u.
  Proof. intros (H & ->). apply total_perm', Permutation_sym. now apply ro_perm. Qed.
  Lemma rel_Rsum u u' : rel u u' -> Rsum u' = Rsum u.
  Proof. intros H. rewrite !Rsum_total. now apply rel_total. Qed.
  Lemma rel_dot u u' v v' : rel u u' -> rel v v' -> dot u' v' = dot u v.
  Proof. intros H G. unfold dot. apply rel_total. now apply rel_map2. Qed.
  Lemma rel_zeros : rel (zeros d) (zeros d).
  Proof. split; [apply zeros_length|symmetry; apply ro_zeros]. Qed.
  Lemma rel_vscale c u u' : rel u u' -> rel (vscale c u) (vscale c u').
  Proof. apply rel_map. Qed.
  Lemma rel_vadd u u' v v' : rel u u' -> rel v v' -> rel (vadd u v) (vadd u' v').
  Proof. apply rel_map2. Qed.
  Lemma rel_add u u' v v' : rel u u' -> rel v v' -> same_outcome rel (add u v) (add u' v').
  Proof.
    intros H G. unfold add. destruct (rel_len H) as (-> & ->). destruct (rel_len G) as (-> & ->). rewrite Nat.eqb_refl. now apply rel_vadd.
  Qed.
  Lemma rel_sub u u' v v' : rel u u' -> rel v v' -> same_outcome rel (sub u v) (sub u' v').
  Proof.
    intros H G. unfold sub. destruct (rel_len H) as (-> & ->). destruct (rel_len G) as (-> & ->). rewrite Nat.eqb_refl. now apply rel_map2.
  Qed.
  Lemma rel_dotM u u' v v' : rel u u' -> rel v v' -> dotM u' v' = dotM u v.
  Proof.
    intros H G. unfold dotM. destruct (rel_len H) as (-> & ->). destruct (rel_len G) as (-> & ->). rewrite Nat.eqb_refl. f_equal. now apply rel_dot.
  Qed.
  Lemma rel_norm2 u u' : rel u u' -> norm2 u' = norm2 u.
  Proof. intros H. unfold norm2. f_equal. apply rel_Rsum. now apply rel_map. Qed.

  (** Products with a matrix of data. *)
  Lemma rel_mv X X' W W' : Forall2 rel X X' -> rel W W' -> mv X' W' = mv X W.
  Proof.
    intros HX HW. unfold mv. induction HX as [|x x' X X' Hx HX IH]; [reflexivity|]. cbn [mapM]. rewrite IH.
    destruct (rel_len Hx) as (-> & ->). destruct (rel_len HW) as (-> & ->). now rewrite (rel_dot Hx HW).
  Qed.
  Lemma rel_cols X X' W W' : Forall2 rel X X' -> rel W W' -> cols X W = d /\ cols X' W' = d.
  Proof. intros HX HW. destruct HX as [|x x' X X' Hx HX]; cbn; [apply (rel_len HW)|apply (rel_len Hx)]. Qed.
  Lemma rel_vsum xs xs' : Forall2 rel xs xs' -> rel (vsum d xs) (vsum d xs').
  Proof. induction 1 as [|x x' xs xs' Hx H IH]; [apply rel_zeros|]. now apply rel_vadd. Qed.
  Lemma rel_scaled v X X' : Forall2 rel X X' -> Forall2 rel (map2 vscale v X) (map2 vscale v X').
  Proof. intros H. revert v. induction H as [|x x' X X' Hx H IH]; intros [|c v]; try constructor; [now apply rel_vscale|apply IH]. Qed.
  Lemma forall2_len {A B} (r : A -> B -> Prop) u v : Forall2 r u v -> length v = length u.
  Proof. induction 1; cbn; congruence. Qed.
  Lemma rel_tmv v X X' : Forall2 rel X X' -> same_outcome rel (tmv d X v) (tmv d X' v).
  Proof. intros H. unfold tmv. rewrite (forall2_len H). destruct (length X =? length v)%nat; [|exact I]. cbn. now apply rel_vsum, rel_scaled. Qed.
  Lemma rel_with_reg lambda n g g' W W' : rel g g' -> rel W W' -> same_outcome rel (with_reg lambda n g W) (with_reg lambda n g' W').
  Proof. intros H G. unfold with_reg. apply rel_add; [exact H|]. now apply rel_vscale, rel_map. Qed.
  Lemma rel_reg n W W' : rel W W' -> reg_term n W' = reg_term n W.
  Proof. intros H. unfold reg_term. now rewrite (rel_dot H H). Qed.

  (** The losses. *)
  Definition loss_rel (evaluate : list (list R) -> list R -> list R -> outcome R) (gradient : list (list R) -> list R -> list R -> outcome (list R))
    (gradient' : list (list R) -> list R -> list R -> outcome (list R)) : Prop :=
    forall X X' y W W', Forall2 rel X X' -> rel W W' -> evaluate X' y W' = evaluate X y W /\ same_outcome rel (gradient X y W) (gradient' X' y W').
  Lemma same_bind {A B B'} (r : B -> B' -> Prop) (o : outcome A) k k' : (forall a, o = Ok a -> same_outcome r (k a) (k' a)) -> same_outcome r (bind o k) (bind o k').
  Proof. destruct o; cbn; auto. Qed.
  Lemma mse_rel lambda : loss_rel (mse_evaluate lambda) (mse_gradient lambda) (mse_gradient lambda).
  Proof.
    intros X X' y W W' HX HW. unfold mse_evaluate, mse_gradient. rewrite (forall2_len HX), (rel_mv HX HW), (rel_reg _ HW). split; [reflexivity|].
    destruct (rel_cols HX HW) as (-> & ->). apply same_bind. intros p _. apply same_bind. intros q _.
    eapply orel_bind; [now apply rel_tmv|]. intros g g' _ _ Hg. apply rel_with_reg; [now apply rel_map|exact HW].
  Qed.
  Lemma log_rel lambda : loss_rel (log_evaluate lambda) (log_gradient lambda) (log_gradient lambda).
  Proof.
    intros X X' y W W' HX HW. unfold log_evaluate, log_gradient. rewrite (forall2_len HX), (rel_mv HX HW), (rel_reg _ HW). split; [reflexivity|].
    destruct (rel_cols HX HW) as (-> & ->). apply same_bind. intros p _. apply same_bind. intros q _.
    eapply orel_bind; [now apply rel_tmv|]. intros g g' _ _ Hg. apply rel_with_reg; [now apply rel_map|exact HW].
  Qed.
  Lemma huber_rel lambda delta : loss_rel (huber_evaluate lambda delta) (huber_gradient lambda delta) (huber_gradient lambda delta).
  Proof.
    intros X X' y W W' HX HW. unfold huber_evaluate, huber_gradient. rewrite (forall2_len HX), (rel_mv HX HW), (rel_reg _ HW). split; [reflexivity|].
    destruct (rel_cols HX HW) as (-> & ->). apply same_bind. intros p _. apply same_bind. intros q _. apply same_bind. intros t _.
    apply (@orel_bind _ _ _ _ rel); [|intros g g' _ _ Hg; now apply rel_with_reg].
    destruct (negb _); (eapply orel_bind; [now apply rel_tmv|]; intros g g' _ _ Hg; cbn [same_outcome]; now apply rel_map).
  Qed.
  Lemma vget_rel {A B} (r : A -> B -> Prop) u v j : Forall2 r u v -> same_outcome r (vget u j) (vget v j).
  Proof. intros H. revert j. induction H as [|a b u v Hab H IH]; intros [|j]; cbn; auto. apply IH. Qed.
  Lemma hinge_rel grad0 grad0' lambda threshold : rel grad0 grad0' ->
    loss_rel (hinge_evaluate lambda threshold) (hinge_gradient grad0 lambda threshold) (hinge_gradient grad0' lambda threshold).
  Proof.
    intros H0 X X' y W W' HX HW. unfold hinge_evaluate, hinge_gradient. rewrite (forall2_len HX), (rel_mv HX HW), (rel_reg _ HW). split; [reflexivity|].
    destruct (rel_cols HX HW) as (-> & ->). apply same_bind. intros p _.
    apply (@orel_bind _ _ _ _ rel); [|intros g g' _ _ Hg; now apply rel_with_reg].
    apply (@orel_foldM _ _ _ _ rel eq); [clear; induction (seq 0 (length X)); constructor; auto| |exact H0].
    intros g g' j j' <- Hg. apply same_bind. intros xw _. apply same_bind. intros yi _. eapply orel_bind; [eapply vget_rel; exact HX|]. intros x x' _ _ Hx.
    destruct (Rltb _ _); apply rel_add; try exact Hg; [apply rel_zeros|now apply rel_vscale].
  Qed.

  (** Updates of the weights. *)
  Definition update_rel (update : list R -> list R -> R -> outcome (list R)) : Prop :=
    forall W W' g g' lr, rel W W' -> rel g g' -> same_outcome rel (update W g lr) (update W' g' lr).
  Lemma vanilla_rel : update_rel vanilla_update.
  Proof. intros W W' g g' lr HW Hg. apply rel_sub; [exact HW|now apply rel_vscale]. Qed.
  Lemma momentum_rel mu : update_rel (momentum_update mu).
  Proof.
    intros W W' g g' lr HW Hg. unfold momentum_update. destruct (rel_len HW) as (-> & ->).
    eapply orel_bind; [apply rel_add; [apply rel_map, rel_zeros|apply rel_map, Hg]|]. intros V V' _ _ HV. now apply rel_sub.
  Qed.
  Lemma nesterov_rel mu : update_rel (nesterov_update mu).
  Proof.
    intros W W' g g' lr HW Hg. unfold nesterov_update. destruct (rel_len HW) as (-> & ->).
    eapply orel_bind; [apply rel_add; [apply rel_vscale, rel_zeros|apply rel_vscale, Hg]|]. intros V V' _ _ HV.
    eapply orel_bind; [apply rel_sub; [exact HV|apply rel_zeros]|]. intros D D' _ _ HD.
    eapply orel_bind; [apply rel_add; [exact HV|apply rel_vscale, HD]|]. intros U U' _ _ HU. now apply rel_sub.
  Qed.
  Lemma clip_rel g g' : rel g g' -> rel (clip_grad g) (clip_grad g').
  Proof. apply rel_map. Qed.
End Order.

(** Runs of the epochs on related rows and states. *)
Section Loop.
  Context {Row Row' Lab S S' : Type}.
  Variable rr : Row -> Row' -> Prop.
  Variable rs : S -> S' -> Prop.
  Variable step : S -> R -> nat -> list Row -> list Lab -> outcome (S * R).
  Variable step' : S' -> R -> nat -> list Row' -> list Lab -> outcome (S' * R).
  Hypothesis Hstep : forall st st' lr j Xb Xb' yb, rs st st' -> Forall2 rr Xb Xb' ->
    same_outcome (fun a b => rs (fst a) (fst b) /\ snd b = snd a) (step st lr j Xb yb) (step' st' lr j Xb' yb).

  Lemma forall2_firstn {A B} (r : A -> B -> Prop) n u v : Forall2 r u v -> Forall2 r (firstn n u) (firstn n v).
  Proof. intros H. revert n. induction H; intros [|n]; cbn; constructor; auto. Qed.
  Lemma forall2_skipn {A B} (r : A -> B -> Prop) n u v : Forall2 r u v -> Forall2 r (skipn n u) (skipn n v).
  Proof. intros H. revert n. induction H; intros [|n]; cbn; auto. Qed.
  Lemma middle_rel X X' b n : Forall2 rr X X' -> same_outcome (Forall2 rr) (middle_rows X b n) (middle_rows X' b n).
  Proof. intros H. unfold middle_rows. rewrite (forall2_len H). destruct (_ <=? _)%nat; [|exact I]. cbn. now apply forall2_firstn, forall2_skipn. Qed.
  Lemma forall2_set_nth {A B} (r : A -> B -> Prop) j a b u v : Forall2 r u v -> r a b -> Forall2 r (set_nth u j a) (set_nth v j b).
  Proof. intros H Hab. revert j. induction H; intros [|j]; cbn; constructor; auto. Qed.
  Lemma permute_rel p X X' : Forall2 rr X X' -> same_outcome (Forall2 rr) (permute p X) (permute p X').
  Proof.
    intros H. unfold permute. rewrite (forall2_len H). destruct (_ =? _)%nat; [|exact I]. cbn [same_outcome].
    assert (G : forall q : list nat, Forall2 (fun (a : nat * Row) (b : nat * Row') => fst a = fst b /\ rr (snd a) (snd b)) (combine q X) (combine q X')).
    { clear - H. induction H as [|x x' X X' Hx H IH]; intros [|j q]; cbn; constructor; auto. }
    specialize (G p). revert G H. generalize (combine p X) (combine p X'). generalize X X'. intros U U' l l' G. revert U U'.
    induction G as [|a b l l' (E & Hab) G IH]; intros U U' HU; [exact HU|]. cbn [fold_left]. apply IH. rewrite E. now apply forall2_set_nth.
  Qed.
  Lemma reshuffle_rel perm shuffle it X X' (y : list Lab) : Forall2 rr X X' ->
    same_outcome (fun a b => Forall2 rr (fst a) (fst b) /\ snd b = snd a) (reshuffle perm shuffle it X y) (reshuffle perm shuffle it X' y).
  Proof.
    intros H. unfold reshuffle, shuffle_data2. destruct shuffle; [|cbn; auto]. eapply orel_bind; [apply permute_rel, H|]. intros a b _ _ Hab.
    apply same_bind. intros c _. cbn. auto.
  Qed.
  Lemma epoch_rel decay bs it X X' y st st' : Forall2 rr X X' -> rs st st' ->
    same_outcome (fun a b => rs (fst a) (fst b) /\ snd b = snd a) (run_epoch step decay bs it X y st) (run_epoch step' decay bs it X' y st').
  Proof.
    intros HX Hst. unfold run_epoch. apply same_bind. intros lr _. rewrite (forall2_len HX).
    eapply orel_bind.
    - apply (@orel_foldM _ _ _ _ (fun (a : S * list R) (b : S' * list R) => rs (fst a) (fst b) /\ snd b = snd a) eq) with (l := seq 0 (length X / bs)); [clear; induction (seq 0 (length X / bs)); constructor; auto| |split; [exact Hst|reflexivity]].
      intros a b j j' <- (Ha & Hb). unfold run_batch. eapply orel_bind; [apply middle_rel, HX|]. intros Xb Xb' _ _ HXb. apply same_bind. intros yb _.
      eapply orel_bind; [apply Hstep; [exact Ha|exact HXb]|]. intros c c' _ _ (Hc & Hc'). cbn. split; [exact Hc|congruence].
    - intros a b _ _ (Ha & Hb). cbn. split; [exact Ha|congruence].
  Qed.
  Lemma epochs_rel decay perm shuffle bs nc tol iters : forall X X' y best count st st', Forall2 rr X X' -> rs st st' ->
    same_outcome rs (epochs step decay perm shuffle bs nc tol iters X y best count st) (epochs step' decay perm shuffle bs nc tol iters X' y best count st').
  Proof.
    induction iters as [|it rest IH]; intros X X' y best count st st' HX Hst; cbn [epochs]; [reflexivity|].
    eapply orel_bind; [apply reshuffle_rel, HX|]. intros a b _ _ (Ha & Hb). rewrite Hb. eapply orel_bind; [apply epoch_rel; [exact Ha|exact Hst]|].
    intros c c' _ _ (Hc & Hc'). rewrite Hc'. destruct (nc <=? _)%nat; [exact Hc|]. now apply IH.
  Qed.
  Lemma optimize_rel decay perm shuffle bs nc tol n X X' y st st' : Forall2 rr X X' -> rs st st' ->
    same_outcome rs (optimize step decay perm shuffle bs nc tol n X y st) (optimize step' decay perm shuffle bs nc tol n X' y st').
  Proof. intros HX Hst. unfold optimize. destruct (bs =? 0)%nat; [exact I|]. now apply epochs_rel. Qed.
End Loop.

Section Runs.
  Variable d : nat.
  Variable s : list nat.
  Hypothesis Hs : column_order d s.
  Notation rel := (reordered d s).
  Variable evaluate : list (list R) -> list R -> list R -> outcome R.
  Variables gradient gradient' : list (list R) -> list R -> list R -> outcome (list R).
  Hypothesis Hloss : loss_rel d s evaluate gradient gradient'.
  Variable update : list R -> list R -> R -> outcome (list R).
  Hypothesis Hup : update_rel d s update.

  Lemma sgd_rel w w' lr j X X' y : rel w w' -> Forall2 rel X X' ->
    same_outcome (fun a b => rel (fst a) (fst b) /\ snd b = snd a) (sgd_step gradient evaluate clip_grad update w lr j X y) (sgd_step gradient' evaluate clip_grad update w' lr j X' y).
  Proof.
    intros Hw HX. unfold sgd_step. eapply orel_bind; [apply Hloss; [exact HX|exact Hw]|]. intros g g' _ _ Hg.
    eapply orel_bind; [apply Hup; [exact Hw|apply (clip_rel Hs Hg)]|]. intros v v' _ _ Hv. rewrite (proj1 (Hloss y HX Hv)). apply same_bind. intros l _. cbn. auto.
  Qed.
  Definition sag_rel (a b : sag_state) : Prop := rel (sg_w a) (sg_w b) /\ rel (sg_avg a) (sg_avg b) /\ Forall2 rel (sg_hist a) (sg_hist b).
  Lemma sag_init_rel w w' n : rel w w' -> sag_rel (sag_init w d n) (sag_init w' d n).
  Proof.
    intros H. split; [exact H|]. split; [apply (rel_zeros Hs)|]. cbn. induction n; constructor; [apply (rel_zeros Hs)|assumption].
  Qed.
  Lemma sag_step_rel bs a b lr j X X' y : sag_rel a b -> Forall2 rel X X' ->
    same_outcome (fun a b => sag_rel (fst a) (fst b) /\ snd b = snd a) (sag_step gradient evaluate update bs a lr j X y) (sag_step gradient' evaluate update bs b lr j X' y).
  Proof.
    intros (Hw & Ha & Hh) HX. unfold sag_step. eapply orel_bind; [apply Hloss; [exact HX|exact Hw]|]. intros g g' _ _ Hg. apply (clip_rel Hs) in Hg.
    eapply orel_bind; [apply vget_rel, Hh|]. intros o o' _ _ Ho. eapply orel_bind; [apply (rel_sub Hs Hg Ho)|]. intros e e' _ _ He.
    eapply orel_bind; [apply (rel_add Hs Ha); apply (rel_map Hs), He|]. intros v v' _ _ Hv.
    eapply orel_bind; [apply Hup; [exact Hw|exact Hv]|]. intros w w' _ _ Hw'. rewrite (proj1 (Hloss y HX Hw')). apply same_bind. intros l _. cbn.
    split; [|reflexivity]. split; [exact Hw'|]. split; [exact Hv|]. now apply forall2_set_nth.
  Qed.
  Definition tg_rel (a b : tg_state) : Prop := rel (tg_w a) (tg_w b) /\ rel (tg_cum a) (tg_cum b) /\ tg_max b = tg_max a.
  Lemma tg_step_rel alpha l1 a b lr j X X' y : tg_rel a b -> Forall2 rel X X' ->
    same_outcome (fun a b => tg_rel (fst a) (fst b) /\ snd b = snd a) (tg_step gradient evaluate update alpha l1 a lr j X y) (tg_step gradient' evaluate update alpha l1 b lr j X' y).
  Proof.
    intros (Hw & Hc & Hm) HX. unfold tg_step. eapply orel_bind; [apply Hloss; [exact HX|exact Hw]|]. intros g g' _ _ Hg. apply (clip_rel Hs) in Hg.
    eapply orel_bind; [apply Hup; [exact Hw|exact Hg]|]. intros w w' _ _ Hw'. rewrite Hm.
    eapply orel_bind with (r := fun a b => rel (fst a) (fst b) /\ rel (snd a) (snd b)).
    - unfold truncate. destruct (rel_len Hs Hw') as (-> & ->). destruct (rel_len Hs Hc) as (-> & ->). rewrite Nat.leb_refl. cbn.
      split; [apply (rel_map2 Hs _ Hw' Hc)|apply (rel_zeros Hs)].
    - intros t t' _ _ (Ht & Ht'). rewrite (proj1 (Hloss y HX Ht)). apply same_bind. intros l _. cbn. repeat split; assumption || apply Ht || apply Ht'.
  Qed.
End Runs.
