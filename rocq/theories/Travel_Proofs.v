(** How far a run of SGD moves the weights, and the perceptron convergence argument. *)
From Coq Require Import Reals Lra Psatz.
From Verif Require Import Base Common_Model KDReal_Proofs Impurity_Spec Impurity_Proofs Vec Loss_Model Loss_Spec Loss_Proofs LossHinge_Proofs Metric_Proofs
  Shuffle_Model Optim_Model Optim_Spec Optim_Proofs Descent_Proofs Properties_Optim.
Local Open Scope R_scope.
Set Implicit Arguments.

(** * Sums of rates *)
Lemma rates_sum K : total (map (fun e => (1 / 2) ^ ((1 + e) / 10)) (seq 0 K)) = 19 - (20 - INR ((1 + K) mod 10)) * (1 / 2) ^ ((1 + K) / 10).
Proof.
  induction K as [|K IH]; [cbn; lra|]. rewrite seq_S, map_app, total_app, IH. cbn [map]. unfold total at 1. cbn [fold_right]. rewrite Nat.add_0_l.
  pose proof (Nat.div_mod_eq (1 + K) 10) as D. pose proof (Nat.mod_upper_bound (1 + K) 10 ltac:(lia)) as B. set (q := ((1 + K) / 10)%nat) in *. set (r := ((1 + K) mod 10)%nat) in *.
  replace (1 + S K)%nat with (S (1 + K)) by lia. destruct (Nat.eq_dec r 9) as [E|E].
  - assert (Dq : (S (1 + K) / 10 = S q)%nat) by (symmetry; apply (Nat.div_unique _ 10 (S q) 0); lia).
    assert (Dr : (S (1 + K) mod 10 = 0)%nat) by (symmetry; apply (Nat.mod_unique _ 10 (S q) 0); lia). rewrite Dq, Dr, E. cbn [pow]. change (INR 9) with (1 + 1 + 1 + 1 + 1 + 1 + 1 + 1 + 1). cbn [INR]. lra.
  - assert (Dq : (S (1 + K) / 10 = q)%nat) by (symmetry; apply (Nat.div_unique _ 10 q (S r)); lia).
    assert (Dr : (S (1 + K) mod 10 = S r)%nat) by (symmetry; apply (Nat.mod_unique _ 10 q (S r)); lia). rewrite Dq, Dr, S_INR. lra.
Qed.
Lemma rates_below K : total (map (fun e => (1 / 2) ^ ((1 + e) / 10)) (seq 0 K)) <= 19.
Proof.
  rewrite rates_sum. pose proof (Nat.mod_upper_bound (1 + K) 10 ltac:(lia)) as B. assert (INR ((1 + K) mod 10) <= INR 20) by (apply le_INR; lia).
  replace (INR 20) with 20 in H by (cbn; lra). pose proof (pow_lt (1 / 2) ((1 + K) / 10) ltac:(lra)). nra.
Qed.

(** * The samples of an epoch *)
Definition samples {A B} (bl : list (list A * list B)) : list (A * B) := flat_map (fun b => combine (fst b) (snd b)) bl.
Lemma combine_app_eq {A B} (a c : list A) (b d : list B) : length a = length b -> combine (a ++ c) (b ++ d) = combine a b ++ combine c d.
Proof. revert b; induction a as [|x a IH]; intros [|y b] H; cbn in H; try discriminate; auto. cbn. f_equal. apply IH. lia. Qed.
Lemma in_batches_samples {A B} size (X : list A) (y : list B) bl : in_batches size X y bl ->
  exists rest, combine X y = samples bl ++ rest /\ ((size <> 0 -> length X mod size = 0)%nat -> rest = []).
Proof.
  intros (Hb & (rX & EX & LX) & (ry & Ey & Ly)).
  assert (E : combine (concat (map fst bl)) (concat (map snd bl)) = samples bl /\ length (concat (map fst bl)) = (length bl * size)%nat /\ length (concat (map snd bl)) = (length bl * size)%nat).
  { clear EX Ey. induction bl as [|b bl IH]; [auto|]. destruct (Hb b ltac:(now left)) as (L1 & L2). destruct IH as (IH & I1 & I2); [intros; apply Hb; now right|]. cbn [map concat].
    rewrite !app_length, I1, I2, L1, L2. rewrite combine_app_eq by congruence. rewrite IH. cbn [length Nat.mul]. auto. }
  destruct E as (E & L1 & L2). exists (combine rX ry). subst X y. rewrite combine_app_eq by congruence. rewrite E. split; [auto|].
  intro H. specialize (H ltac:(lia)). rewrite app_length, L1 in H. rewrite Nat.add_comm, Nat.mod_add, Nat.mod_small in H by lia. destruct rX; [reflexivity|discriminate].
Qed.
Lemma in_samples {A B} (bl : list (list A * list B)) b : In b bl -> incl (combine (fst b) (snd b)) (samples bl).
Proof. intros H p Hp. apply in_flat_map. eauto. Qed.

(** * Travel *)
Section Travel.
  Context {Row Lab : Type}.
  Variable gradient : list Row -> list Lab -> list R -> outcome (list R).
  Variable evaluate : list Row -> list Lab -> list R -> outcome R.
  Variables (i d : nat) (cost : Row * Lab -> R).
  Hypothesis Hc : forall p, 0 <= cost p.
  Let step := sgd_step gradient evaluate clip_grad vanilla_update.

  Lemma step_travel w lr j Xb yb w' loss C : 0 <= lr -> 0 <= C -> length w = d ->
    (forall g, gradient Xb yb w = Ok g -> Rabs (nth i g 0) <= C) -> step w lr j Xb yb = Ok (w', loss) ->
    length w' = d /\ Rabs (nth i w' 0 - nth i w 0) <= lr * C.
  Proof.
    intros Hl HC L HG E. destruct (@C36_batch _ _ gradient evaluate w lr j Xb yb w' loss E) as (g & Eg & _ & Lw' & _ & H). split; [congruence|].
    destruct (Nat.lt_ge_cases i (length w)) as [Hi|Hi].
    - destruct (H i Hi) as (c & Ec & C1 & C2 & C3). rewrite Ec. replace (nth i w 0 - lr * c - nth i w 0) with (- (lr * c)) by ring. rewrite Rabs_Ropp, Rabs_mult, (Rabs_right lr) by lra.
      apply Rmult_le_compat_l; [lra|]. specialize (HG g Eg). revert HG C1 C2 C3. assert (P : 0 < 10 ^ 10) by (apply pow_lt; lra). revert P. generalize (10 ^ 10). intros T P HG C1 C2 C3.
      destruct (Rle_dec (Rabs (nth i g 0)) T) as [Q|Q]; [rewrite C1; auto|]. apply Rnot_le_lt in Q.
      destruct (Rle_dec 0 (nth i g 0)) as [S|S].
      + rewrite Rabs_right in Q, HG by lra. rewrite C2 by lra. rewrite Rabs_right; lra.
      + rewrite Rabs_left in Q, HG by lra. rewrite C3 by lra. rewrite Rabs_Ropp, Rabs_right; lra.
    - rewrite !nth_overflow by lia. rewrite Rminus_0_r, Rabs_R0. apply Rmult_le_pos; auto.
  Qed.
  Lemma costs_nonneg l : 0 <= total (map cost l).
  Proof. induction l as [|p l IH]; unfold total in *; cbn; [lra|]. specialize (Hc p). lra. Qed.

  Lemma epoch_travel lr bl j s s' L : epoch_run step lr j bl s s' L -> 0 <= lr -> length s = d ->
    (forall Xb yb v g, In (Xb, yb) bl -> length v = d -> gradient Xb yb v = Ok g -> Rabs (nth i g 0) <= total (map cost (combine Xb yb))) ->
    length s' = d /\ Rabs (nth i s' 0 - nth i s 0) <= lr * total (map cost (samples bl)).
  Proof.
    intros H Hl. induction H as [j s|j X y bl s s1 s2 l L E H IH]; intros Ls HG.
    - split; [auto|]. replace (nth i s 0 - nth i s 0) with 0 by ring. rewrite Rabs_R0. cbn. lra.
    - destruct (@step_travel s lr j X y s1 l (total (map cost (combine X y))) Hl (costs_nonneg _) Ls) as (L1 & T1); auto; [intros g Eg; apply (HG X y s g); auto; now left|].
      destruct (IH L1) as (L2 & T2); [intros Xb yb v g Hb; apply HG; now right|]. split; [auto|]. unfold samples in *. cbn [flat_map fst snd]. rewrite map_app, total_app.
      replace (nth i s2 0 - nth i s 0) with ((nth i s2 0 - nth i s1 0) + (nth i s1 0 - nth i s 0)) by ring. pose proof (Rabs_triang (nth i s2 0 - nth i s1 0) (nth i s1 0 - nth i s 0)). lra.
  Qed.

  Variables (decay : nat -> outcome R) (rate : nat -> R) (shuffle : bool) (bs : nat) (X : list Row) (y : list Lab) (w0 : list R).
  Hypothesis Hw : length w0 = d.
  Hypothesis Hbs : (0 < bs)%nat.
  Hypothesis HG : forall Xb yb v g, length Xb = bs -> length yb = bs -> incl (combine Xb yb) (combine X y) -> length v = d -> gradient Xb yb v = Ok g ->
    Rabs (nth i g 0) <= total (map cost (combine Xb yb)).

  Lemma run_travel K data state loss : (forall e, (e < K)%nat -> decay e = Ok (rate e) /\ 0 <= rate e) -> training_run step decay shuffle bs X y w0 K data state loss ->
    length (state K) = d /\ Rabs (nth i (state K) 0 - nth i w0 0) <= total (map rate (seq 0 K)) * total (map cost (combine X y)).
  Proof.
    intros Hr (E0 & H). assert (G : forall k, (k <= K)%nat -> length (state k) = d /\ Rabs (nth i (state k) 0 - nth i w0 0) <= total (map rate (seq 0 k)) * total (map cost (combine X y))); [|apply G; lia].
    induction k as [|k IH]; intro Hk.
    - rewrite E0. split; [auto|]. replace (nth i w0 0 - nth i w0 0) with 0 by ring. rewrite Rabs_R0. cbn. lra.
    - destruct IH as (Lk & Tk); [lia|]. destruct (H k ltac:(lia)) as ((_ & _ & P) & _ & lr & bl & Ed & IB & ER). destruct (Hr k ltac:(lia)) as (Ed' & Hp). rewrite Ed' in Ed. injection Ed as <-.
      destruct (in_batches_samples IB) as (rest & Er & _).
      destruct (@epoch_travel (rate k) bl 0 (state k) (state (S k)) (loss k) ER Hp Lk) as (L' & T').
      { intros Xb yb v g Hb Lv Eg. destruct (proj1 IB _ Hb) as (B1 & B2). apply (HG (v := v)); auto. intros p Hp'. apply (Permutation_in _ (Permutation_sym P)). rewrite Er. apply in_or_app. left. exact (in_samples bl _ Hb _ Hp'). }
      split; [auto|]. rewrite seq_S, map_app, total_app, Nat.add_0_l. replace (total (map rate [k])) with (rate k) by (unfold total; cbn; lra).
      assert (S : total (map cost (samples bl)) <= total (map cost (combine X y))).
      { rewrite (total_perm (Permutation_map cost P)), Er, map_app, total_app. pose proof (costs_nonneg rest). lra. }
      replace (nth i (state (Datatypes.S k)) 0 - nth i w0 0) with ((nth i (state (Datatypes.S k)) 0 - nth i (state k) 0) + (nth i (state k) 0 - nth i w0 0)) by ring.
      pose proof (Rabs_triang (nth i (state (Datatypes.S k)) 0 - nth i (state k) 0) (nth i (state k) 0 - nth i w0 0)). pose proof (Rmult_le_compat_l _ _ _ Hp S). lra.
  Qed.
End Travel.

(** * Entries of the gradients of generalised linear losses *)
Lemma nth_unit (x : list R) i : (i < length x)%nat -> dot x (unit (length x) i) = nth i x 0.
Proof. intro H. apply dot_unit. apply nth_error_nth'. exact H. Qed.
Lemma Rabs_total {A} (f : A -> R) l : Rabs (total (map f l)) <= total (map (fun p => Rabs (f p)) l).
Proof. induction l as [|p l IH]; unfold total in *; cbn; [rewrite Rabs_R0; lra|]. eapply Rle_trans; [apply Rabs_triang|]. lra. Qed.
Lemma glm_entry (dphi : R -> R -> R) c Xb yb v i (size : R * R -> R) : shapes Xb yb v -> 0 <= c ->
  (forall p, In p (combine Xb yb) -> Rabs (dphi (snd p) (dot (fst p) v)) * Rabs (nth i (fst p) 0) <= size (snd p, nth i (fst p) 0)) -> (forall p, 0 <= size p) ->
  Rabs (nth i (glm_grad dphi c 0 Xb yb v) 0) <= total (map (fun p => c * size (snd p, nth i (fst p) 0)) (combine Xb yb)).
Proof.
  intros HS Hc H Hs. pose proof (glm_grad_length dphi c 0 HS) as L. assert (P : 0 <= total (map (fun p => c * size (snd p, nth i (fst p) 0)) (combine Xb yb))) by (apply total_nonneg; intros; apply Rmult_le_pos; auto).
  destruct (Nat.lt_ge_cases i (length v)) as [Hi|Hi]; [|rewrite nth_overflow by lia; rewrite Rabs_R0; exact P].
  rewrite <- nth_unit by lia. rewrite L, glm_grad_dot by (auto; apply unit_length). unfold Rdiv. rewrite !Rmult_0_l, Rplus_0_r, Rabs_mult, (Rabs_right c) by lra.
  eapply Rle_trans; [apply Rmult_le_compat_l; [exact Hc|apply Rabs_total]|].
  assert (G : forall l, (forall p, In p l -> length (fst p) = length v /\ In p (combine Xb yb)) ->
    c * total (map (fun p => Rabs (dphi (snd p) (dot (fst p) v) * dot (fst p) (unit (length v) i))) l) <= total (map (fun p => c * size (snd p, nth i (fst p) 0)) l)).
  { induction l as [|p l IH]; intro Hl; [unfold total; cbn; lra|]. specialize (IH ltac:(intros; apply Hl; now right)). destruct (Hl p ltac:(now left)) as (Lp & Ip). specialize (H p Ip).
    assert (TC : forall a m, total (a :: m) = a + total m) by reflexivity. cbn [map]. rewrite !TC, Rmult_plus_distr_l. apply Rplus_le_compat; [|exact IH]. apply Rmult_le_compat_l; [auto|]. rewrite Rabs_mult, <- Lp, nth_unit by lia. exact H. }
  apply G. intros (x, b) Hp. split; [|auto]. apply HS. exact (in_combine_l _ _ _ _ Hp).
Qed.
