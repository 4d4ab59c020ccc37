(** Mini-batches: every step brings the weights closer to any other weights, up to what those lose on the batch. *)
From Coq Require Import Reals Lra Psatz.
From Verif Require Import Base Common_Model Impurity_Spec Impurity_Proofs Vec Loss_Model Loss_Spec Loss_Proofs Shuffle_Model Optim_Model Optim_Spec Optim_Proofs OptimSteps_Proofs OptimRun_Proofs OptimSteps_Proofs
  Perceptron_Proofs Descent_Spec Descent_Proofs Travel_Proofs Minibatch_Spec.
Local Open Scope R_scope.
Set Implicit Arguments.

Lemma total_cons a m : total (a :: m) = a + total m. Proof. reflexivity. Qed.
Lemma vsub_back : forall (u v : list R), length u = length v -> vsub (vsub u (vscale 1 v)) u = vscale (-1) v.
Proof. unfold vsub, vscale. induction u as [|a u IH]; intros [|b v] H; try discriminate; [reflexivity|]. cbn [map map2]. f_equal; [ring|]. apply IH. now injection H. Qed.
(** A non-negative function between tangents and parabolas grows at most like twice its value plus the squared distance. *)
Lemma tangent_growth F L u w g : tangent F L u g -> (forall v, length v = length u -> 0 <= F v) -> length w = length u -> F w <= 2 * F u + L * sqn (vsub w u).
Proof.
  intros (Lg & H) Fp Lw. destruct (H w Lw) as (_ & U). assert (Ld : length u = length (vsub w u)) by (rewrite vsub_length; auto).
  set (v := vsub u (vscale 1 (vsub w u))). assert (Lv : length v = length u) by (apply vsub_length; rewrite vscale_length; auto).
  destruct (H v Lv) as (_ & V). pose proof (Fp v Lv) as P. unfold v in V. rewrite vsub_back in V by auto. rewrite dot_vscale_r, sqn_vscale in V. fold v in V. lra.
Qed.
Lemma tangent_weaken F L L' w g : L <= L' -> tangent F L w g -> tangent F L' w g.
Proof.
  intros HL (Lg & H). split; [exact Lg|]. intros v Lv. destruct (H v Lv) as (A & B). split; [exact A|]. pose proof (sqn_nonneg (vsub v w)). nra.
Qed.

Lemma rates_nonneg rate K : (forall e, (e < K)%nat -> 0 < rate e) -> 0 <= sum_rates rate K.
Proof. intro H. apply total_nonneg. intros e He. apply in_seq in He. specialize (H e ltac:(lia)). lra. Qed.
Lemma rates_mono rate k K : (k <= K)%nat -> (forall e, (e < K)%nat -> 0 < rate e) -> sum_rates rate k <= sum_rates rate K.
Proof.
  intros Hk H. unfold sum_rates. replace K with (k + (K - k))%nat at 1 by lia. rewrite seq_app, map_app, total_app. match goal with |- _ <= _ + ?t => assert (0 <= t) end; [|lra].
  apply total_nonneg. intros e He. apply in_seq in He. specialize (H e ltac:(lia)). lra.
Qed.
Lemma sum_rates_S rate k : sum_rates rate (S k) = sum_rates rate k + rate k.
Proof. unfold sum_rates. rewrite seq_S, map_app, total_app, Nat.add_0_l. cbn [map]. rewrite total_cons. cbn. lra. Qed.
Lemma weighted_S rate loss k : weighted rate loss (S k) = weighted rate loss k + rate k * loss k.
Proof. unfold weighted. rewrite seq_S, map_app, total_app, Nat.add_0_l. cbn [map]. rewrite total_cons. cbn. lra. Qed.

Section Batches.
  Variables (gradient : list (list R) -> list R -> list R -> outcome (list R)) (evaluate : list (list R) -> list R -> list R -> outcome R).
  Variables (X : list (list R)) (y : list R) (w0 : list R) (bs : nat) (F : list (list R) -> list R -> list R -> R) (L : R).
  (** Batches of samples of the data *)
  Definition batch_of (Xb : list (list R)) (yb : list R) : Prop := length Xb = bs /\ length yb = bs /\ incl (combine Xb yb) (combine X y).
  Hypothesis Hloss : forall Xb yb w, batch_of Xb yb -> length w = length w0 ->
    evaluate Xb yb w = Ok (F Xb yb w) /\ 0 <= F Xb yb w /\ exists g, gradient Xb yb w = Ok g /\ tangent (F Xb yb) L w g.
  Hypothesis HL : 0 <= L.
  Let step := sgd_step gradient evaluate clip_grad vanilla_update.
  Variable u : list R.
  Hypothesis Lu : length u = length w0.
  (** What [u] loses on the batches [bl] *)
  Definition at_u (bl : list (list (list R) * list R)) : R := total (map (fun b => F (fst b) (snd b) u) bl).

  Lemma batch_step w lr j Xb yb w' l D : batch_of Xb yb -> length w = length w0 -> 0 < lr -> lr * L <= 1 -> sqn (vsub w u) <= D ->
    4 * L * F Xb yb u + 2 * L ^ 2 * D <= 10 ^ 20 -> step w lr j Xb yb = Ok (w', l) ->
    length w' = length w0 /\ 0 <= l /\ sqn (vsub w' u) + 2 * lr * (l - F Xb yb u) <= sqn (vsub w u).
  Proof.
    intros HB Lw P Q HD HC E. destruct (Hloss w HB Lw) as (_ & _ & g & Eg & Tg). destruct (Hloss u HB Lu) as (_ & _ & gu & _ & Tu).
    assert (L' : length (vsub w (vscale lr (clip_grad g))) = length w0) by (rewrite (step_length lr Tg); auto).
    assert (E' : step w lr j Xb yb = Ok (vsub w (vscale lr (clip_grad g)), F Xb yb (vsub w (vscale lr (clip_grad g))))).
    { unfold step, sgd_step. rewrite Eg; cbn [bind]. unfold vanilla_update. rewrite sub_Ok by (rewrite vscale_length, clip_length; symmetry; apply Tg). cbn [bind].
      destruct (Hloss _ HB L') as (-> & _). reflexivity. }
    rewrite E' in E. injection E as <- <-. split; [exact L'|]. split; [apply (Hloss _ HB L')|].
    apply (step_distance Tg P Q); [congruence|].
    assert (Fp : forall v, length v = length w -> 0 <= F Xb yb v) by (intros v Lv; apply (Hloss v HB); congruence).
    eapply Rle_trans; [apply (gradient_bound Tg HL Fp)|]. eapply Rle_trans; [|exact HC].
    assert (G : F Xb yb w <= 2 * F Xb yb u + L * sqn (vsub w u)) by (apply (@tangent_growth (F Xb yb) L u w gu Tu); [intros v Lv; apply (Hloss v HB); congruence|congruence]).
    assert (G2 : F Xb yb w <= 2 * F Xb yb u + L * D) by nra. apply (Rmult_le_compat_l (2 * L)) in G2; [|lra]. nra.
  Qed.

  Lemma at_u_nonneg bl : (forall b, In b bl -> batch_of (fst b) (snd b)) -> 0 <= at_u bl.
  Proof. intro H. apply total_nonneg. intros b Hb. apply (Hloss u (H b Hb) Lu). Qed.
  Lemma at_u_in bl b : (forall b, In b bl -> batch_of (fst b) (snd b)) -> In b bl -> F (fst b) (snd b) u <= at_u bl.
  Proof.
    intro H. unfold at_u. induction bl as [|c bl IH]; intros Hb; [destruct Hb|]. cbn [map]. rewrite total_cons.
    assert (H' : forall b, In b bl -> batch_of (fst b) (snd b)) by (intros; apply H; now right). pose proof (at_u_nonneg bl H') as P. unfold at_u in P.
    destruct Hb as [->|Hb]; [lra|]. specialize (IH H' Hb). destruct (Hloss u (H c ltac:(now left)) Lu) as (_ & Q & _). lra.
  Qed.

  Lemma epoch_closer lr bl j s s' loss D M : epoch_run step lr j bl s s' loss -> (forall b, In b bl -> batch_of (fst b) (snd b)) -> length s = length w0 -> 0 < lr -> lr * L <= 1 ->
    sqn (vsub s u) + 2 * lr * at_u bl <= D -> (forall b, In b bl -> F (fst b) (snd b) u <= M) -> 4 * L * M + 2 * L ^ 2 * D <= 10 ^ 20 ->
    length s' = length w0 /\ 0 <= loss /\ sqn (vsub s' u) + 2 * lr * (loss - at_u bl) <= sqn (vsub s u).
  Proof.
    intros H HB Ls P Q HD HM HC. revert HB Ls HD HM. induction H as [j s|j Xb yb bl s s1 s2 l LL E H IH]; intros HB Ls HD HM.
    - split; [exact Ls|]. unfold at_u. cbn. split; lra.
    - unfold at_u in *. cbn [map fst snd] in *. rewrite total_cons in *. assert (HB' : forall b, In b bl -> batch_of (fst b) (snd b)) by (intros; apply HB; now right).
      pose proof (HB (Xb, yb) ltac:(now left)) as B1. cbn [fst snd] in B1. pose proof (at_u_nonneg bl HB') as PU. unfold at_u in PU. destruct (Hloss u B1 Lu) as (_ & PF & _). pose proof (HM (Xb, yb) ltac:(now left)) as M1. cbn [fst snd] in M1.
      assert (C1 : 4 * L * F Xb yb u + 2 * L ^ 2 * D <= 10 ^ 20) by nra.
      destruct (@batch_step s lr j Xb yb s1 l D B1 Ls P Q ltac:(nra) C1 E) as (L1 & Pl & S1).
      destruct (IH HB' L1 ltac:(nra) ltac:(intros; apply HM; now right)) as (L2 & PL & S2). split; [exact L2|]. split; [lra|]. nra.
  Qed.

  Variables (decay : nat -> outcome R) (rate : nat -> R) (shuffle : bool) (T : R).
  Hypothesis Hy : length y = length X.
  Hypothesis HT : forall X' y' bl, reordered X X' y y' -> in_batches bs X' y' bl -> at_u bl <= T.

  Lemma batches_of X' y' bl : reordered X X' y y' -> in_batches bs X' y' bl -> forall b, In b bl -> batch_of (fst b) (snd b).
  Proof.
    intros (_ & _ & P) IB b Hb. destruct (proj1 IB b Hb) as (B1 & B2). split; [exact B1|]. split; [exact B2|]. destruct (in_batches_samples IB) as (rest & Er & _).
    intros p Hp. apply (Permutation_in _ (Permutation_sym P)). rewrite Er. apply in_or_app. left. exact (in_samples bl b Hb p Hp).
  Qed.
  Lemma run_closer K data state loss far_rates : (forall e, (e < K)%nat -> decay e = Ok (rate e) /\ 0 < rate e /\ rate e * L <= 1) -> sum_rates rate K <= far_rates ->
    0 <= T -> unclipped L (sqn (vsub w0 u)) T far_rates -> training_run step decay shuffle bs X y w0 K data state loss ->
    (forall k, (k < K)%nat -> 0 <= loss k) /\
    forall k, (k <= K)%nat -> length (state k) = length w0 /\ sqn (vsub (state k) u) + 2 * weighted rate loss k <= sqn (vsub w0 u) + 2 * T * sum_rates rate k.
  Proof.
    intros Hr Hfr PT HC (E0 & HR). unfold unclipped in HC. assert (Hpos : forall e, (e < K)%nat -> 0 < rate e) by (intros; now apply Hr).
    assert (S1 : forall k, (k < K)%nat -> length (state k) = length w0 -> 0 <= weighted rate loss k ->
      sqn (vsub (state k) u) + 2 * weighted rate loss k <= sqn (vsub w0 u) + 2 * T * sum_rates rate k ->
      length (state (S k)) = length w0 /\ 0 <= loss k /\ sqn (vsub (state (S k)) u) + 2 * rate k * (loss k - T) <= sqn (vsub (state k) u)).
    { intros k Hk Lk PW HI. destruct (HR k Hk) as (Hre & _ & lr & bl & Ed & IB & ER). destruct (Hr k Hk) as (Ed' & Hp & HpL). rewrite Ed' in Ed. injection Ed as <-.
      pose proof (batches_of Hre IB) as HB. pose proof (HT Hre IB) as TU. pose proof (at_u_nonneg bl HB) as PU.
      pose proof (@rates_mono rate (S k) K ltac:(lia) Hpos) as RM. rewrite sum_rates_S in RM.
      destruct (@epoch_closer (rate k) bl 0 (state k) (state (S k)) (loss k) (sqn (vsub w0 u) + 2 * far_rates * T) T ER HB Lk Hp HpL) as (A1 & A2 & A3).
      - assert (2 * T * (sum_rates rate k + rate k) <= 2 * far_rates * T) by nra. assert (rate k * at_u bl <= rate k * T) by nra. nra.
      - intros b Hb. pose proof (at_u_in bl b HB Hb). lra.
      - exact HC.
      - split; [exact A1|]. split; [exact A2|]. assert (rate k * at_u bl <= rate k * T) by nra. nra. }
    assert (G : forall k, (k <= K)%nat -> length (state k) = length w0 /\ 0 <= weighted rate loss k /\ sqn (vsub (state k) u) + 2 * weighted rate loss k <= sqn (vsub w0 u) + 2 * T * sum_rates rate k).
    { induction k as [|k IH]; intro Hk.
      - rewrite E0. unfold weighted, sum_rates. cbn. split; [reflexivity|]. split; lra.
      - destruct IH as (Lk & PW & HI); [lia|]. destruct (S1 k ltac:(lia) Lk PW HI) as (A1 & A2 & A3). rewrite weighted_S, sum_rates_S. pose proof (Hpos k ltac:(lia)). split; [exact A1|]. split; nra. }
    split.
    - intros k Hk. destruct (G k ltac:(lia)) as (A & B & C). now apply S1.
    - intros k Hk. destruct (G k Hk) as (A & B & C). auto.
  Qed.

  Lemma batch_total s lr j Xb yb : batch_of Xb yb -> length s = length w0 -> exists s' l, step s lr j Xb yb = Ok (s', l) /\ length s' = length w0.
  Proof.
    intros HB Lw. destruct (Hloss s HB Lw) as (_ & _ & g & Eg & Tg).
    assert (L' : length (vsub s (vscale lr (clip_grad g))) = length w0) by (rewrite (step_length lr Tg); auto).
    do 2 eexists. split; [|exact L']. unfold step, sgd_step. rewrite Eg; cbn [bind]. unfold vanilla_update. rewrite sub_Ok by (rewrite vscale_length, clip_length; symmetry; apply Tg). cbn [bind].
    destruct (Hloss _ HB L') as (-> & _). reflexivity.
  Qed.
End Batches.

(** * The two losses on batches *)
Lemma batch_shapes X y bs Xb yb w : (0 < bs)%nat -> shapes X y w -> batch_of X y bs Xb yb -> shapes Xb yb w.
Proof.
  intros B (_ & W & Hy) (L1 & L2 & I). split; [destruct Xb; [cbn in L1; lia|discriminate]|]. split; [|congruence]. intros x Hx. apply W. apply (@combine_fst_incl Xb X yb y); auto. congruence.
Qed.
Lemma reordered_refl {A B} (X : list A) (y : list B) : reordered X X y y. Proof. split; [reflexivity|]. split; [reflexivity|]. apply Permutation_refl. Qed.
Lemma batch_squares X y bs B Xb yb : (forall x, In x X -> sqn x <= B) -> batch_of X y bs Xb yb -> sum_squares Xb <= INR bs * B.
Proof.
  intros H (L1 & L2 & I). rewrite <- L1. assert (G : forall x, In x Xb -> sqn x <= B) by (intros x Hx; apply H; apply (@combine_fst_incl Xb X yb y); auto; congruence).
  clear - G. unfold sum_squares. induction Xb as [|x Xb IH]; [cbn; lra|]. cbn [map length]. rewrite total_cons, S_INR. specialize (IH ltac:(intros; apply G; now right)). specialize (G x ltac:(now left)). lra.
Qed.
Lemma mse_batches lambda X y w0 bs B : 0 <= lambda -> (0 < bs)%nat -> shapes X y w0 -> (forall x, In x X -> sqn x <= B) -> forall Xb yb w, batch_of X y bs Xb yb -> length w = length w0 ->
  mse_evaluate lambda Xb yb w = Ok (mse_loss lambda Xb yb w) /\ 0 <= mse_loss lambda Xb yb w /\ exists g, mse_gradient lambda Xb yb w = Ok g /\ tangent (mse_loss lambda Xb yb) (B + lambda / INR bs) w g.
Proof.
  intros Hl Hb HS HB Xb yb w HBt Lw. pose proof (batch_shapes Hb HS HBt) as S1. destruct (mse_full Hl S1 w (reordered_refl Xb yb) Lw) as (E & g & Eg & Tg).
  assert (Hn : 0 < INR bs) by (now apply lt_0_INR). split; [exact E|]. split; [apply mse_loss_nonneg; [auto|apply S1]|]. exists g. split; [exact Eg|]. refine (tangent_weaken _ Tg).
  unfold mse_curvature. rewrite (proj1 HBt). pose proof (batch_squares HB HBt) as Q. unfold Rdiv. rewrite Rmult_plus_distr_r. apply Rplus_le_compat_r.
  apply (Rmult_le_compat_r (/ INR bs)) in Q; [|left; now apply Rinv_0_lt_compat]. replace (INR bs * B * / INR bs) with B in Q by (field; lra). exact Q.
Qed.
Lemma log_batches lambda X y w0 bs B : 0 <= lambda -> (0 < bs)%nat -> shapes X y w0 -> (forall b, In b y -> 0 <= b <= 1) -> (forall x, In x X -> sqn x <= B) -> forall Xb yb w, batch_of X y bs Xb yb -> length w = length w0 ->
  log_evaluate lambda Xb yb w = Ok (log_loss lambda Xb yb w) /\ 0 <= log_loss lambda Xb yb w /\ exists g, log_gradient lambda Xb yb w = Ok g /\ tangent (log_loss lambda Xb yb) (B / 4 + lambda / INR bs) w g.
Proof.
  intros Hl Hb HS Hlab HB Xb yb w HBt Lw. pose proof (batch_shapes Hb HS HBt) as S1. destruct (log_full Hl S1 w (reordered_refl Xb yb) Lw) as (E & g & Eg & Tg).
  assert (Hn : 0 < INR bs) by (now apply lt_0_INR). split; [exact E|]. split.
  - apply log_loss_nonneg; [auto|apply S1|]. intros b Hb'. apply Hlab. destruct HBt as (L1 & L2 & I).
    assert (Ex : exists x, In (x, b) (combine Xb yb)). { assert (LL : length yb = length Xb) by congruence. clear - Hb' LL. revert Xb LL. induction yb as [|a yb IH]; intros [|x Xb] LL; cbn in *; try lia; try contradiction.
      destruct Hb' as [->|Hb']; [exists x; auto|]. destruct (IH Hb' Xb ltac:(lia)) as (c & ?). exists c; auto. }
    destruct Ex as (x & Hx). apply I in Hx. now apply in_combine_r in Hx.
  - exists g. split; [exact Eg|]. refine (tangent_weaken _ Tg).
    unfold log_curvature. rewrite (proj1 HBt). pose proof (batch_squares HB HBt) as Q. unfold Rdiv. rewrite Rmult_plus_distr_r. apply Rplus_le_compat_r.
    apply (Rmult_le_compat_r (/ 4 * / INR bs)) in Q; [|apply Rmult_le_pos; [lra|left; now apply Rinv_0_lt_compat]]. replace (INR bs * B * (/ 4 * / INR bs)) with (B * / 4) in Q by (field; lra). lra.
Qed.
(** What an epoch costs at fixed weights. *)
Lemma batches_count {A B} bs (X : list A) (y : list B) bl : (0 < bs)%nat -> in_batches bs X y bl -> length bl = (length X / bs)%nat.
Proof.
  intros Hb (H & (rX & EX & LX) & _). assert (L1 : length (concat (map fst bl)) = (length bl * bs)%nat).
  { clear EX. induction bl as [|b bl IH]; [reflexivity|]. cbn [map concat length]. rewrite app_length, (proj1 (H b ltac:(now left))), IH by (intros; apply H; now right). lia. }
  rewrite EX, app_length, L1, Nat.add_comm, Nat.div_add, Nat.div_small by lia. reflexivity.
Qed.
Lemma epoch_at (phi : R -> R -> R) c pen X y bs X' y' bl u : (forall b z, In b y -> 0 <= phi b z) -> 0 <= c -> (0 < bs)%nat -> reordered X X' y y' -> in_batches bs X' y' bl ->
  total (map (fun b => over_samples phi (fst b) (snd b) u * c + pen) bl) <= over_samples phi X y u * c + INR (length X / bs) * pen.
Proof.
  intros Hphi Hc Hb (LX & _ & P) IB. destruct (in_batches_samples IB) as (rest & Er & _).
  rewrite <- LX, <- (batches_count Hb IB). rewrite (over_samples_perm phi _ _ _ _ u P). unfold over_samples at 2. rewrite Er, map_app, total_app.
  assert (R0 : 0 <= total (map (fun p => phi (snd p) (dot (fst p) u)) rest)).
  { apply total_nonneg. intros (x, b) Hp. cbn [fst snd]. apply Hphi. assert (In (x, b) (combine X y)) by (apply (Permutation_in _ (Permutation_sym P)); rewrite Er; apply in_or_app; now right). now apply in_combine_r in H. }
  assert (E : total (map (fun b => over_samples phi (fst b) (snd b) u * c + pen) bl) = total (map (fun p => phi (snd p) (dot (fst p) u)) (samples bl)) * c + INR (length bl) * pen).
  { clear. induction bl as [|b bl IH]; [cbn; ring|]. unfold samples in *. cbn [map flat_map length]. rewrite total_cons, IH, map_app, total_app, S_INR. unfold over_samples. ring. }
  rewrite E. nra.
Qed.
