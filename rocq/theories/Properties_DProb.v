(** Probabilities and the logistic loss on IEEE doubles (C77). *)
From Coq Require Import Reals Lra Lia.
From Flocq Require Import Core BinarySingleNaN.
From Verif Require Import Base Vec Round_Spec Double_Spec Double_Model Double_Proofs Bounded_Spec Bounded_Proofs DProb_Spec DProb_Model DProb_Proofs DProb_Cases.
Local Open Scope R_scope.

(** logsumexp along every axis: whatever the log-probabilities, nothing overflows; the result is finite and at least the largest entry. *)
Theorem C77_logsumexp : forall ord dexp dlog nc x axis, fair ord -> good_exp dexp -> good_log dlog -> In axis [0; 1; -1]%Z ->
  Forall (fun v => log_probs v /\ (Z.of_nat (length v) < 2 ^ 53)%Z) (slices nc x axis) ->
  exists s, dlogsumexp ord dexp dlog nc x axis = Ok s /\
    Forall2 (fun v a => finite a /\ forall m, largest v m -> m <= value a <= binary64 (m + 2048)) (slices nc x axis) s.
Proof.
  intros ord dexp dlog nc x axis HF HE HL Ha H. rewrite Forall_forall in H. assert (G : forall v, In v (slices nc x axis) -> exists s, dlse ord dexp dlog v = Ok s /\ (finite s /\ forall m, largest v m -> m <= value s <= binary64 (m + 2048))).
  { intros v Hv. destruct (H v Hv) as (H1 & H2). destruct (dlse_prob ord dexp dlog HF HE HL v H1 H2) as (s & Es & Fs & _ & Ms). eauto. }
  destruct (mapM_ok (dlse ord dexp dlog) (fun v s => finite s /\ forall m, largest v m -> m <= value s <= binary64 (m + 2048)) (slices nc x axis) G) as (r & Er & Hr). clear G H.
  unfold dlogsumexp. destruct Ha as [<-|[<-|[<-|[]]]]; unfold slices in *; cbn [Z.eqb Pos.eqb] in *.
  - exists r. split; [|exact Hr]. rewrite <- Er. unfold dcol. clear. induction (seq 0 nc) as [|j l IH]; [reflexivity|]. cbn [map mapM]. now rewrite IH.
  - exists r. split; [exact Er|exact Hr].
  - exists r. split; [|exact Hr]. cbn [mapM] in Er. destruct (dlse ord dexp dlog (concat x)) as [s| | |]; try discriminate. cbn [bind] in *. exact Er.
Qed.
Print Assumptions C77_logsumexp.
(** A table whose entries could not be exponentiated: 2^1000, and -infinity beside it. *)
Lemma large_case (a : Z) : (0 <= a <= 971)%Z -> finite (dbl 1 a) /\ value (dbl 1 a) = bpow radix2 a.
Proof. intros H. destruct (dbl_exact 1 a) as (F & E); [lia|lia|]. split; [exact F|]. unfold value. rewrite E. lra. Qed.
Lemma left_fair : fair left_to_right.
Proof.
  intros n Hn. destruct n as [|n]; [lia|]. assert (E : entries_of (left_to_right (S n)) = seq 0 (S n)).
  { clear. induction n as [|n IH]; [reflexivity|]. change (entries_of (left_to_right (S (S n)))) with (entries_of (left_to_right (S n)) ++ [S n]). rewrite IH, (seq_S (S n) 0). reflexivity. }
  now rewrite E.
Qed.
Lemma row_ok a v : In a v -> finite a -> Forall (fun b => finite b \/ b = minus_inf) v -> (Z.of_nat (length v) < 2 ^ 53)%Z -> log_probs v /\ (Z.of_nat (length v) < 2 ^ 53)%Z.
Proof. intros H1 H2 H3 H4. split; [|exact H4]. split; [exact H3|]. now exists a. Qed.
Ltac row a := apply (row_ok a); [cbn [In]; auto|reflexivity|repeat (apply Forall_cons; [solve [left; reflexivity|right; reflexivity]|]); apply Forall_nil|reflexivity].
Example C77_logsumexp_case : exists s, dlogsumexp left_to_right rounded_exp rounded_log 2 [[dbl 1 900; minus_inf]; [minus_inf; dbl (-1) 900]] 1 = Ok s /\ length s = 2%nat /\ Forall finite s.
Proof.
  destruct (C77_logsumexp left_to_right rounded_exp rounded_log 2 [[dbl 1 900; minus_inf]; [minus_inf; dbl (-1) 900]] 1 left_fair rounded_exp_good rounded_log_good ltac:(cbn; auto)) as (s & E & H).
  - unfold slices. cbn [Z.eqb Pos.eqb]. constructor; [row (dbl 1 900)|]. constructor; [row (dbl (-1) 900)|constructor].
  - exists s. split; [exact E|]. unfold slices in H. cbn [Z.eqb Pos.eqb] in H. inversion H as [|? a ? s1 (F1 & _) H1]; subst. inversion H1 as [|? b ? s2 (F2 & _) H2]; subst. inversion H2; subst. split; [reflexivity|]. now repeat constructor.
Qed.

(** The probabilities that naive Bayes and the Gaussian mixture compute are finite and lie in [0, 1]. *)
Theorem C77_probabilities : forall ord dexp dlog K jll, fair ord -> good_exp dexp -> good_log dlog ->
  Forall (fun r => log_probs r /\ (Z.of_nat (length r) < 2 ^ 53)%Z) jll ->
  exists p, dprob_of ord dexp dlog K jll = Ok p /\ Forall2 (fun r q => length q = length r /\ Forall in_unit q) jll p.
Proof. intros ord dexp dlog K jll HF HE HL. exact (dprob_of_ok ord dexp dlog HF HE HL K jll). Qed.
Print Assumptions C77_probabilities.
Example C77_probabilities_case : exists a b, dprob_of left_to_right rounded_exp rounded_log 2 [[dbl (-1) 900; minus_inf]] = Ok [[a; b]] /\ in_unit a /\ in_unit b.
Proof.
  destruct (C77_probabilities left_to_right rounded_exp rounded_log 2 [[dbl (-1) 900; minus_inf]] left_fair rounded_exp_good rounded_log_good) as (p & E & H).
  - constructor; [row (dbl (-1) 900)|constructor].
  - inversion H as [|? q ? p' (L & U) H']; subst. inversion H'; subst. destruct q as [|a [|b [|]]]; try discriminate. inversion U as [|? ? Ua U']; subst. inversion U' as [|? ? Ub _]; subst. exists a, b. split; [exact E|]. split; assumption.
Qed.

(** They need not add up to one: when all classes are equally likely and the log-probabilities are large, every class has probability 1. *)
Theorem C77_probabilities_sum_refuted : forall ord dexp dlog K c, fair ord -> good_exp dexp -> good_log dlog -> (1 <= K)%nat -> (Z.of_nat K < 2 ^ 53)%Z ->
  finite c -> bpow radix2 66 <= Rabs (value c) ->
  exists p, dprob_of ord dexp dlog K [repeat c K] = Ok [p] /\ length p = K /\ Forall (fun a => finite a /\ value a = 1) p.
Proof. intros ord dexp dlog K c HF HE HL. exact (equal_prob ord dexp dlog HF HE HL K c). Qed.
Print Assumptions C77_probabilities_sum_refuted.
Example C77_probabilities_sum_case : exists p, dprob_of left_to_right rounded_exp rounded_log 3 [repeat (dbl (-1) 66) 3] = Ok [p] /\ length p = 3%nat /\ Forall (fun a => finite a /\ value a = 1) p.
Proof.
  apply C77_probabilities_sum_refuted; try exact left_fair; try exact rounded_exp_good; try exact rounded_log_good; try lia; [reflexivity|].
  destruct (dbl_exact (-1) 66) as (_ & E); [lia|lia|]. unfold value. rewrite E. rewrite Rabs_mult, (Rabs_pos_eq (bpow _ _)) by apply bpow_ge_0. rewrite Rabs_left by lra. lra.
Qed.

(** A sample that is impossible under every class has no probabilities at all. *)
Theorem C77_impossible_refuted : forall ord dexp dlog K, fair ord -> good_exp dexp -> good_log dlog -> (1 <= K)%nat ->
  dprob_of ord dexp dlog K [repeat minus_inf K] = Ok [repeat nan K].
Proof.
  intros ord dexp dlog K HF (_ & _ & _ & _ & _ & E6) (_ & _ & _ & L4) HK. unfold dprob_of, dlog_prob_of, dlogsumexp. cbn [Z.eqb Pos.eqb mapM].
  assert (E : dlse ord dexp dlog (repeat minus_inf K) = Ok nan).
  { unfold dlse. assert (M : dmax_coeff (repeat minus_inf K) = Ok minus_inf) by (destruct K as [|K]; [lia|]; cbn [repeat dmax_coeff]; f_equal; clear; induction K; [reflexivity|exact IHK]). rewrite M. cbn [bind].
    rewrite dsum_nan; [rewrite L4; now rewrite dadd_nan_l|exact HF|]. destruct K as [|K]; [lia|]. left. exact E6. }
  rewrite E. cbn [bind map2 map]. do 2 f_equal. clear - E6. induction K as [|K IH]; [reflexivity|]. cbn [repeat map]. rewrite IH. f_equal. exact E6.
Qed.
Print Assumptions C77_impossible_refuted.
Example C77_impossible_case : fair left_to_right /\ good_exp rounded_exp /\ good_log rounded_log /\ dprob_of left_to_right rounded_exp rounded_log 2 [[minus_inf; minus_inf]] = Ok [[nan; nan]].
Proof. split; [exact left_fair|]. split; [exact rounded_exp_good|]. split; [exact rounded_log_good|]. apply (C77_impossible_refuted left_to_right rounded_exp rounded_log 2 left_fair rounded_exp_good rounded_log_good). lia. Qed.

(** The softmax of any numbers, along every axis: finite, in [0, 1] and of the same shape. *)
Lemma softmax_all : forall ord dexp x c, fair ord -> good_exp dexp -> dmax_coeff (concat x) = Ok c -> log_probs (concat x) -> (Z.of_nat (length (concat x)) < 2 ^ 53)%Z ->
  let e := map (map (fun b => dexp (dsub b c))) x in Forall (Forall in_unit) (map (map (fun a => ddiv a (dsum ord (concat e)))) e).
Proof.
  intros ord dexp x c HF HE Ec Hv Hl e. destruct (shifted ord dexp HF HE (concat x) Hv Hl) as (c' & Ec' & _ & _ & _ & U & Fs & Bs). rewrite Ec in Ec'. injection Ec' as <-. cbn zeta in U, Fs, Bs.
  rewrite concat_map in U, Fs, Bs. fold e in U, Fs, Bs. apply Forall_map, Forall_forall. intros r Hr. apply Forall_map, Forall_forall. intros a Ha. apply (quotient a _); [|exact Fs|exact Bs]. rewrite Forall_forall in U. apply U. apply in_concat. eauto.
Qed.
Theorem C77_softmax : forall ord dexp nc x axis, fair ord -> good_exp dexp -> In axis [0; 1; -1]%Z -> table nc x -> (2 <= length x)%nat -> (2 <= nc)%nat ->
  Forall (fun v => log_probs v /\ (Z.of_nat (length v) < 2 ^ 53)%Z) (slices nc x axis) ->
  exists p, dsoftmax ord dexp nc x axis = Ok p /\ length p = length x /\ table nc p /\ Forall (Forall in_unit) p.
Proof.
  intros ord dexp nc x axis HF HE Ha HT Hr Hc H. rewrite Forall_forall in H. unfold table in *. rewrite Forall_forall in HT.
  unfold dsoftmax. destruct (Nat.eqb_spec (length x) 1); [lia|]. destruct (Nat.eqb_spec nc 1); [lia|]. cbn [orb].
  destruct Ha as [<-|[<-|[<-|[]]]]; unfold slices in H; cbn [Z.eqb Pos.eqb] in *.
  - destruct (mapM_ok (fun j => dsoftmax1 ord dexp (dcol j x)) (fun _ c => length c = length x /\ Forall in_unit c) (seq 0 nc)) as (cols & E & HC).
    { intros j Hj. destruct (H (dcol j x)) as (H1 & H2); [apply (in_map (fun j => dcol j x)); exact Hj|]. destruct (dsoftmax1_ok ord dexp HF HE (dcol j x) H1 H2) as (p & E & L & U). exists p. split; [exact E|]. split; [|exact U]. rewrite L. apply map_length. }
    rewrite E. cbn [bind]. eexists. split; [reflexivity|]. pose proof (F2_len _ _ _ HC) as LC. rewrite seq_length in LC. split; [now rewrite map_length, seq_length|]. split.
    + apply Forall_map, Forall_forall. intros i _. now rewrite map_length.
    + apply Forall_map, Forall_forall. intros i Hi. apply in_seq in Hi. apply Forall_map. clear - HC Hi. induction HC as [|j c js cols (L & U) HC IH]; constructor; [|exact IH]. rewrite Forall_forall in U. apply U. apply nth_In. lia.
  - destruct (mapM_ok (dsoftmax1 ord dexp) (fun r q => length q = length r /\ Forall in_unit q) x) as (p & E & HP).
    { intros r Hin. destruct (H r Hin) as (H1 & H2). apply (dsoftmax1_ok ord dexp HF HE r H1 H2). }
    rewrite E. exists p. split; [reflexivity|]. split; [symmetry; exact (F2_len _ _ _ HP)|]. clear - HP HT. split.
    + induction HP as [|r q x p (L & _) HP IH]; constructor; [rewrite L; apply HT; now left|]. apply IH. intros y Hy. apply HT. now right.
    + clear HT. induction HP as [|r q x p (_ & U) HP IH]; constructor; assumption.
  - destruct (H (concat x) (or_introl eq_refl)) as (H1 & H2). destruct (dmax_coeff_ok (concat x) H1) as (c & Ec & _). rewrite Ec. cbn [bind]. eexists. split; [reflexivity|]. split; [now rewrite !map_length|]. split.
    + rewrite map_map. apply Forall_map, Forall_forall. intros r Hin. rewrite !map_length. now apply HT.
    + exact (softmax_all ord dexp x c HF HE Ec H1 H2).
Qed.
Print Assumptions C77_softmax.
Example C77_softmax_case : exists p, dsoftmax left_to_right rounded_exp 2 [[dbl 1 900; dbl 3 0]; [dbl (-1) 900; dbl 4 0]] 1 = Ok p /\ Forall (Forall in_unit) p.
Proof.
  destruct (C77_softmax left_to_right rounded_exp 2 [[dbl 1 900; dbl 3 0]; [dbl (-1) 900; dbl 4 0]] 1 left_fair rounded_exp_good) as (p & E & _ & _ & H); [cbn; auto|repeat constructor|cbn; lia|lia| |exists p; split; [exact E|exact H]].
  unfold slices. cbn [Z.eqb Pos.eqb]. constructor; [row (dbl 3 0)|]. constructor; [row (dbl 4 0)|constructor].
Qed.

(** The sigmoid of every number, infinities included, is finite and in [0, 1]; far out it is exactly 0 or 1; NaN stays NaN. *)
Theorem C77_sigmoid : forall dexp, good_exp dexp ->
  (forall x, is_number x -> in_unit (dsigmoid1 dexp x)) /\
  (forall x, finite x -> -32 <= value x <= 32 -> 0 < value (dsigmoid1 dexp x) < 1) /\
  (forall x, finite x -> 64 <= value x -> value (dsigmoid1 dexp x) = 1) /\
  (forall x, finite x -> value x <= -1100 -> value (dsigmoid1 dexp x) = 0) /\
  dsigmoid1 dexp nan = nan.
Proof.
  intros dexp HE. split; [exact (dsigmoid_unit dexp HE)|]. split; [|split; [|split; [|exact (dsigmoid_nan dexp HE)]]].
  - intros x F H. destruct (dsigmoid_mid dexp HE x F H) as (_ & B). pose proof (bpow_gt_0 radix2 (-53)). lra.
  - intros x F H. exact (proj2 (dsigmoid_high dexp HE x F H)).
  - intros x F H. exact (proj2 (dsigmoid_low dexp HE x F H)).
Qed.
Print Assumptions C77_sigmoid.
Example C77_sigmoid_case : in_unit (dsigmoid1 rounded_exp minus_inf) /\ in_unit (dsigmoid1 rounded_exp inf) /\ value (dsigmoid1 rounded_exp (dbl 1 6)) = 1.
Proof.
  destruct (C77_sigmoid rounded_exp rounded_exp_good) as (H1 & _ & H3 & _). split; [now apply H1|]. split; [now apply H1|]. destruct (large_case 6) as (F & E); [lia|]. apply H3; [exact F|]. rewrite E. cbn. lra.
Qed.

(** The logistic loss is finite as long as every sample is in doubt: margins within 32 of zero. *)
Theorem C77_log_loss : forall ord dexp dlog lambda X y w ms, fair ord -> good_exp dexp -> good_log dlog -> dmv ord X w = Ok ms -> length y = length X ->
  (1 <= length X)%nat -> (Z.of_nat (length X) < 2 ^ 52)%Z -> (Z.of_nat (length w) < 2 ^ 52)%Z ->
  Forall (fun m => finite m /\ -32 <= value m <= 32) ms -> Forall (fun l => finite l /\ (value l = 0 \/ value l = 1)) y -> Forall modest w -> modest lambda ->
  exists loss, dlog_evaluate ord dexp dlog lambda X y w = Ok loss /\ finite loss.
Proof. intros ord dexp dlog lambda X y w ms HF HE HL. exact (dlog_evaluate_finite ord dexp dlog HF HE HL lambda X y w ms). Qed.
Print Assumptions C77_log_loss.
Lemma modest_small m e : (Z.abs m < 2 ^ 53)%Z -> (-1074 <= e <= 200)%Z -> modest (dbl m e).
Proof.
  intros Hm He. destruct (dbl_exact m e Hm ltac:(lia)) as (F & E). split; [exact F|]. unfold value. rewrite E, Rabs_mult, (Rabs_pos_eq (bpow _ _)), <- abs_IZR by apply bpow_ge_0.
  change 300%Z with (100 + 200)%Z. rewrite bpow_plus. apply Rmult_le_compat; [apply IZR_le; lia|apply bpow_ge_0| |apply bpow_le; lia]. apply Rle_trans with (IZR (2 ^ 53)); [apply IZR_le; lia|]. change (IZR (2 ^ 53)) with (bpow radix2 53). apply bpow_le. lia.
Qed.
Example C77_log_loss_case : exists loss, dlog_evaluate left_to_right rounded_exp rounded_log (dbl 1 (-3)) [[dbl 1 0]; [dbl (-3) 0]] [dbl 1 0; zero] [dbl 5 0] = Ok loss /\ finite loss.
Proof.
  assert (V : forall m, (Z.abs m < 2 ^ 53)%Z -> finite (dbl m 0) /\ value (dbl m 0) = IZR m) by (intros m Hm; destruct (dbl_exact m 0 Hm) as (F & E); [lia|]; split; [exact F|]; unfold value; rewrite E; cbn; lra).
  apply (C77_log_loss left_to_right rounded_exp rounded_log (dbl 1 (-3)) [[dbl 1 0]; [dbl (-3) 0]] [dbl 1 0; zero] [dbl 5 0] [dbl 5 0; dbl (-15) 0] left_fair rounded_exp_good rounded_log_good).
  - change [[dbl 1 0]; [dbl (-3) 0]] with (map (fun x => [x]) [dbl 1 0; dbl (-3) 0]). rewrite (dmv_one left_to_right left_fair). cbn [map]. do 2 f_equal; [|f_equal]; apply B2SF_inj; vm_compute; reflexivity.
  - reflexivity.
  - cbn [length]; lia.
  - reflexivity.
  - reflexivity.
  - destruct (V 5%Z) as (F5 & V5); [lia|]. destruct (V (-15)%Z) as (F15 & V15); [lia|]. apply Forall_cons; [split; [exact F5|rewrite V5; lra]|]. apply Forall_cons; [split; [exact F15|rewrite V15; lra]|]. apply Forall_nil.
  - apply Forall_cons; [split; [apply V; lia|right; apply V; lia]|]. apply Forall_cons; [split; [reflexivity|left; reflexivity]|]. apply Forall_nil.
  - apply Forall_cons; [apply modest_small; lia|apply Forall_nil].
  - apply modest_small; lia.
Qed.

(** One sample classified rightly and beyond doubt is enough for the loss to be NaN, whatever the other samples. *)
Theorem C77_log_loss_refuted : forall ord dexp dlog lambda X y w ms m l, fair ord -> good_exp dexp -> good_log dlog -> dmv ord X w = Ok ms -> length y = length X ->
  In (m, l) (combine ms y) -> beyond_doubt m l -> dlog_evaluate ord dexp dlog lambda X y w = Ok nan.
Proof. intros ord dexp dlog lambda X y w ms m l HF HE HL. exact (dlog_evaluate_nan ord dexp dlog HF HE HL lambda X y w ms m l). Qed.
Print Assumptions C77_log_loss_refuted.
Lemma doubtless_64 : beyond_doubt (dbl 1 6) (dbl 1 0).
Proof. destruct (large_case 6) as (F & E); [lia|]. destruct (large_case 0) as (F' & E'); [lia|]. split; [exact F|]. split; [exact F'|]. left. rewrite E, E'. cbn. lra. Qed.
Example C77_log_loss_refuted_case : dlog_evaluate left_to_right rounded_exp rounded_log (dbl 1 0) [[dbl 1 0]; [dbl (-1) 0]] [dbl 1 0; zero] [dbl 1 6] = Ok nan.
Proof.
  apply (C77_log_loss_refuted left_to_right rounded_exp rounded_log _ _ _ _ [dbl 1 6; dbl (-1) 6] (dbl 1 6) (dbl 1 0) left_fair rounded_exp_good rounded_log_good); [|reflexivity|left; reflexivity|exact doubtless_64].
  change [[dbl 1 0]; [dbl (-1) 0]] with (map (fun x => [x]) [dbl 1 0; dbl (-1) 0]). rewrite (dmv_one left_to_right left_fair). cbn [map]. do 2 f_equal; [|f_equal]; apply B2SF_inj; vm_compute; reflexivity.
Qed.

(** Logistic regression by gradient descent on all samples at once: whatever the data, the start and the parameters, the returned weights
    classify no training sample rightly beyond doubt. *)
Theorem C77_logistic_fit : forall ord dexp dlog lambda gradient clip decay perm tol patience max_iter X y w0 w, fair ord -> good_exp dexp -> good_log dlog ->
  length y = length X -> (1 <= length X)%nat -> (1 <= patience)%nat ->
  dsgd ord gradient (dlog_evaluate ord dexp dlog lambda) clip decay perm false tol (length X) patience max_iter X y w0 = Ok w ->
  exists ms, dmv ord X w = Ok ms /\ length ms = length X /\ forall m l, In (m, l) (combine ms y) -> ~ beyond_doubt m l.
Proof. intros ord dexp dlog lambda gradient clip decay perm tol patience max_iter X y w0 w HF HE HL. exact (dsgd_in_doubt ord dexp dlog HF HE HL lambda gradient clip decay perm tol patience max_iter X y w0 w). Qed.
Print Assumptions C77_logistic_fit.
(** Two samples that say nothing: the weights stay what they are. *)
Example C77_logistic_fit_case : dsgd left_to_right (dlog_gradient left_to_right rounded_exp zero) (dlog_evaluate left_to_right rounded_exp rounded_log zero) (dclip zero) (fun _ => dbl 1 (-7)) (fun _ => [])
  false inf 2 1 2 [[zero]; [zero]] [dbl 1 0; zero] [dbl 1 0] = Ok [dbl 1 0].
Proof.
  set (X := [[zero]; [zero]]). set (y := [dbl 1 0; zero]). set (w := [dbl 1 0]). destruct (large_case 0) as (F1 & V1); [lia|]. cbn [bpow] in V1.
  assert (Em : dmv left_to_right X w = Ok [zero; zero]).
  { change X with (map (fun x => [x]) [zero; zero]). unfold w. rewrite (dmv_one left_to_right left_fair). cbn [map]. assert (E0 : dmul zero (dbl 1 0) = zero) by (apply B2SF_inj; vm_compute; reflexivity). now rewrite E0. }
  destruct (C77_log_loss left_to_right rounded_exp rounded_log zero X y w [zero; zero] left_fair rounded_exp_good rounded_log_good Em eq_refl) as (loss & El & Fl).
  { unfold X; cbn [length]; lia. } { reflexivity. } { reflexivity. }
  { assert (Z0 : finite zero /\ -32 <= value zero <= 32) by (split; [reflexivity|unfold value; cbn [zero B2R]; lra]). apply Forall_cons; [exact Z0|]. apply Forall_cons; [exact Z0|apply Forall_nil]. }
  { apply Forall_cons; [split; [exact F1|right; exact V1]|]. apply Forall_cons; [split; [reflexivity|left; reflexivity]|]. apply Forall_nil. }
  { apply Forall_cons; [apply modest_small; lia|apply Forall_nil]. } { split; [reflexivity|]. cbn [value zero B2R]. rewrite Rabs_R0. apply bpow_ge_0. }
  destruct (dsigmoid_unit rounded_exp rounded_exp_good zero eq_refl) as (Fs & Bs). set (p := dsigmoid1 rounded_exp zero) in *.
  assert (D : forall l, In l y -> finite (dsub p l)).
  { intros l Hl. assert (Hl' : finite l /\ 0 <= value l <= 1) by (destruct Hl as [<-|[<-|[]]]; [split; [exact F1|lra]|split; [reflexivity|cbn; lra]]). destruct Hl' as (Fl' & Bl').
    destruct (dsub_near 1 1 0 p l (B2R p) (B2R l)) as (F & _); try lia; try exact F; apply near_of; try assumption; unfold value in *; rewrite Rabs_pos_eq; lra. }
  assert (Eg : exists g, dlog_gradient left_to_right rounded_exp zero X y w = Ok [g] /\ null g).
  { unfold dlog_gradient. rewrite Em. cbn [bind map]. fold p. unfold y, drow_sub. cbn [length Nat.eqb bind]. eexists. split; [reflexivity|]. unfold w. cbn [nth]. apply dadd_null.
    - apply ddiv_null; [|reflexivity|]; [|change (1 <= value (dbl 1 1)); rewrite (proj2 (large_case 1 ltac:(lia))); cbn; lra]. apply (dsum_null left_to_right). unfold KDTree_Model.diff, X. cbn [combine map fst snd nth].
      assert (N : forall l, In l y -> null (dmul zero (dsub p l))).
      { intros l Hl. specialize (D l Hl). destruct (dsub p l) as [s|s| |s m e B]; try discriminate; split; reflexivity. }
      apply Forall_cons; [apply N; left; reflexivity|]. apply Forall_cons; [apply N; right; left; reflexivity|apply Forall_nil].
    - assert (E0 : dmul (ddiv (dbl 1 0) (dnat (length X))) zero = zero) by (apply B2SF_inj; vm_compute; reflexivity). rewrite E0. apply zero_null. }
  destruct Eg as (g & Eg & Ng). assert (Eu : dupdate w (map (dclip zero) [g]) (dbl 1 (-7)) = Ok w).
  { destruct (null_zero g Ng) as (s & ->). assert (Ec : dclip zero (B754_zero s) = B754_zero s) by (destruct s; reflexivity). cbn [map]. rewrite Ec. change (Ok [dsub (dbl 1 0) (dmul (dbl 1 (-7)) (B754_zero s))] = Ok [dbl 1 0]).
    assert (E1 : dsub (dbl 1 0) (dmul (dbl 1 (-7)) (B754_zero s)) = dbl 1 0) by (apply dsub_null; [reflexivity|apply dmul_null_r; [reflexivity|apply zero_null]]). rewrite E1. reflexivity. }
  assert (Ep : forall it, dsgd_epoch left_to_right (dlog_gradient left_to_right rounded_exp zero) (dlog_evaluate left_to_right rounded_exp rounded_log zero) (dclip zero) (fun _ => dbl 1 (-7)) (fun _ => []) false 2 it (X, y, w) = Ok (X, y, w, loss)).
  { intros it. unfold dsgd_epoch. cbn [bind fst snd]. change (length X / 2)%nat with 1%nat. cbn [seq foldM]. unfold dbatch. change (dmiddle_rows X (0 * 2) 2) with (Ok X). change (dmiddle_rows y (0 * 2) 2) with (Ok y). cbn [bind fst snd]. rewrite Eg. cbn [bind]. rewrite Eu. cbn [bind]. rewrite El. cbn [bind fst snd app]. rewrite (dsum_one left_to_right left_fair). reflexivity. }
  unfold dsgd. cbn [Nat.eqb]. unfold doptimize. cbn [seq depochs]. rewrite Ep. cbn [bind]. change (dsub inf (dmul inf (dnat 2))) with nan. rewrite dlt_nan_l. cbn [Nat.leb].
  assert (L1 : dlt loss inf = true) by (destruct loss as [s|s| |[] m e B]; try discriminate; reflexivity). rewrite L1. rewrite Ep. cbn [bind]. change (dmul inf (dnat 2)) with inf. unfold inf. rewrite (dsub_inf loss false Fl).
  assert (L2 : dlt (B754_infinity (negb false)) loss = true) by (destruct loss as [s|s| |[] m e B]; try discriminate; reflexivity). rewrite L2. reflexivity.
Qed.

(** A start that already classifies every sample beyond doubt is no good: every fit from there throws, however many epochs it may run. *)
Theorem C77_logistic_start_refuted : forall ord dexp dlog xs y w decay perm on_nan tol b patience max_iter, fair ord -> good_exp dexp -> good_log dlog ->
  Forall2 (fun x l => beyond_doubt (dmul x w) l) xs y -> (1 <= b <= length xs)%nat -> (Z.of_nat (length xs) < 2 ^ 53)%Z -> (1 <= patience)%nat -> (forall it, finite (decay it)) ->
  dsgd ord (dlog_gradient ord dexp zero) (dlog_evaluate ord dexp dlog zero) (dclip on_nan) decay perm false tol b patience max_iter (map (fun x => [x]) xs) y [w] = Throw RuntimeError.
Proof. intros ord dexp dlog xs y w decay perm on_nan tol b patience max_iter HF HE HL. exact (dsgd_right ord dexp dlog HF HE HL xs y w decay perm on_nan tol b patience max_iter). Qed.
Print Assumptions C77_logistic_start_refuted.
Example C77_logistic_start_case : dsgd left_to_right (dlog_gradient left_to_right rounded_exp zero) (dlog_evaluate left_to_right rounded_exp rounded_log zero) (dclip zero) (fun _ => dbl 1 (-7)) (fun _ => [])
  false (dbl 1 (-10)) 2 5 1000 [[dbl 1 0]; [dbl 1 0]] [dbl 1 0; dbl 1 0] [dbl 1 6] = Throw RuntimeError.
Proof.
  apply (C77_logistic_start_refuted left_to_right rounded_exp rounded_log [dbl 1 0; dbl 1 0] [dbl 1 0; dbl 1 0] (dbl 1 6) (fun _ => dbl 1 (-7)) (fun _ => []) zero (dbl 1 (-10)) 2 5 1000 left_fair rounded_exp_good rounded_log_good); [|cbn [length]; lia|cbn [length]; lia|lia|].
  - assert (E : dmul (dbl 1 0) (dbl 1 6) = dbl 1 6) by (apply B2SF_inj; vm_compute; reflexivity). apply Forall2_cons; [rewrite E; exact doubtless_64|]. apply Forall2_cons; [rewrite E; exact doubtless_64|apply Forall2_nil].
  - intros _. reflexivity.
Qed.
