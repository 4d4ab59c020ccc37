(** C70: how accurate computed distances are, and what it means for the rows found.  Specification: [Accuracy_Spec]. *)
From Coq Require Import Reals Lra.
From Flocq Require Import Core BinarySingleNaN.
From Verif Require Import Base KDTree_Model KDTree_Spec KDReal_Proofs Round_Spec Round_Proofs Double_Spec Double_Model Double_Proofs Bounded_Spec Bounded_Model Bounded_Proofs Properties_KDTree Properties_Double
  Properties_Bounded Accuracy_Spec Accuracy_Proofs.
Local Open Scope R_scope.

(** A computed distance is the exact one up to [nf] (Manhattan), [nf + 3] (Euclidean) or 1 (Chebyshev) relative errors of 2^-53, in whatever order it is added up. *)
Theorem C70_distance :
  forall s m nf x y, Permutation (entries_of s) (seq 0 nf) -> double_row nf x -> double_row nf y -> (m = Euclidean -> apart x y) ->
    within_errors (distance_errors m nf) (computed_dist binary64 s m x y) (dist m x y).
Proof. exact dist_errors. Qed.
Print Assumptions C70_distance.

Lemma double_values nf x : length x = nf -> double_row nf (map value x).
Proof.
  intros H. split; [now rewrite map_length|]. apply Forall_forall. intros a Ha. apply in_map_iff in Ha as (d & <- & _). apply rep_of. exact (generic_format_B2R 53 1024 d).
Qed.
(** The same for the distances computed on IEEE doubles of moderate size. *)
Theorem C70_double_distance :
  forall ord m nf x y, fair ord -> (1 <= nf)%nat -> (Z.of_nat nf < 2 ^ 53)%Z -> length x = nf -> length y = nf -> Forall moderate x -> Forall moderate y ->
    (m = Euclidean -> apart (map value x) (map value y)) ->
    finite (ddistance ord m x y) /\ within_errors (distance_errors m nf) (value (ddistance ord m x y)) (dist m (map value x) (map value y)).
Proof.
  intros ord m nf x y HF Hn Hn2 Lx Ly Mx My HA. destruct (C69_distance ord m nf x y HF Hn Hn2 Lx Ly Mx My) as [F E]. split; [exact F|]. rewrite E.
  apply dist_errors; [apply HF; lia|now apply double_values|now apply double_values|exact HA].
Qed.
Print Assumptions C70_double_distance.
(** So in the Manhattan and Chebyshev metrics, different points are never at computed distance 0 ... *)
Lemma dist_pos m x : forall y, length x = length y -> x <> y -> 0 < dist m x y.
Proof.
  intros y HL Hne. assert (H : exists v, In v (gaps x y) /\ v <> 0).
  { revert y HL Hne. unfold gaps. induction x as [|a x IH]; intros [|b y] HL Hne; try discriminate; [congruence|]. destruct (Req_dec a b) as [->|E].
    - destruct (IH y) as (v & Hv & Hv0); [cbn in HL; lia|congruence|]. exists v. split; [now right|exact Hv0].
    - exists (a - b). split; [now left|lra]. }
  destruct H as (v & Hv & Hv0). unfold dist. fold (gaps x y).
  assert (S : forall f : R -> R, (forall z, 0 <= f z) -> 0 < f v -> 0 < sum (map f (gaps x y))).
  { intros f Hf Hfv. assert (P : forall l, 0 <= sum (map f l)) by (induction l as [|z l IH]; cbn; [lra|pose proof (Hf z); unfold sum in IH; lra]).
    induction (gaps x y) as [|z l IH]; [destruct Hv|]. unfold sum in *. cbn [map fold_right]. pose proof (P l). pose proof (Hf z). destruct Hv as [->|Hv]; [lra|specialize (IH Hv); lra]. }
  destruct m; cbn [norm_of].
  - apply S; [apply Rabs_pos|now apply Rabs_pos_lt].
  - apply sqrt_lt_R0, S; [apply Rle_0_sqr|]. now apply Rsqr_pos_lt.
  - clear S. induction (gaps x y) as [|z l IH]; [destruct Hv|]. cbn [map fold_right]. destruct Hv as [->|Hv]; [eapply Rlt_le_trans; [apply Rabs_pos_lt; exact Hv0|apply Rmax_l]|eapply Rlt_le_trans; [exact (IH Hv)|apply Rmax_r]].
Qed.
Theorem C70_zero :
  forall s m nf x y, Permutation (entries_of s) (seq 0 nf) -> double_row nf x -> double_row nf y -> m <> Euclidean -> (computed_dist binary64 s m x y = 0 <-> x = y).
Proof.
  intros s m nf x y HP Hx Hy Hm. assert (HL : length x = length y) by (destruct Hx, Hy; congruence). split.
  - intros E. destruct (list_eq_dec Req_EM_T x y) as [H|H]; [exact H|]. exfalso. destruct (dist_errors s m nf x y HP Hx Hy) as [G _]; [congruence|].
    pose proof (dist_pos m x y HL H). pose proof (lo_pos (distance_errors m nf)). rewrite E in G. assert (0 < (1 - ulp_half) ^ distance_errors m nf * dist m x y) by (now apply Rmult_lt_0_compat). lra.
  - intros ->. destruct (dist_errors s m nf y y HP Hy Hy) as [G1 G2]; [congruence|]. assert (Z : dist m y y = 0).
    { unfold dist. assert (E : map (fun p => fst p - snd p) (combine y y) = map (fun _ => 0) y) by (clear; induction y as [|a y IH]; cbn [combine map fst snd]; [reflexivity|rewrite IH; f_equal; lra]).
      rewrite E. clear. destruct m; cbn [norm_of].
      - induction y as [|a y IH]; unfold sum in *; cbn [map fold_right]; [reflexivity|]. rewrite IH, Rabs_R0. lra.
      - assert (S : sum (map Rsqr (map (fun _ => 0) y)) = 0) by (induction y as [|a y IH]; unfold sum in *; cbn [map fold_right]; [reflexivity|]; rewrite IH; unfold Rsqr; lra). rewrite S. apply sqrt_0.
      - induction y as [|a y IH]; cbn [map fold_right]; [reflexivity|]. rewrite IH, Rabs_R0. apply Rmax_left. lra. }
    rewrite Z in *. lra.
Qed.
Print Assumptions C70_zero.
(** ... but in the Euclidean metric they may be: squares underflow. *)
Definition tiny : list double := [dbl 1 (-600)].
Definition origin : list double := [zero].
Lemma tiny_zero : ddistance left_to_right Euclidean tiny origin = zero.
Proof. assert (H : match B2SF (ddistance left_to_right Euclidean tiny origin) with SpecFloat.S754_zero false => true | _ => false end = true) by (vm_compute; reflexivity).
  destruct (ddistance left_to_right Euclidean tiny origin) as [[]|[]| |[] ? ? ?]; try discriminate. reflexivity. Qed.
Theorem C70_underflow_refuted :
  exists x y, length x = 1%nat /\ length y = 1%nat /\ Forall moderate x /\ Forall moderate y /\ 0 < dist Euclidean (map value x) (map value y) /\
    ddistance left_to_right Euclidean x y = zero.
Proof.
  exists tiny, origin. split; [reflexivity|]. split; [reflexivity|]. assert (M : moderate (dbl 1 (-600))) by (apply dbl_moderate; cbn; lia).
  assert (M0 : moderate zero) by (split; [reflexivity|unfold value; cbn [B2R zero]; rewrite Rabs_R0; apply bpow_ge_0]). split; [constructor; [exact M|constructor]|]. split; [constructor; [exact M0|constructor]|]. split; [|exact tiny_zero].
  apply dist_pos; [reflexivity|]. intros E. apply (f_equal (fun l => nth 0 l 0)) in E. unfold tiny, origin in E. cbn [map nth] in E. unfold value in E. rewrite (proj2 (dbl_exact 1 (-600) ltac:(cbn; lia) ltac:(lia))) in E. cbn [B2R zero] in E.
  pose proof (bpow_gt_0 radix2 (-600)). lra.
Qed.
Print Assumptions C70_underflow_refuted.

(** What a query on IEEE doubles finds is nearest up to twice as many relative errors. *)
Theorem C70_nearest :
  forall ord m pick leaf_size nf data nodes qs k ans,
    fair ord -> (1 <= nf)%nat -> (Z.of_nat nf < 2 ^ 53)%Z -> table nf data -> Forall (Forall moderate) data -> table nf qs -> Forall (Forall moderate) qs ->
    (m = Euclidean -> forall r q, In r data -> In q qs -> apart (map value r) (map value q)) ->
    first_column_widest nf (values data) -> dbuild leaf_size nf data = Ok nodes -> (0 < k <= length data)%nat ->
    dquery (dlp_norm ord m) pick nodes qs k = Ok ans ->
    Forall2 (fun q a => almost_nearest (distance_errors m nf) m (values data) (map value q) k (map snd a) /\
      forall d i, In (d, i) a -> exists r, nth_error (values data) i = Some r /\ finite d /\ within_errors (distance_errors m nf) (value d) (dist m r (map value q))) qs ans.
Proof.
  intros ord m pick leaf_size nf data nodes qs k ans HF Hn Hn2 HT HM HTq HMq HA HW Eb Hk E.
  pose proof (C69_nearest ord m pick leaf_size nf data nodes qs k ans HF Hn Hn2 HT HM HTq HMq HW Eb Hk E) as N. clear Eb E nodes. unfold table in HT, HTq. rewrite Forall_forall in HT, HM.
  induction N as [|q a qs ans (N1 & N2 & N3 & N4 & N5) N IH]; constructor; [|apply IH; [exact (Forall_inv_tail HTq)|exact (Forall_inv_tail HMq)|intros; apply HA; auto; now right]].
  pose proof (Forall_inv HTq) as Lq. pose proof (Forall_inv HMq) as Mq.
  assert (HD : forall r, In r data -> finite (ddistance ord m r q) /\ within_errors (distance_errors m nf) (value (ddistance ord m r q)) (dist m (map value r) (map value q))).
  { intros r Hr. apply C70_double_distance; auto. intros Em. apply HA; auto. now left. }
  assert (HK : forall d i, In (d, i) a -> exists r, nth_error data i = Some r /\ finite d /\ value d = value (ddistance ord m r q)).
  { intros d i Hd. destruct (N3 d i Hd) as (r & Hr & Ed). exists r. split; [exact Hr|]. destruct (HD r (nth_error_In _ _ Hr)) as [Fr _].
    assert (Fd : finite d). { unfold deq in Ed. unfold finite in *. destruct d as [[]|[]| |[] ? ? ?], (ddistance ord m r q) as [[]|[]| |[] ? ? ?]; try reflexivity; discriminate. }
    split; [exact Fd|]. unfold deq in Ed. rewrite Beqb_correct in Ed by assumption. unfold value. now destruct (Req_bool_spec (B2R d) (B2R (ddistance ord m r q))). }
  split; [split; [now rewrite map_length|]; split; [exact N2|]; split|].
  - intros i Hi. apply in_map_iff in Hi as ([d j] & <- & Hd). destruct (HK d j Hd) as (r & Hr & _). unfold values. rewrite map_length. apply nth_error_Some. cbn [snd]. now rewrite Hr.
  - intros i j r s Hi Hj Hr Hs. apply in_map_iff in Hi as ([d i'] & <- & Hd). cbn [snd] in *. destruct (HK d i' Hd) as (r0 & Hr0 & Fd & Ed). apply value_rows_inv in Hr as (r1 & Hr1 & ->).
    apply value_rows_inv in Hs as (s1 & Hs1 & ->). rewrite Hr0 in Hr1. injection Hr1 as <-. destruct (HD r0 (nth_error_In _ _ Hr0)) as [_ [G _]]. destruct (HD s1 (nth_error_In _ _ Hs1)) as [Fs [_ G']].
    pose proof (N5 j s1 Hs1 Hj d (in_map fst _ _ Hd)) as L. unfold dle in L. rewrite Bleb_correct in L by assumption. destruct (Rle_bool_spec (B2R d) (B2R (ddistance ord m s1 q))) as [L'|]; [|discriminate].
    unfold value in *. lra.
  - intros d i Hd. destruct (HK d i Hd) as (r & Hr & Fd & Ed). exists (map value r). split; [now apply value_rows|]. split; [exact Fd|]. rewrite Ed. now apply HD, nth_error_In with i.
Qed.
Print Assumptions C70_nearest.
(** A radius query finds every row that is within the radius by more than the error, and none that is outside by more. *)
Theorem C70_radius :
  forall ord m leaf_size nf data nodes q radius,
    fair ord -> (1 <= nf)%nat -> (Z.of_nat nf < 2 ^ 53)%Z -> table nf data -> Forall (Forall moderate) data -> length q = nf -> Forall moderate q -> finite radius ->
    (m = Euclidean -> forall r, In r data -> apart (map value r) (map value q)) ->
    first_column_widest nf (values data) -> dbuild leaf_size nf data = Ok nodes ->
    exists ans, dquery_radius ord m nodes q radius = Ok ans /\ NoDup (map snd ans) /\
      (forall i r, nth_error (values data) i = Some r -> (1 + ulp_half) ^ distance_errors m nf * dist m r (map value q) < value radius -> In i (map snd ans)) /\
      (forall i, In i (map snd ans) -> exists r, nth_error (values data) i = Some r /\ (1 - ulp_half) ^ distance_errors m nf * dist m r (map value q) <= value radius).
Proof.
  intros ord m leaf_size nf data nodes q radius HF Hn Hn2 HT HM Hq Mq Fr HA HW Eb.
  destruct (C69_radius ord m leaf_size nf data nodes q radius HF Hn Hn2 HT HM Hq Mq Fr HW Eb) as (ans & E & W1 & W2 & W3). exists ans. split; [exact E|]. split; [exact W1|].
  unfold table in HT. rewrite Forall_forall in HT, HM.
  assert (HD : forall r, In r data -> finite (ddistance ord m r q) /\ within_errors (distance_errors m nf) (value (ddistance ord m r q)) (dist m (map value r) (map value q))).
  { intros r Hr. apply C70_double_distance; auto. }
  split.
  - intros i r Hr HL. apply value_rows_inv in Hr as (r1 & Hr1 & ->). destruct (HD r1 (nth_error_In _ _ Hr1)) as [F1 [_ G]]. apply (W3 i r1 Hr1). unfold dlt. rewrite Bltb_correct by assumption.
    apply Rlt_bool_true. unfold value in *. lra.
  - intros i Hi. apply in_map_iff in Hi as ([d j] & <- & Hd). cbn [snd]. destruct (W2 d j Hd) as (r & Hr & Ed & El). exists (map value r). split; [now apply value_rows|].
    destruct (HD r (nth_error_In _ _ Hr)) as [F1 [G _]].
    assert (Fd : finite d). { unfold deq in Ed. unfold finite in *. destruct d as [[]|[]| |[] ? ? ?], (ddistance ord m r q) as [[]|[]| |[] ? ? ?]; try reflexivity; discriminate. }
    unfold deq in Ed. rewrite Beqb_correct in Ed by assumption. unfold dle in El. rewrite Bleb_correct in El by assumption. unfold value in *.
    destruct (Req_bool_spec (B2R d) (B2R (ddistance ord m r q))) as [E1|]; [|discriminate]. destruct (Rle_bool_spec (B2R d) (B2R radius)); [|discriminate]. lra.
Qed.
Print Assumptions C70_radius.

(** The hypotheses hold for the table and the points of [C69_case] ... *)
Example C70_case : exists nodes ans, dbuild 5 2 dwide = Ok nodes /\ dquery (dlp_norm left_to_right Manhattan) (fun _ => 0%nat) nodes dpoints 3 = Ok ans /\
  Forall2 (fun q a => almost_nearest 2 Manhattan wide (map value q) 3 (map snd a)) dpoints ans.
Proof.
  destruct wide_ok as (H1 & H2 & H3). assert (HT : table 2 dwide) by (repeat constructor). assert (HTq : table 2 dpoints) by (repeat constructor).
  assert (HM : Forall (Forall moderate) dwide) by (unfold dwide, dpoints; cbn [map]; repeat (apply Forall_cons; [repeat (apply Forall_cons; [apply dbl_moderate; cbn; lia|]); apply Forall_nil|]); apply Forall_nil).
  assert (HMq : Forall (Forall moderate) dpoints) by (unfold dwide, dpoints; cbn [map]; repeat (apply Forall_cons; [repeat (apply Forall_cons; [apply dbl_moderate; cbn; lia|]); apply Forall_nil|]); apply Forall_nil).
  destruct (C69_completes left_to_right Manhattan (fun _ => 0%nat) 5 2 dwide dpoints 3 fair_left ltac:(lia) eq_refl HT HM HTq HMq) as (nodes & ans & E1 & E2);
    [now rewrite dwide_values|cbn; lia|lia|cbn; lia|]. exists nodes, ans. split; [exact E1|]. split; [exact E2|].
  pose proof (C70_nearest left_to_right Manhattan (fun _ => 0%nat) 5 2 dwide nodes dpoints 3 ans fair_left ltac:(lia) eq_refl HT HM HTq HMq ltac:(discriminate)
    ltac:(now rewrite dwide_values) E1 ltac:(cbn; lia) E2) as N. clear -N. induction N as [|q a qs ans [Hn _] N IH]; constructor; [now rewrite dwide_values in Hn|exact IH].
Qed.
(** ... and for the Euclidean distance of two points with different coordinates. *)
Example C70_distance_case : within_errors 5 (computed_dist binary64 (Add (Entry 1) (Entry 0)) Euclidean [3; 4] [1; 4]) 2.
Proof.
  assert (D : dist Euclidean [3; 4] [1; 4] = 2).
  { unfold dist, norm_of, sum, Rsqr. cbn [combine map fold_right fst snd]. replace ((3 - 1) * (3 - 1) + ((4 - 4) * (4 - 4) + 0)) with (2 * 2) by lra. apply sqrt_square. lra. }
  rewrite <- D. assert (I : forall z, (Z.abs z <= 2 ^ 53)%Z -> representable binary64 (IZR z)) by (intros z Hz; now apply RoundMore_Proofs.b64_int).
  apply (C70_distance (Add (Entry 1) (Entry 0)) Euclidean 2).
  - apply perm_swap.
  - split; [reflexivity|]. repeat constructor; apply I; cbn; lia.
  - split; [reflexivity|]. repeat constructor; apply I; cbn; lia.
  - intros _ [|[|[|i]]]; cbn [nth]; [right|now left|now left|now left]. replace (3 - 1) with 2 by lra. rewrite Rabs_pos_eq by lra. change 2 with (bpow radix2 1). apply bpow_le. lia.
Qed.
