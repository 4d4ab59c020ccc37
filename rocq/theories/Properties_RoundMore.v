(** Property theorems for the program with rounded arithmetic (C62-C64).  Specification: [Round_Spec]; model: [Round_Model]. *)
From Coq Require Import Reals Lra ZArith.
From Flocq Require Import Core.
From Verif Require Import Base KDTree_Spec KDReal_Proofs Split_Model Tree_Model Tree_Spec Tree_Proofs Impurity_Model Impurity_Spec Impurity_Proofs TreeReal_Proofs
  Vec MathFun_Model KMeans_Model NB_Proofs Properties_Tree Round_Spec Round_Model Round_Proofs RoundMore_Proofs.
Local Open Scope R_scope.

(** Doubles are a number format with integers exact up to 2^53; the correctly rounded exponential is a computed
    exponential. *)
Theorem C62_formats :
  number_format binary64 /\ exact_integers binary64 (2 ^ 53) /\ computed_exp binary64 (fun x => binary64 (exp x)).
Proof. split; [exact binary64_format|]. split; [intros z Hz; now apply b64_int|exact binary64_exp]. Qed.
Print Assumptions C62_formats.

(** * C62: activations *)
(** Every entry of [sigmoid] is a number in [0, 1], at least 1/2 for x >= 0 and at most 1/2 for x <= 0. *)
Theorem C62_sigmoid :
  forall rnd ex x, number_format rnd -> computed_exp rnd ex ->
    exists p, sigmoid_r rnd ex x = Some p /\ 0 <= p <= 1 /\ (0 <= x -> / 2 <= p) /\ (x <= 0 -> p <= / 2).
Proof. intros rnd ex x HF HE. now apply sigmoid_r_spec. Qed.
Print Assumptions C62_sigmoid.
(** [softmax] by rows never divides by zero, its entries lie in [0, 1] and are ordered as in the row. *)
Theorem C62_softmax :
  forall rnd ex s nc x, number_format rnd -> computed_exp rnd ex -> Permutation (entries_of s) (seq 0 nc) ->
    length x <> 1%nat -> (2 <= nc)%nat -> is_matrix nc x ->
    exists p, softmax_r rnd ex s nc x = Ok (map (map Some) p) /\
      Forall2 (fun r q => length q = nc /\ (forall a, In a q -> 0 <= a <= 1) /\
        forall i j, (i < nc)%nat -> (j < nc)%nat -> nth i r 0 <= nth j r 0 -> nth i q 0 <= nth j q 0) x p.
Proof.
  intros rnd ex s nc x HF HE HP Hl Hc Hm. unfold softmax_r.
  destruct (Nat.eqb_spec (length x) 1); [congruence|]. destruct (Nat.eqb_spec nc 1); [lia|]. cbn [orb]. clear Hl n n0.
  induction x as [|r x IH]; [exists []; split; [reflexivity|constructor]|].
  destruct IH as (p & Ep & Hp); [intros q Hq; apply Hm; now right|]. pose proof (Hm r (or_introl eq_refl)) as Hr.
  destruct (softmax_row_spec rnd ex HF HE s r) as (q & Eq & H1 & H2 & H3); [intros ->; simpl in Hr; lia|now rewrite Hr|].
  rewrite Hr in *. exists (q :: p). cbn [mapM map]. rewrite Eq. cbn [bind]. rewrite Ep. split; [reflexivity|]. constructor; auto.
Qed.
Print Assumptions C62_softmax.
(** One row or one column is rejected, as with exact arithmetic. *)
Theorem C62_softmax_rejects : forall rnd ex s nc x, length x = 1%nat \/ nc = 1%nat -> softmax_r rnd ex s nc x = Throw InvalidArgument.
Proof. intros rnd ex s nc x [H| ->]; unfold softmax_r; [now rewrite H|]. cbn. now rewrite orb_true_r. Qed.
Print Assumptions C62_softmax_rejects.
(** The probabilities inside the softmax loss are defined as long as every row has an entry whose exponential,
    relative to the largest entry of the whole matrix, is not rounded to zero ... *)
Theorem C62_softmax_loss :
  forall rnd ex s nc xw m, number_format rnd -> computed_exp rnd ex -> Permutation (entries_of s) (seq 0 nc) ->
    is_matrix nc xw -> xw <> [] -> In m (concat xw) -> (forall a, In a (concat xw) -> a <= m) ->
    (forall r, In r xw -> exists b, In b r /\ 0 < ex (rnd (b - m))) ->
    exists p, loss_probs_r rnd ex s xw = Ok (map (map Some) p) /\
      Forall2 (fun r q => length q = nc /\ forall a, In a q -> 0 <= a <= 1) xw p.
Proof.
  intros rnd ex s nc xw m HF HE HP Hm Hne Hin Hmax Hpos. unfold loss_probs_r.
  assert (Hc : concat xw <> []) by (intros E; now rewrite E in Hin).
  destruct (max_coeff_spec Hc) as (m' & Em & Hm' & Hmax'). rewrite Em. cbn [bind].
  assert (m' = m) as ->. { pose proof (Hmax _ Hm'). pose proof (Hmax' _ Hin). lra. }
  clear -HF HE HP Hm Hpos.
  assert (G : exists p, map (fun r => let e := map (fun b => ex (rnd (b - m))) r in map (fun b => fdiv rnd b (add_up rnd s e)) e) xw = map (map Some) p /\
      Forall2 (fun r q => length q = nc /\ forall a, In a q -> 0 <= a <= 1) xw p).
  { induction xw as [|r xw IH]; [exists []; split; [reflexivity|constructor]|].
    destruct IH as (p & Ep & Hp); [intros q Hq; apply Hm; now right|intros q Hq; apply Hpos; now right|].
    pose proof (Hm r (or_introl eq_refl)) as Hr.
    destruct (ratios rnd ex HF HE s r m) as (q & Eq & H1 & H2 & _); [now rewrite Hr|apply Hpos; now left|].
    exists (q :: p). split; [exact (f_equal2 cons Eq Ep)|]. constructor; [split; [congruence|assumption]|assumption]. }
  destruct G as (p & Ep & Hp). exists p. split; [exact (f_equal (@Ok _) Ep)|exact Hp].
Qed.
Print Assumptions C62_softmax_loss.
(** ... but not otherwise: in doubles, two samples with scores 1100 and 0 suffice to make every probability of the
    second sample 0/0. *)
Lemma exp_underflow z : z <= -1100 -> binary64 (exp z) = 0.
Proof.
  intros Hz. unfold binary64. assert (H0 : 0 < exp z) by apply exp_pos.
  apply round_N_small_pos with (mag radix2 (exp z)); [destruct (mag radix2 (exp z)) as (e & He); cbn; rewrite Rabs_right in He by lra; apply He; lra|].
  assert (Hm : (mag radix2 (exp z) <= -1075)%Z).
  { apply mag_le_bpow; [lra|]. rewrite Rabs_right by lra. rewrite bpow_exp. apply exp_increasing.
    assert (Hl : ln (IZR radix2) < 1).
    { change (IZR radix2) with 2. rewrite <- (ln_exp 1). apply ln_increasing; [lra|]. pose proof (exp_ineq1 1 ltac:(lra)). lra. }
    lra. }
  unfold FLT_exp. lia.
Qed.
Definition ex64 (x : R) : R := binary64 (exp x).
Theorem C62_softmax_loss_refuted :
  exists X W p, X = [[1]; [0]] /\ W = [[1100; 1100]] /\
    loss_probs_r binary64 ex64 (Add (Entry 0) (Entry 1)) (matmul_r binary64 (Entry 0) 2 X W) = Ok p /\ nth_error p 1 = Some [None; None].
Proof.
  exists [[1]; [0]], [[1100; 1100]]. unfold matmul_r. cbn [map seq map2 nth add_up].
  replace (1 * 1100) with 1100 by lra. replace (0 * 1100) with 0 by lra.
  rewrite (b64_int 1100), (b64_int 0) by lia. eexists. split; [reflexivity|]. split; [reflexivity|].
  unfold loss_probs_r. cbn [concat app max_coeff fold_left bind].
  assert (E : Rmax (Rmax (Rmax 1100 1100) 0) 0 = 1100).
  { rewrite (Rmax_left 1100 1100) by lra. rewrite !(Rmax_left 1100 0) by lra. reflexivity. }
  rewrite E. split; [reflexivity|]. cbn [map nth_error add_up nth].
  replace (0 - 1100) with (IZR (-1100)) by (rewrite <- minus_IZR; reflexivity). rewrite (b64_int (-1100)) by lia.
  unfold ex64. rewrite exp_underflow by lra. rewrite Rplus_0_r. replace (binary64 0) with 0 by (symmetry; apply (b64_int 0); lia).
  unfold fdiv. destruct (Req_EM_T 0 0); [reflexivity|lra].
Qed.
Print Assumptions C62_softmax_loss_refuted.
Example C62_case : exists p, softmax_r binary64 ex64 (Add (Entry 1) (Entry 0)) 2 [[0; 2000]; [-1; -3]] = Ok (map (map Some) p).
Proof.
  destruct (C62_softmax binary64 ex64 (Add (Entry 1) (Entry 0)) 2 [[0; 2000]; [-1; -3]] binary64_format binary64_exp) as (p & E & _);
    [apply perm_swap|discriminate|lia|intros r [<-|[<-|[]]]; reflexivity|eauto].
Qed.

(** * C63: splits *)
(** [train_test_split] still partitions the samples, whatever the rounding of [num_samples * train_size]; the number of
    training samples is the exact one or one more. *)
Theorem C63_split :
  forall rnd (A B : Type) (X : list A) (y : list B) train_size shuffle,
    rounding rnd -> exact_integers rnd (Z.of_nat (length X)) -> length y = length X -> 0 <= train_size <= 1 ->
    (forall p, shuffle = Some p -> Permutation p (seq 0 (length X))) ->
    exists Xtr Xte ytr yte, train_test_split_r rnd X y train_size shuffle = Ok (Xtr, Xte, ytr, yte) /\
      Permutation (combine Xtr ytr ++ combine Xte yte) (combine X y) /\
      (Int_part (INR (length X) * train_size) <= Z.of_nat (length Xtr) <= Int_part (INR (length X) * train_size) + 1)%Z /\
      length ytr = length Xtr /\ length yte = length Xte /\ (length Xtr + length Xte = length X)%nat /\
      (shuffle = None -> Xtr ++ Xte = X /\ ytr ++ yte = y).
Proof.
  intros rnd A B X y ts sh HR HI Hy Hts Hsh. unfold train_test_split_r.
  assert (Hv : 0 <= INR (length X) * ts <= IZR (Z.of_nat (length X))).
  { rewrite <- INR_IZR_INZ. pose proof (pos_INR (length X)). split; [apply Rmult_le_pos; lra|].
    rewrite <- (Rmult_1_r (INR (length X))) at 2. apply Rmult_le_compat_l; lra. }
  destruct (floor_rnd rnd _ _ HR HI Hv) as (H1 & H2 & H3).
  assert (Et : trunc_r (rnd (INR (length X) * ts)) = Int_part (rnd (INR (length X) * ts))).
  { unfold trunc_r. destruct (Rle_dec 0 (rnd (INR (length X) * ts))); [reflexivity|lra]. }
  rewrite Et. destruct (split_at X y sh _ Hy Hsh H2) as (a & b & c & d & E & F1 & F2 & F3).
  exists a, b, c, d. split; [exact E|]. split; [exact F1|]. split; [rewrite F2; exact H1|exact F3].
Qed.
Print Assumptions C63_split.
(** "One more" happens: of ten samples the double nearest to 0.7 (which is smaller than 0.7) selects seven. *)
Definition seven_tenths : R := 3152519739159347 / 4503599627370496.
Theorem C63_split_refuted :
  exists Xtr Xte ytr yte, binary64 seven_tenths = seven_tenths /\ Int_part (INR 10 * seven_tenths) = 6%Z /\
    train_test_split_r binary64 (seq 0 10) (seq 0 10) seven_tenths None = Ok (Xtr, Xte, ytr, yte) /\ length Xtr = 7%nat.
Proof.
  assert (HI : exact_integers binary64 (Z.of_nat (length (seq 0 10)))) by (intros z Hz; apply b64_int; simpl in Hz; lia).
  destruct (C63_split binary64 _ _ (seq 0 10) (seq 0 10) seven_tenths None binary64_rounding HI eq_refl) as (a & b & c & d & E & _);
    [unfold seven_tenths; lra|discriminate|].
  assert (E10 : INR 10 = 10) by (rewrite INR_IZR_INZ; reflexivity).
  assert (Hp : forall k u, IZR k <= u < IZR k + 1 -> Int_part u = k).
  { intros k u H. destruct (base_Int_part u) as (G1 & G2).
    assert (A1 : IZR k < IZR (Int_part u + 1)) by (rewrite plus_IZR; lra). assert (A2 : IZR (Int_part u) < IZR (k + 1)) by (rewrite plus_IZR; lra).
    apply lt_IZR in A1. apply lt_IZR in A2. lia. }
  exists a, b, c, d. split; [|split; [|split; [exact E|]]].
  - rewrite (b64_val seven_tenths 53 6305039478318694); [unfold seven_tenths; cbn; lra|lia|unfold seven_tenths; cbn; lra|unfold seven_tenths; cbn; lra].
  - rewrite E10. apply Hp. unfold seven_tenths. lra.
  - unfold train_test_split_r in E. cbn [bind] in E.
    assert (Ek : trunc_r (binary64 (INR (length (seq 0 10)) * seven_tenths)) = 7%Z).
    { change (length (seq 0 10)) with 10%nat. rewrite E10. rewrite (b64_tie _ 50 7881299347898367); [|lia|unfold seven_tenths; cbn; lra|unfold seven_tenths; cbn; lra].
      cbn. unfold trunc_r. destruct (Rle_dec 0 _) as [|n]; [apply Hp; lra|exfalso; apply n; lra]. }
    rewrite Ek in E. vm_compute in E. injection E as <- _ _ _. reflexivity.
Qed.
Print Assumptions C63_split_refuted.
(** A threshold tried by the tree search lies between the two neighbouring values, so that some row goes left. *)
Theorem C63_threshold :
  forall rnd D f t, number_format rnd -> (forall e v, In e D -> nth_error (fst e) f = Some v -> representable rnd v) ->
    candidate Rltb (mid_r rnd) D f t ->
    (exists e v, In e D /\ nth_error (fst e) f = Some v /\ v <= t /\ goes_left Rltb f t (fst e) = true) /\
    (exists e v, In e D /\ nth_error (fst e) f = Some v /\ t <= v).
Proof.
  intros rnd D f t HF Hrep (s & i & a & b & HP & Hs & Ha & Hb & ->).
  assert (G : forall k u, nth_error s k = Some u -> exists e, In e D /\ nth_error (fst e) f = Some u).
  { intros k u Hu. apply nth_error_In, (in_map Some), (Permutation_in _ HP), in_map_iff in Hu. destruct Hu as (e & E1 & E2). eauto. }
  destruct (G _ _ Ha) as (ea & Ia & Na), (G _ _ Hb) as (eb & Ib & Nb).
  assert (Hab : a <= b).
  { clear -Hs Ha Hb. revert i Ha Hb. induction Hs as [|x s Hs IH Hall]; intros i Ha Hb; [destruct i; discriminate|].
    destruct i as [|i]; [|now apply (IH i)]. simpl in Ha. injection Ha as <-. change (nth_error s 0 = Some b) in Hb. apply nth_error_In in Hb.
    rewrite Forall_forall in Hall. apply Rltb_false. now apply Hall. }
  destruct (mid_between rnd a b HF (Hrep _ _ Ia Na) (Hrep _ _ Ib Nb) Hab) as (H1 & H2).
  split; [exists ea, a|exists eb, b]; repeat split; auto. unfold goes_left. rewrite Na. apply negb_true_iff, Rltb_false. exact H1.
Qed.
Print Assumptions C63_threshold.
(** But none need go right: between neighbouring doubles the threshold can be the larger one.  Fitting a regression tree
    then evaluates the variance of an empty vector although all values of the feature differ, and although with exact
    thresholds it would be defined. *)
Definition near : list (list R) := [[1]; [1 + / 4503599627370496]; [1 + / 2251799813685248]].
Theorem C63_neighbours_refuted :
  exists P y, (forall r v, In r near -> In v r -> binary64 v = v) /\
    (exists t, grow Rltb Rmid Rgtb dbl_min (reg_gain SquaredError) (reg_value 0) 1 P near y = Ok t) /\
    grow Rltb (mid_r binary64) Rgtb dbl_min (reg_gain SquaredError) (reg_value 0) 1 P near y = UB.
Proof.
  exists (Params 3 1 5 0), [0; 1; 2]. set (P := Params 3 1 5 0). set (y := [0; 1; 2]).
  assert (HM : matrix 1 near) by (intros r [<- |[<- |[<- |[]]]]; reflexivity).
  assert (HL : length y = length near) by reflexivity.
  split; [|split].
  - intros r v Hr Hv. destruct Hr as [<- |[<- |[<- |[]]]]; destruct Hv as [<- |[]].
    + apply (b64_int 1). lia.
    + rewrite (b64_val _ 52 4503599627370497); [cbn; lra|lia|cbn; lra|cbn; lra].
    + rewrite (b64_val _ 52 4503599627370498); [cbn; lra|lia|cbn; lra|cbn; lra].
  - apply (C26_defined 0 P 1 near y HM HL); [discriminate|simpl; lia|].
    intros f Hf. assert (f = 0%nat) as -> by lia. cbn. repeat constructor; simpl; intros H; repeat (destruct H as [H|H]); try contradiction; injection H; lra.
  - assert (Hv : exists v, reg_value 0 y = Ok (v, false)).
    { unfold reg_value, y. cbn [mean_vec bind]. eexists. f_equal. f_equal. apply negb_false_iff, Rltb_true. apply sqrt_lt_R0.
      apply Rdiv_lt_0_compat; [|cbn; lra]. apply sqrt_lt_R0. unfold Rsum. cbn [map fold_left length INR]. nra. }
    destruct Hv as (v & Hv). unfold grow. cbn [build_tree]. rewrite Hv. cbn [bind].
    change (length near <? min_samples_split P)%nat with false. change (max_depth P <? 0)%nat with false. cbn iota.
    rewrite <- (combine_fst near y HL) at 1. rewrite <- (combine_snd near y HL) at 2.
    set (c := 1 + / 2251799813685248).
    assert (Hmid : mid_r binary64 (1 + / 4503599627370496) c = c).
    { unfold mid_r. rewrite (b64_tie (1 + / 4503599627370496 + c) 51 4503599627370497); [|lia|unfold c; cbn; lra|unfold c; cbn; lra].
      rewrite (b64_val _ 52 4503599627370498); [unfold c; cbn; lra|lia|cbn; lra|cbn; lra]. }
    assert (HM' : matrix 1 (map fst (combine near y))) by now rewrite combine_fst.
    rewrite (@best_split_UB R Rltb (mid_r binary64) Rltb_order R Rgtb dbl_min (reg_gain SquaredError) 1 (combine near y) 0 c HM'); [reflexivity|..].
    + cbn. lia.
    + intros. now apply reg_gain_cases.
    + lia.
    + exists [1; 1 + / 4503599627370496; c], 1%nat, (1 + / 4503599627370496), c. split; [cbn; apply Permutation_refl|]. split.
      { repeat constructor; apply Rltb_false; unfold c; lra. }
      split; [reflexivity|]. split; [reflexivity|]. now symmetry.
    + unfold gain_at, reg_gain.
      assert (Hr : right_targets Rltb (combine near y) 0 c = []).
      { unfold right_targets. cbn [near y combine filter fst goes_left nth_error]. unfold goes_left. cbn [nth_error]. change (1 + / 2251799813685248) with c.
        rewrite (proj2 (Rltb_false c 1)) by (unfold c; lra). rewrite (proj2 (Rltb_false c (1 + / 4503599627370496))) by (unfold c; lra).
        rewrite (proj2 (Rltb_false c c)) by lra. reflexivity. }
      rewrite Hr. destruct (@var_vec_ok (map snd (combine near y))) as (a & ->); [discriminate|].
      destruct (@var_vec_ok (left_targets Rltb (combine near y) 0 c)) as (b & ->); [|reflexivity].
      unfold left_targets. cbn [near y combine filter fst]. unfold goes_left at 1. cbn [nth_error].
      rewrite (proj2 (Rltb_false c 1)) by (unfold c; lra). discriminate.
Qed.
Print Assumptions C63_neighbours_refuted.
Example C63_case : candidate Rltb (mid_r binary64) (combine [[1]; [3]; [2]] [0; 0; 0]) 0 (3 / 2).
Proof.
  exists [1; 2; 3], 0%nat, 1, 2. split; [cbn; apply perm_skip, perm_swap|]. split; [repeat constructor; apply Rltb_false; lra|].
  split; [reflexivity|]. split; [reflexivity|]. unfold mid_r. replace (1 + 2) with 3 by lra. rewrite (b64_int 3) by lia.
  rewrite (b64_val _ 52 6755399441055744); [cbn; lra|lia|cbn; lra|cbn; lra].
Qed.

(** * C64: sums *)
(** Computed distances are symmetric, not negative, and zero from a row to itself. *)
Theorem C64_distance :
  forall rnd s m x y, rounding rnd -> length x = length y ->
    computed_dist rnd s m x y = computed_dist rnd s m y x /\ 0 <= computed_dist rnd s m x y /\ computed_dist rnd s m x x = 0.
Proof. intros rnd s m x y HR HL. split; [now apply dist_sym|]. split; [now apply norm_pos|now apply dist_self]. Qed.
Print Assumptions C64_distance.
(** A computed mean does not decrease when entries increase. *)
Theorem C64_mean_monotone :
  forall rnd s x y, rounding rnd -> x <> [] -> Forall2 Rle x y ->
    exists a b, mean_r rnd s x = Ok a /\ mean_r rnd s y = Ok b /\ a <= b.
Proof.
  intros rnd s x y HR Hne H.
  assert (HL : length y = length x) by (clear -H; induction H; simpl; congruence).
  assert (Hn : forall i, nth i x 0 <= nth i y 0) by (clear -H; induction H; intros [|i]; simpl; auto; lra).
  exists (rnd (add_up rnd s x / INR (length x))), (rnd (add_up rnd s y / INR (length x))).
  split; [destruct x; [congruence|reflexivity]|]. split; [destruct x; [congruence|]; destruct y; [discriminate|]; unfold mean_r; now rewrite HL|].
  apply rnd_le; [exact HR|]. apply Rmult_le_compat_r; [left; apply Rinv_0_lt_compat, lt_0_INR; destruct x; [congruence|simpl; lia]|].
  now apply add_up_mono.
Qed.
Print Assumptions C64_mean_monotone.
(** But the mean of equal doubles need not be their value and their variance can be negative: three times the double
    nearest to 0.1. *)
Definition tenth : R := 7205759403792794 / 72057594037927936.
Theorem C64_mean_refuted :
  exists s m v, Permutation (entries_of s) (seq 0 3) /\ binary64 tenth = tenth /\
    mean_r binary64 s [tenth; tenth; tenth] = Ok m /\ tenth < m /\
    var_r binary64 s [tenth; tenth; tenth] = Ok v /\ v < 0.
Proof.
  assert (I3 : INR 3 = 3) by (rewrite INR_IZR_INZ; reflexivity).
  assert (S1 : binary64 (tenth + tenth) = 7205759403792794 / 36028797018963968).
  { rewrite (b64_val _ 55 7205759403792794); [cbn; lra|lia|unfold tenth; cbn; lra|unfold tenth; cbn; lra]. }
  assert (S2 : binary64 (7205759403792794 / 36028797018963968 + tenth) = 5404319552844596 / 18014398509481984).
  { rewrite (b64_tie _ 54 5404319552844595); [cbn; lra|lia|unfold tenth; cbn; lra|unfold tenth; cbn; lra]. }
  assert (S3 : binary64 (5404319552844596 / 18014398509481984 / 3) = 7205759403792795 / 72057594037927936).
  { rewrite (b64_val _ 56 7205759403792795); [cbn; lra|lia|cbn; lra|cbn; lra]. }
  assert (Q0 : binary64 (tenth * tenth) = 5764607523034236 / 576460752303423488).
  { rewrite (b64_val _ 59 5764607523034236); [cbn; lra|lia|unfold tenth; cbn; lra|unfold tenth; cbn; lra]. }
  set (q := 5764607523034236 / 576460752303423488) in *.
  assert (Q1 : binary64 (q + q) = 2 * q).
  { rewrite (b64_val _ 58 5764607523034236); [unfold q; cbn; lra|lia|unfold q; cbn; lra|unfold q; cbn; lra]. }
  assert (Q2 : binary64 (2 * q + q) = 3 * q).
  { rewrite (b64_val _ 58 8646911284551354); [unfold q; cbn; lra|lia|unfold q; cbn; lra|unfold q; cbn; lra]. }
  assert (Q3 : binary64 (3 * q / 3) = q).
  { rewrite (b64_val _ 59 5764607523034236); [unfold q; cbn; lra|lia|unfold q; cbn; lra|unfold q; cbn; lra]. }
  set (m := 7205759403792795 / 72057594037927936) in *.
  assert (M : binary64 (m * m) = 5764607523034237 / 576460752303423488).
  { rewrite (b64_val _ 59 5764607523034237); [cbn; lra|lia|unfold m; cbn; lra|unfold m; cbn; lra]. }
  assert (V : binary64 (q - 5764607523034237 / 576460752303423488) = - / 576460752303423488).
  { replace (q - 5764607523034237 / 576460752303423488) with (- / 576460752303423488) by (unfold q; lra).
    rewrite (rnd_opp _ binary64_rounding). f_equal.
    rewrite (b64_val _ 111 4503599627370496); [cbn; lra|lia|cbn; lra|cbn; lra]. }
  assert (EM : mean_r binary64 (Add (Add (Entry 0) (Entry 1)) (Entry 2)) [tenth; tenth; tenth] = Ok m).
  { unfold mean_r. cbn [add_up nth length]. rewrite S1, S2, I3, S3. reflexivity. }
  exists (Add (Add (Entry 0) (Entry 1)) (Entry 2)), m, (- / 576460752303423488).
  split; [apply Permutation_refl|]. split.
  { rewrite (b64_val _ 56 7205759403792794); [unfold tenth; cbn; lra|lia|unfold tenth; cbn; lra|unfold tenth; cbn; lra]. }
  split; [exact EM|]. split; [unfold tenth, m; lra|]. split; [|lra].
  unfold var_r. rewrite EM. cbn [bind map]. rewrite Q0. unfold mean_r. cbn [add_up nth length]. rewrite Q1, Q2, I3, Q3. cbn [bind]. rewrite M, V. reflexivity.
Qed.
Print Assumptions C64_mean_refuted.
(** k-means++: if the potential is the last running sum and the drawn value is not rounded to zero, the candidate is a sample
    that is not yet a centre (its computed squared distance is positive) ... *)
Theorem C64_candidate :
  forall rnd closest_dist draw pot, number_format rnd -> closest_dist <> [] ->
    (forall b, In b closest_dist -> 0 <= b /\ representable rnd b) -> 0 <= draw <= 1 ->
    nth_error (cumsum_r rnd closest_dist) (length closest_dist - 1) = Some pot -> 0 < rnd (draw * pot) ->
    exists k d, candidate_index_r rnd closest_dist pot draw = Ok k /\ nth_error closest_dist k = Some d /\ 0 < d.
Proof. intros rnd l draw pot HF. now apply candidate_r. Qed.
Print Assumptions C64_candidate.
(** ... but the code adds the potential up with Eigen's sum, which may use another order: then the drawn value can exceed
    the last running sum and the last sample is taken although it is a centre already. *)
Definition small : R := / 9007199254740992.
Theorem C64_candidate_refuted :
  exists s draw, let l := [1; small; small; small; small; 0] in
    Permutation (entries_of s) (seq 0 6) /\ 0 < draw < 1 /\ binary64 draw = draw /\ (forall b, In b l -> binary64 b = b) /\
    candidate_index_r binary64 l (add_up binary64 s l) draw = Ok 5%nat /\ nth_error l 5 = Some 0.
Proof.
  exists (Add (Add (Entry 0) (Add (Add (Entry 1) (Entry 2)) (Add (Entry 3) (Entry 4)))) (Entry 5)), (1 - small). cbv zeta.
  assert (B1 : binary64 1 = 1) by (apply (b64_int 1); lia). assert (B0 : binary64 0 = 0) by (apply (b64_int 0); lia).
  assert (Bs : binary64 small = small).
  { rewrite (b64_val _ 105 4503599627370496); [unfold small; cbn; lra|lia|unfold small; cbn; lra|unfold small; cbn; lra]. }
  split; [cbn; apply Permutation_refl|]. split; [unfold small; lra|]. split.
  { rewrite (b64_val _ 53 9007199254740991); [unfold small; cbn; lra|lia|unfold small; cbn; lra|unfold small; cbn; lra]. }
  split; [intros b Hb; simpl in Hb; repeat (destruct Hb as [<-|Hb]; [assumption|]); destruct Hb|].
  split; [|reflexivity].
  assert (E1 : binary64 (1 + small) = 1).
  { rewrite (b64_tie _ 52 4503599627370496); [cbn; lra|lia|unfold small; cbn; lra|unfold small; cbn; lra]. }
  assert (E2 : binary64 (1 + 0) = 1) by now rewrite Rplus_0_r.
  assert (EC : cumsum_r binary64 [1; small; small; small; small; 0] = [1; 1; 1; 1; 1; 1]).
  { cbn [cumsum_r cumsum_from_r]. now rewrite !E1, !E2. }
  assert (EP : add_up binary64 (Add (Add (Entry 0) (Add (Add (Entry 1) (Entry 2)) (Add (Entry 3) (Entry 4)))) (Entry 5)) [1; small; small; small; small; 0] = 1 + 4 * small).
  { cbn [add_up nth].
    rewrite (b64_val (small + small) 104 4503599627370496); [|lia|unfold small; cbn; lra|unfold small; cbn; lra].
    rewrite (b64_val (_ / _ + _ / _) 103 4503599627370496); [|lia|cbn; lra|cbn; lra].
    rewrite (b64_val (1 + _) 52 4503599627370498); [|lia|cbn; lra|cbn; lra].
    rewrite Rplus_0_r. rewrite (b64_val _ 52 4503599627370498); [unfold small; cbn; lra|lia|cbn; lra|cbn; lra]. }
  assert (EV : binary64 ((1 - small) * (1 + 4 * small)) = 1 + 2 * small).
  { rewrite (b64_val _ 52 4503599627370497); [unfold small; cbn; lra|lia|unfold small; cbn; lra|unfold small; cbn; lra]. }
  unfold candidate_index_r. rewrite EP, EV, EC. unfold lower_bound. cbn [length lower_bound_loop Nat.div2 Nat.add vget nth_error bind Nat.sub].
  assert (L : Rltb 1 (1 + 2 * small) = true) by (apply Rltb_true; unfold small; lra).
  repeat (rewrite L; cbn [length lower_bound_loop Nat.div2 Nat.add vget nth_error bind Nat.sub]). reflexivity.
Qed.
Print Assumptions C64_candidate_refuted.
(** Truncation never makes a weight larger in size or changes its sign, and sets weights within the bound to zero. *)
Theorem C64_truncate :
  forall rnd m w, number_format rnd -> representable rnd w -> representable rnd m -> 0 <= m ->
    Rabs (truncate1_r rnd m w) <= Rabs w /\ 0 <= w * truncate1_r rnd m w /\
    (Rabs w <= m -> truncate1_r rnd m w = 0) /\ (m = 0 -> truncate1_r rnd m w = w).
Proof. intros rnd m w HF Hw Hm H0. now apply truncate1_r_spec. Qed.
Print Assumptions C64_truncate.
Example C64_case : exists k d, candidate_index_r binary64 [0; 3; 1] 4 (/ 2) = Ok k /\ nth_error [0; 3; 1] k = Some d /\ 0 < d.
Proof.
  assert (Hi : forall z, (Z.abs z <= 10)%Z -> binary64 (IZR z) = IZR z) by (intros z Hz; apply b64_int; lia).
  apply (C64_candidate binary64 [0; 3; 1] (/ 2) 4 binary64_format); [discriminate| |lra| |].
  - intros b Hb. simpl in Hb. destruct Hb as [<-|[<-|[<-|[]]]]; (split; [lra|]); [apply (Hi 0%Z)|apply (Hi 3%Z)|apply (Hi 1%Z)]; lia.
  - cbn [cumsum_r cumsum_from_r length Nat.sub nth_error]. replace (0 + 3) with 3 by lra. rewrite (Hi 3%Z) by lia. replace (3 + 1) with 4 by lra. now rewrite (Hi 4%Z) by lia.
  - replace (/ 2 * 4) with 2 by lra. rewrite (Hi 2%Z) by lia. lra.
Qed.
