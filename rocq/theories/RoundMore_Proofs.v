(** Rounded arithmetic: the formats, activations, splits, sums. *)
From Coq Require Import Reals Lra ZArith.
From Flocq Require Import Core.
From Verif Require Import Base KDTree_Model KDTree_Spec KDReal_Proofs Split_Model Split_Proofs Tree_Model Tree_Spec Tree_Proofs Vec MathFun_Model NB_Proofs KMeans_Model KMeansPP_Proofs
  Round_Spec Round_Model Round_Proofs.
Local Open Scope R_scope.

(** * The format of doubles *)
Lemma b64_scaled x e : (-1074 <= e)%Z -> bpow radix2 (52 + e) <= x < bpow radix2 (53 + e) ->
  binary64 x = IZR (ZnearestE (x * bpow radix2 (- e))) * bpow radix2 e.
Proof.
  intros He Hx. unfold binary64, round, F2R, scaled_mantissa, cexp. cbn [Fnum Fexp].
  assert (Hm : mag radix2 x = (53 + e)%Z :> Z) by (apply mag_unique_pos; now replace (53 + e - 1)%Z with (52 + e)%Z by lia).
  rewrite Hm. unfold FLT_exp. replace (Z.max (53 + e - 53) (-1074)) with e by lia. reflexivity.
Qed.
Lemma bpow_pos_nat k : (0 <= k)%Z -> bpow radix2 k = IZR (2 ^ k).
Proof. intros H. now rewrite <- IZR_Zpower. Qed.
Lemma b64_window x k : (0 <= k <= 1074)%Z -> IZR (2 ^ 52) <= x * IZR (2 ^ k) < IZR (2 ^ 53) ->
  binary64 x = IZR (ZnearestE (x * IZR (2 ^ k))) / IZR (2 ^ k).
Proof.
  intros Hk Hx. assert (HP : 0 < bpow radix2 k) by apply bpow_gt_0.
  rewrite (b64_scaled x (- k)); [|lia|].
  - rewrite Z.opp_involutive, bpow_pos_nat by lia. rewrite bpow_opp, bpow_pos_nat by lia. reflexivity.
  - rewrite !bpow_plus, bpow_opp. change (bpow radix2 52) with (IZR (2 ^ 52)). change (bpow radix2 53) with (IZR (2 ^ 53)).
    rewrite bpow_pos_nat in * by lia. set (P := IZR (2 ^ k)) in *. split.
    + apply (Rmult_le_reg_r P); [assumption|]. rewrite Rmult_assoc, Rinv_l, Rmult_1_r by lra. apply Hx.
    + apply (Rmult_lt_reg_r P); [assumption|]. rewrite Rmult_assoc, Rinv_l, Rmult_1_r by lra. apply Hx.
Qed.
Lemma b64_val x k m : (0 <= k <= 1074)%Z -> IZR (2 ^ 52) <= x * IZR (2 ^ k) < IZR (2 ^ 53) ->
  - / 2 < x * IZR (2 ^ k) - IZR m < / 2 -> binary64 x = IZR m / IZR (2 ^ k).
Proof. intros Hk Hx Hm. rewrite (b64_window x k Hk Hx). rewrite (Znearest_imp _ _ m); [reflexivity|]. apply Rabs_def1; lra. Qed.
Lemma b64_tie x k m : (0 <= k <= 1074)%Z -> IZR (2 ^ 52) <= x * IZR (2 ^ k) < IZR (2 ^ 53) ->
  x * IZR (2 ^ k) = IZR m + / 2 -> binary64 x = IZR (if Z.even m then m else m + 1) / IZR (2 ^ k).
Proof.
  intros Hk Hx Hm. rewrite (b64_window x k Hk Hx), Hm. f_equal. f_equal. unfold Znearest.
  assert (Hf : Zfloor (IZR m + / 2) = m) by (apply Zfloor_imp; rewrite plus_IZR; lra).
  rewrite Hf. rewrite Rcompare_Eq by lra. rewrite Zceil_floor_neq by (rewrite Hf; lra). rewrite Hf.
  now destruct (Z.even m).
Qed.

Lemma b64_int z : (Z.abs z <= 2 ^ 53)%Z -> binary64 (IZR z) = IZR z.
Proof.
  intros Hz. apply round_generic; [apply valid_rnd_N|]. apply generic_format_FLT.
  destruct (Z.eq_dec (Z.abs z) (2 ^ 53)) as [E|E].
  - exists (Float radix2 (if (0 <=? z)%Z then 2 ^ 52 else - 2 ^ 52) 1).
    + unfold F2R. cbn [Fnum Fexp]. change (bpow radix2 1) with (IZR 2). rewrite <- mult_IZR. f_equal. destruct (Z.leb_spec 0 z); lia.
    + cbn [Fnum]. destruct (Z.leb_spec 0 z); reflexivity.
    + cbn [Fexp]. lia.
  - exists (Float radix2 z 0); cbn [Fnum Fexp]; [unfold F2R; cbn; lra|change (radix2 ^ 53)%Z with (2 ^ 53)%Z; lia|lia].
Qed.
Lemma binary64_format : number_format binary64.
Proof.
  split; [exact binary64_rounding|]. split; [|split; [|split]].
  - intros a. apply round_generic; [apply valid_rnd_N|]. apply generic_format_round; [apply FLT_exp_valid; reflexivity|apply valid_rnd_N].
  - intros a Ha. apply round_generic; [apply valid_rnd_N|]. apply generic_format_FLT.
    assert (Hg : generic_format radix2 (FLT_exp (-1074) 53) a).
    { rewrite <- Ha. apply generic_format_round; [apply FLT_exp_valid; reflexivity|apply valid_rnd_N]. }
    apply FLT_format_generic in Hg; [|reflexivity]. destruct Hg as [f Hf1 Hf2 Hf3].
    exists (Float radix2 (Fnum f) (Fexp f + 1)); cbn [Fnum Fexp]; [|exact Hf2|lia].
    rewrite Hf1. unfold F2R. cbn [Fnum Fexp]. rewrite bpow_plus. change (bpow radix2 1) with 2. ring.
  - apply (b64_int 1). lia.
  - apply round_generic; [apply valid_rnd_N|]. apply generic_format_FLT.
    exists (Float radix2 1 (-1)); cbn [Fnum Fexp]; [unfold F2R; cbn; lra|reflexivity|lia].
Qed.
Lemma binary64_exp : computed_exp binary64 (fun x => binary64 (exp x)).
Proof.
  destruct binary64_format as (HR & Hi & _ & H1 & _).
  split; [|split; [|split]].
  - intros a b H. apply rnd_le; [exact HR|]. destruct H as [H| ->]; [left; now apply exp_increasing|lra].
  - intros a. apply rnd_pos; [exact HR|]. left. apply exp_pos.
  - rewrite exp_0. exact H1.
  - intros a. apply Hi.
Qed.

(** * Activations *)
Section Activations.
  Variables rnd ex : R -> R.
  Hypothesis HF : number_format rnd.
  Hypothesis HE : computed_exp rnd ex.
  Let HR : rounding rnd := proj1 HF.
  Lemma rep_1 : rnd 1 = 1.
  Proof. apply HF. Qed.
  Lemma rep_half : rnd (/ 2) = / 2.
  Proof. apply HF. Qed.
  Lemma rep_double a : rnd a = a -> rnd (2 * a) = 2 * a.
  Proof. apply HF. Qed.
  Lemma ex_rep a : rnd (ex a) = ex a.
  Proof. apply HE. Qed.
  Lemma ex_pos a : 0 <= ex a.
  Proof. apply HE. Qed.
  Lemma ex_le1 a : a <= 0 -> ex a <= 1.
  Proof. intros H. replace 1 with (ex 0) by apply HE. now apply HE. Qed.
  Lemma fdiv_some a b : 0 < b -> fdiv rnd a b = Some (rnd (a / b)).
  Proof. intros H. unfold fdiv. destruct (Req_EM_T b 0); [lra|reflexivity]. Qed.
  Lemma quotient_bounds a b : 0 <= a <= b -> 0 < b -> 0 <= rnd (a / b) <= 1.
  Proof.
    intros H Hb. split; [apply rnd_pos; [exact HR|]; apply Rmult_le_pos; [lra|left; now apply Rinv_0_lt_compat]|].
    rewrite <- rep_1. apply rnd_le; [exact HR|]. apply (Rmult_le_reg_r b); [assumption|]. unfold Rdiv. rewrite Rmult_assoc, Rinv_l by lra. lra.
  Qed.
  Lemma sigmoid_r_spec x : exists p, sigmoid_r rnd ex x = Some p /\ 0 <= p <= 1 /\ (0 <= x -> / 2 <= p) /\ (x <= 0 -> p <= / 2).
  Proof.
    unfold sigmoid_r. set (n := ex (fmin x 0)). set (e := ex (- Rabs x)). set (d := rnd (1 + e)).
    assert (He : 0 <= e <= 1) by (split; [apply ex_pos|apply ex_le1; pose proof (Rabs_pos x); lra]).
    assert (Hd : 1 <= d <= 2).
    { unfold d. split; [rewrite <- rep_1 at 1|replace 2 with (rnd (2 * 1)) by (rewrite (rep_double 1 rep_1); lra)]; apply rnd_le; auto; lra. }
    assert (Hn : 0 <= n <= 1).
    { split; [apply ex_pos|apply ex_le1]. unfold fmin, Rgeb. destruct (Rltb x 0) eqn:E; cbn [negb]; [apply Rltb_true in E; lra|lra]. }
    rewrite fdiv_some by lra. exists (rnd (n / d)). split; [reflexivity|]. split; [apply quotient_bounds; lra|]. split; intros Hx.
    - assert (n = 1) as ->.
      { unfold n, fmin, Rgeb. destruct (Rltb x 0) eqn:E; cbn [negb]; [apply Rltb_true in E; lra|apply HE]. }
      rewrite <- rep_half at 1. apply rnd_le; [exact HR|]. apply (Rmult_le_reg_r d); [lra|]. unfold Rdiv. rewrite Rmult_assoc, Rinv_l by lra. lra.
    - assert (Hne : n = e).
      { unfold n, e, fmin, Rgeb. destruct (Rltb x 0) eqn:E; cbn [negb].
        - f_equal. rewrite Rabs_left1 by lra. lra.
        - apply Rltb_false in E. assert (x = 0) as -> by lra. rewrite Rabs_R0. f_equal. lra. }
      assert (H2 : 2 * n <= d).
      { unfold d. rewrite <- (rep_double n (ex_rep _)). apply rnd_le; [exact HR|]. rewrite Hne. lra. }
      rewrite <- rep_half at 1. apply rnd_le; [exact HR|]. apply (Rmult_le_reg_r d); [lra|]. unfold Rdiv. rewrite Rmult_assoc, Rinv_l by lra. lra.
  Qed.

  Lemma add_up_pos s v : (forall i, 0 <= nth i v 0) -> 0 <= add_up rnd s v.
  Proof. intros H. induction s as [i|l IHl r IHr]; cbn; [apply H|]. apply rnd_pos; [exact HR|lra]. Qed.
  Lemma add_up_ge s v i : (forall i, 0 <= nth i v 0) -> rnd (nth i v 0) = nth i v 0 -> In i (entries_of s) -> nth i v 0 <= add_up rnd s v.
  Proof.
    intros H Hi. induction s as [j|l IHl r IHr]; cbn; [intros [-> |[]]; lra|]. intros Hin. apply in_app_iff in Hin.
    rewrite <- Hi at 1. apply rnd_le; [exact HR|].
    pose proof (add_up_pos l v H). pose proof (add_up_pos r v H). destruct Hin as [Hin|Hin]; [specialize (IHl Hin)|specialize (IHr Hin)]; lra.
  Qed.
  Lemma nth_map_pos (f : R -> R) r : (forall a, 0 <= f a) -> forall i, 0 <= nth i (map f r) 0.
  Proof. intros H i. revert i. induction r as [|a r IH]; intros [|i]; cbn; try lra; auto. Qed.
  (** Ratios of the exponentials of a row to their sum, relative to any [m] for which the sum is not zero. *)
  Lemma ratios s r m : Permutation (entries_of s) (seq 0 (length r)) -> (exists b, In b r /\ 0 < ex (rnd (b - m))) ->
    let e := map (fun b => ex (rnd (b - m))) r in
    exists p, map (fun b => fdiv rnd b (add_up rnd s e)) e = map Some p /\ length p = length r /\
      (forall a, In a p -> 0 <= a <= 1) /\
      (forall i j, (i < length r)%nat -> (j < length r)%nat -> nth i r 0 <= nth j r 0 -> nth i p 0 <= nth j p 0).
  Proof.
    intros HP (b0 & Hb0 & Hpos) e. set (S := add_up rnd s e).
    assert (Hnth : forall i, (i < length r)%nat -> nth i e 0 = ex (rnd (nth i r 0 - m))).
    { intros i Hi. unfold e. rewrite (nth_indep _ 0 (ex (rnd (0 - m)))) by now rewrite map_length. apply (map_nth (fun b => ex (rnd (b - m)))). }
    assert (Hge : forall i, (i < length r)%nat -> nth i e 0 <= S).
    { intros i Hi. apply add_up_ge; [apply nth_map_pos; intros; apply ex_pos|rewrite Hnth by assumption; apply ex_rep|].
      apply (Permutation_in _ (Permutation_sym HP)), in_seq. lia. }
    assert (HS : 0 < S).
    { destruct (In_nth r b0 0 Hb0) as (i & Hi & Ei). specialize (Hge i Hi). rewrite Hnth, Ei in Hge by assumption. lra. }
    exists (map (fun b => rnd (b / S)) e). split; [|split; [|split]].
    - rewrite map_map. apply map_ext. intros b. now apply fdiv_some.
    - unfold e. now rewrite !map_length.
    - intros a Ha. apply in_map_iff in Ha. destruct Ha as (b & <- & Hb). apply quotient_bounds; [|assumption].
      destruct (In_nth e b 0 Hb) as (i & Hi & Ei). unfold e in Hi. rewrite map_length in Hi. rewrite <- Ei. split; [|now apply Hge].
      rewrite Hnth by assumption. apply ex_pos.
    - intros i j Hi Hj Hij.
      assert (N : forall k, (k < length r)%nat -> nth k (map (fun b => rnd (b / S)) e) 0 = rnd (nth k e 0 / S)).
      { intros k Hk. rewrite (nth_indep _ 0 (rnd (0 / S))) by (unfold e; now rewrite !map_length). apply (map_nth (fun b => rnd (b / S))). }
      rewrite !N by assumption. apply rnd_le; [exact HR|]. apply Rmult_le_compat_r; [left; now apply Rinv_0_lt_compat|].
      rewrite !Hnth by assumption. apply HE, rnd_le; [exact HR|lra].
  Qed.
  Lemma softmax_row_spec s r : r <> [] -> Permutation (entries_of s) (seq 0 (length r)) ->
    exists p, softmax_row_r rnd ex s r = Ok (map Some p) /\ length p = length r /\ (forall a, In a p -> 0 <= a <= 1) /\
      (forall i j, (i < length r)%nat -> (j < length r)%nat -> nth i r 0 <= nth j r 0 -> nth i p 0 <= nth j p 0).
  Proof.
    intros Hne HP. destruct (max_coeff_spec Hne) as (m & Em & Hm & Hmax). unfold softmax_row_r. rewrite Em. cbn [bind].
    destruct (ratios s r m HP) as (p & Ep & H).
    { exists m. split; [assumption|]. replace (m - m) with 0 by lra. rewrite (rnd_0 rnd HR). replace (ex 0) with 1 by (symmetry; apply HE). lra. }
    exists p. rewrite Ep. auto.
  Qed.
End Activations.

(** * Splits *)
Lemma floor_rnd rnd n v : rounding rnd -> exact_integers rnd n -> 0 <= v <= IZR n ->
  (Int_part v <= Int_part (rnd v) <= Int_part v + 1)%Z /\ (0 <= Int_part (rnd v) <= n)%Z /\ 0 <= rnd v.
Proof.
  intros HR HI Hv.
  assert (Hn : (0 <= n)%Z) by (apply le_IZR; lra).
  assert (Hfl : forall u, IZR (Int_part u) <= u < IZR (Int_part u) + 1).
  { intros u. destruct (base_Int_part u). lra. }
  assert (Hge : forall k u, IZR k <= u -> (k <= Int_part u)%Z).
  { intros k u H. pose proof (Hfl u). assert (IZR k < IZR (Int_part u + 1)) by (rewrite plus_IZR; lra). apply lt_IZR in H1. lia. }
  assert (Hle : forall k u, u < IZR k + 1 -> (Int_part u <= k)%Z).
  { intros k u H. pose proof (Hfl u). assert (IZR (Int_part u) < IZR (k + 1)) by (rewrite plus_IZR; lra). apply lt_IZR in H1. lia. }
  assert (H0 : (0 <= Int_part v)%Z) by (apply Hge; lra).
  assert (Hvn : (Int_part v <= n)%Z) by (apply Hle; lra).
  assert (R0 : 0 <= rnd v) by (apply rnd_pos; [exact HR|lra]).
  assert (Rn : rnd v <= IZR n) by (rewrite <- (HI n) by lia; apply rnd_le; [exact HR|lra]).
  assert (Rl : IZR (Int_part v) <= rnd v) by (rewrite <- (HI (Int_part v)) by lia; apply rnd_le; [exact HR|apply Hfl]).
  assert (Ru : rnd v <= IZR (Int_part v + 1)).
  { destruct (Z.eq_dec (Int_part v) n) as [E|E].
    - rewrite E, plus_IZR. lra.
    - rewrite <- (HI (Int_part v + 1)%Z) by lia. apply rnd_le; [exact HR|]. rewrite plus_IZR. pose proof (Hfl v). lra. }
  split; [split; [apply Hge, Rl|apply Hle; rewrite plus_IZR in *; lra]|]. split; [split; [apply Hge, R0|apply Hle; lra]|exact R0].
Qed.
Lemma split_at {A B} (X : list A) (y : list B) sh k : length y = length X ->
  (forall p, sh = Some p -> Permutation p (seq 0 (length X))) -> (0 <= k <= Z.of_nat (length X))%Z ->
  exists Xtr Xte ytr yte,
    (let! (X', y') := match sh with Some p => shuffle_both p X y | None => Ok (X, y) end in
     let! a := top_rows X' k in let! b := bottom_rows X' (Z.of_nat (length X) - k) in
     let! c := top_rows y' k in let! d := bottom_rows y' (Z.of_nat (length X) - k) in Ok (a, b, c, d)) = Ok (Xtr, Xte, ytr, yte) /\
    Permutation (combine Xtr ytr ++ combine Xte yte) (combine X y) /\ Z.of_nat (length Xtr) = k /\
    length ytr = length Xtr /\ length yte = length Xte /\ (length Xtr + length Xte = length X)%nat /\
    (sh = None -> Xtr ++ Xte = X /\ ytr ++ yte = y).
Proof.
  intros Hy Hp Hk.
  assert (Hsh : exists X' y', match sh with Some p => shuffle_both p X y | None => Ok (X, y) end = Ok (X', y') /\
    length X' = length X /\ length y' = length X /\ Permutation (combine X' y') (combine X y) /\ (sh = None -> X' = X /\ y' = y)).
  { destruct sh as [p|].
    - destruct (shuffle_both_spec X y (Hp p eq_refl) Hy) as (X' & y' & E & H1 & H2 & H3 & _). exists X', y'. repeat split; auto; discriminate.
    - exists X, y. repeat split; auto. }
  destruct Hsh as (X' & y' & E & HX & Hy' & HP & Hn). rewrite E. cbn [bind]. unfold top_rows, bottom_rows. rewrite HX, Hy'.
  rewrite (proj2 (Z.leb_le 0 k)), (proj2 (Z.leb_le k _)) by lia.
  rewrite (proj2 (Z.leb_le 0 (Z.of_nat (length X) - k))), (proj2 (Z.leb_le (Z.of_nat (length X) - k) _)) by lia.
  cbn [andb bind]. replace (length X - Z.to_nat (Z.of_nat (length X) - k))%nat with (Z.to_nat k) by lia.
  do 4 eexists. split; [reflexivity|]. set (n := Z.to_nat k).
  split; [|split; [rewrite firstn_length; lia|split; [rewrite !firstn_length; lia|split; [rewrite !skipn_length; lia|split; [rewrite firstn_length, skipn_length; lia|]]]]].
  - rewrite <- HP. rewrite <- (firstn_skipn n X') at 3. rewrite <- (firstn_skipn n y') at 3.
    assert (G : forall (a1 a2 : list A) (b1 b2 : list B), length a1 = length b1 -> combine (a1 ++ a2) (b1 ++ b2) = combine a1 b1 ++ combine a2 b2).
    { induction a1 as [|u a1 IH]; intros a2 [|w b1] b2 HL; simpl in *; try lia; [reflexivity|]. now rewrite IH by lia. }
    rewrite G by (rewrite !firstn_length; lia). reflexivity.
  - intros Hs. destruct (Hn Hs) as (-> & ->). now rewrite !firstn_skipn.
Qed.
Lemma mid_between rnd a b : number_format rnd -> representable rnd a -> representable rnd b -> a <= b -> a <= mid_r rnd a b <= b.
Proof.
  intros HF Ha Hb Hab. pose proof (proj1 HF) as HR. unfold mid_r.
  assert (H1 : 2 * a <= rnd (a + b)) by (rewrite <- (rep_double rnd HF a Ha); apply rnd_le; [exact HR|lra]).
  assert (H2 : rnd (a + b) <= 2 * b) by (rewrite <- (rep_double rnd HF b Hb); apply rnd_le; [exact HR|lra]).
  split; [rewrite <- Ha at 1|rewrite <- Hb at 2]; apply rnd_le; auto; lra.
Qed.

(** * Sums *)
Section Sums.
  Variable rnd : R -> R.
  Hypothesis HF : number_format rnd.
  Let HR : rounding rnd := proj1 HF.
  Let Hidem : forall a, rnd (rnd a) = rnd a := proj1 (proj2 HF).
  Lemma running a l : rnd a = a -> (forall b, In b l -> 0 <= b) ->
    forall k, (k < length l)%nat -> exists p c, nth_error (a :: cumsum_from_r rnd a l) k = Some p /\ nth_error (cumsum_from_r rnd a l) k = Some c /\
      p <= c /\ rnd p = p /\ rnd c = c /\ (nth k l 0 = 0 -> c = p).
  Proof.
    revert a. induction l as [|b l IH]; intros a Ha H k Hk; [simpl in Hk; lia|]. cbn [cumsum_from_r].
    assert (H1 : a <= rnd (a + b)).
    { rewrite <- Ha at 1. apply rnd_le; [exact HR|]. specialize (H b (or_introl eq_refl)). lra. }
    destruct k as [|k].
    - exists a, (rnd (a + b)). cbn. repeat split; auto. intros ->. rewrite Rplus_0_r. exact Ha.
    - destruct (IH (rnd (a + b)) (Hidem _) (fun c Hc => H c (or_intror Hc)) k ltac:(simpl in Hk; lia)) as (p & c & H2 & H3 & H4).
      exists p, c. cbn. auto.
  Qed.
  Lemma cumsum_r_length l : length (cumsum_r rnd l) = length l.
  Proof.
    destruct l as [|a l]; [reflexivity|]. cbn. f_equal. revert a. induction l as [|b l IH]; intros a; cbn; [reflexivity|]. now rewrite IH.
  Qed.
  Lemma cumsum_r_step l k : (forall b, In b l -> 0 <= b /\ rnd b = b) -> (S k < length l)%nat ->
    exists p c, nth_error (cumsum_r rnd l) k = Some p /\ nth_error (cumsum_r rnd l) (S k) = Some c /\ p <= c /\ (nth (S k) l 0 = 0 -> c = p).
  Proof.
    intros H Hk. destruct l as [|a l]; [simpl in Hk; lia|]. cbn [cumsum_r].
    destruct (running a l (proj2 (H a (or_introl eq_refl))) (fun b Hb => proj1 (H b (or_intror Hb))) k ltac:(simpl in Hk; lia)) as (p & c & H1 & H2 & H3 & _ & _ & H4).
    exists p, c. cbn [nth_error nth]. auto.
  Qed.
  Lemma cumsum_r_mono l : (forall b, In b l -> 0 <= b /\ rnd b = b) ->
    forall i j a b, (i <= j)%nat -> nth_error (cumsum_r rnd l) i = Some a -> nth_error (cumsum_r rnd l) j = Some b -> a <= b.
  Proof.
    intros H i j a b Hij. revert b. induction Hij as [|j Hij IH]; intros b Ha Hb; [rewrite Ha in Hb; injection Hb; lra|].
    assert (HL : (S j < length l)%nat) by (rewrite <- cumsum_r_length; apply nth_error_Some; congruence).
    destruct (cumsum_r_step l j H HL) as (p & c & H1 & H2 & H3 & _). rewrite H2 in Hb. injection Hb as <-. specialize (IH p Ha H1). lra.
  Qed.
  Lemma candidate_r l draw pot : l <> [] -> (forall b, In b l -> 0 <= b /\ rnd b = b) -> 0 <= draw <= 1 ->
    nth_error (cumsum_r rnd l) (length l - 1) = Some pot -> 0 < rnd (draw * pot) ->
    exists k d, candidate_index_r rnd l pot draw = Ok k /\ nth_error l k = Some d /\ 0 < d.
  Proof.
    intros Hne H Hd Hpot Hv.
    assert (HL0 : (0 < length l)%nat) by (destruct l; [congruence|simpl; lia]).
    destruct (lower_bound_spec (cumsum_r rnd l) (rnd (draw * pot)) (cumsum_r_mono l H)) as (k & Ek & Hk & Hlo & Hhi).
    assert (Hrep : forall j c, nth_error (cumsum_r rnd l) j = Some c -> 0 <= c /\ rnd c = c).
    { destruct l as [|a l]; [congruence|]. destruct (H a (or_introl eq_refl)) as (Ha & Hra). intros j c Hj.
      destruct j as [|j]; [injection Hj as <-; auto|].
      assert (Hjl : (S j < length (a :: l))%nat) by (rewrite <- cumsum_r_length; apply nth_error_Some; congruence).
      split; [apply Rle_trans with a; [assumption|]; eapply (cumsum_r_mono (a :: l) H 0 (S j)); [lia|reflexivity|exact Hj]|].
      destruct (running a l Hra (fun b Hb => proj1 (H b (or_intror Hb))) j ltac:(simpl in Hjl; lia)) as (p & c' & _ & H2 & _ & _ & H4 & _).
      cbn [cumsum_r nth_error] in Hj. congruence. }
    destruct (Hrep _ _ Hpot) as (Hp0 & Hprep).
    assert (Hvp : rnd (draw * pot) <= pot).
    { rewrite <- Hprep at 2. apply rnd_le; [exact HR|]. rewrite <- (Rmult_1_l pot) at 2. apply Rmult_le_compat_r; lra. }
    assert (Hkl : (k < length l)%nat).
    { destruct (le_lt_dec (length l) k) as [G|G]; [|assumption]. specialize (Hlo (length l - 1)%nat pot ltac:(lia) Hpot). lra. }
    unfold candidate_index_r. rewrite Ek. cbn [bind]. rewrite (proj2 (Nat.ltb_ge _ _)) by lia.
    exists k, (nth k l 0). split; [reflexivity|]. split; [now apply nth_error_nth'|].
    destruct (H (nth k l 0) (nth_In l 0 Hkl)) as (Hd0 & _). destruct (Rle_lt_or_eq_dec _ _ Hd0) as [|E0]; [assumption|exfalso].
    destruct k as [|k].
    - destruct l as [|a l]; [congruence|]. specialize (Hhi 0%nat a (le_n _) eq_refl). simpl in E0. lra.
    - destruct (cumsum_r_step l k H Hkl) as (p & c & H1 & H2 & H3 & H4). specialize (Hlo k p ltac:(lia) H1). specialize (Hhi (S k) c (le_n _) H2).
      rewrite (H4 (eq_sym E0)) in Hhi. lra.
  Qed.

  Lemma truncate1_r_spec m w : rnd w = w -> rnd m = m -> 0 <= m ->
    let w' := truncate1_r rnd m w in Rabs w' <= Rabs w /\ 0 <= w * w' /\ (Rabs w <= m -> w' = 0) /\ (m = 0 -> w' = w).
  Proof.
    intros Hw Hm H0. cbv zeta. unfold truncate1_r. rewrite Rplus_0_r, Rminus_0_r, Hm.
    destruct (Rltb 0 w) eqn:E1; [apply Rltb_true in E1|apply Rltb_false in E1; destruct (Rltb w 0) eqn:E2; [apply Rltb_true in E2|apply Rltb_false in E2]].
    - assert (Hle : rnd (w - m) <= w) by (rewrite <- Hw at 2; apply rnd_le; [exact HR|lra]).
      assert (HM : 0 <= Rmax 0 (rnd (w - m)) <= w) by (unfold Rmax; destruct (Rle_dec 0 (rnd (w - m))); lra).
      rewrite !Rabs_right by lra. split; [lra|]. split; [apply Rmult_le_pos; lra|]. split.
      + intros Hwm. apply Rmax_left. apply rnd_neg; [exact HR|lra].
      + intros ->. rewrite Rminus_0_r, Hw. apply Rmax_right. lra.
    - assert (Hle : w <= rnd (w + m)) by (rewrite <- Hw at 1; apply rnd_le; [exact HR|lra]).
      assert (HM : w <= Rmin 0 (rnd (w + m)) <= 0) by (unfold Rmin; destruct (Rle_dec 0 (rnd (w + m))); lra).
      rewrite !Rabs_left1 by lra. split; [lra|]. split; [rewrite <- (Rmult_opp_opp w); apply Rmult_le_pos; lra|]. split.
      + intros Hwm. apply Rmin_left. apply rnd_pos; [exact HR|lra].
      + intros ->. rewrite Rplus_0_r, Hw. apply Rmin_right. lra.
    - assert (w = 0) as -> by lra. rewrite Rabs_R0. repeat split; lra.
  Qed.
End Sums.

(** * Distances *)
Section Distances.
  Variable rnd : R -> R.
  Hypothesis HR : rounding rnd.
  Lemma computed_norm_abs s m u v : length u = length v -> (forall j a b, nth_error u j = Some a -> nth_error v j = Some b -> Rabs a = Rabs b) ->
    computed_norm rnd s m u = computed_norm rnd s m v.
  Proof.
    intros HL H. assert (E : map Rabs u = map Rabs v).
    { revert v HL H. induction u as [|a u IH]; intros [|b v] HL H; simpl in *; try lia; [reflexivity|]. f_equal; [apply (H 0%nat); reflexivity|].
      apply IH; [lia|]. intros j. apply (H (S j)). }
    assert (E2 : map (fun x => rnd (x * x)) u = map (fun x => rnd (x * x)) v).
    { assert (G : forall w, map (fun x => rnd (x * x)) w = map (fun x => rnd (x * x)) (map Rabs w)).
      { intros w. rewrite map_map. apply map_ext. intros x. f_equal. pose proof (Rsqr_abs x) as Q. unfold Rsqr in Q. exact Q. }
      rewrite (G u), (G v), E. reflexivity. }
    destruct m; cbn [computed_norm]; now rewrite ?E, ?E2.
  Qed.
  Lemma dist_sym s m x y : length x = length y -> computed_dist rnd s m x y = computed_dist rnd s m y x.
  Proof.
    intros HL. apply computed_norm_abs; [rewrite !map_length, !combine_length; lia|].
    revert y HL. induction x as [|a x IH]; intros [|b y] HL [|j] u v; simpl in *; try lia; try discriminate.
    - intros [= <-] [= <-]. rewrite !(rnd_abs rnd HR). f_equal. apply Rabs_minus_sym.
    - apply IH. lia.
  Qed.
  Lemma norm_pos s m v : 0 <= computed_norm rnd s m v.
  Proof.
    assert (G : forall v, (forall i, 0 <= nth i v 0) -> 0 <= add_up rnd s v).
    { intros w H. induction s as [i|l IHl r IHr]; cbn; [apply H|]. apply rnd_pos; [exact HR|lra]. }
    destruct m; cbn [computed_norm].
    - apply G, nth_map_pos. intros. apply Rabs_pos.
    - apply rnd_pos; [exact HR|apply sqrt_pos].
    - induction v; cbn; [lra|]. eapply Rle_trans; [exact IHv|apply Rmax_r].
  Qed.
  Lemma dist_self s m x : computed_dist rnd s m x x = 0.
  Proof.
    assert (E : map (fun p => rnd (fst p - snd p)) (combine x x) = map (fun _ => 0) x).
    { induction x as [|a x IH]; cbn; [reflexivity|]. rewrite IH. f_equal. rewrite Rminus_diag_eq by reflexivity. now apply rnd_0. }
    unfold computed_dist. rewrite E.
    assert (G : forall w, (forall i, nth i w 0 = 0) -> add_up rnd s w = 0).
    { intros w H. induction s as [i|l IHl r IHr]; cbn; [apply H|]. rewrite IHl, IHr, Rplus_0_r. now apply rnd_0. }
    assert (Z : forall f : R -> R, f 0 = 0 -> forall i, nth i (map f (map (fun _ => 0) x)) 0 = 0).
    { intros f Hf. clear -Hf. induction x as [|a x IH]; intros [|i]; cbn; auto. }
    destruct m; cbn [computed_norm].
    - apply G, Z. apply Rabs_R0.
    - rewrite G by (apply Z; rewrite Rmult_0_l; now apply rnd_0). rewrite sqrt_0. now apply rnd_0.
    - clear. induction x as [|a x IH]; cbn; [reflexivity|]. cbn in IH. rewrite IH, Rabs_R0. apply Rmax_left. lra.
  Qed.
End Distances.
