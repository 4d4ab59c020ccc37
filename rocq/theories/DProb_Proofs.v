(** Proofs behind [Properties_DProb]. *)
From Coq Require Import Reals Lra Lia.
From Flocq Require Import Core BinarySingleNaN.
From Verif Require Import Base Vec Round_Spec Double_Spec Double_Model Double_Proofs Bounded_Spec Bounded_Proofs DProb_Spec DProb_Model.
Local Open Scope R_scope.

(** * Rounding *)
Lemma b64_mono x y : x <= y -> binary64 x <= binary64 y.
Proof. intros H. unfold binary64. apply round_le; [apply FLT_exp_valid; reflexivity|apply valid_rnd_N|exact H]. Qed.
Lemma b64_val (a : double) : binary64 (B2R a) = B2R a.
Proof. unfold binary64. apply round_generic; [apply valid_rnd_N|]. exact (generic_format_B2R 53 1024 a). Qed.
Lemma b64_F m e : (Z.abs m < 2 ^ 53)%Z -> (-1074 <= e)%Z -> binary64 (IZR m * bpow radix2 e) = IZR m * bpow radix2 e.
Proof.
  intros Hm He. unfold binary64. apply round_generic; [apply valid_rnd_N|]. apply generic_format_FLT. apply FLT_spec with (Float radix2 m e); [reflexivity|exact Hm|exact He].
Qed.
Lemma b64_1 : binary64 1 = 1. Proof. replace 1 with (IZR 1 * bpow radix2 0) by (cbn; lra). now apply b64_F. Qed.
Lemma b64_0 : binary64 0 = 0. Proof. replace 0 with (IZR 0 * bpow radix2 0) by (cbn; lra). now apply b64_F. Qed.
Lemma one_val : finite (dbl 1 0) /\ B2R (dbl 1 0) = 1.
Proof. destruct (dbl_exact 1 0) as (F & E); [lia|lia|]. split; [exact F|]. rewrite E. cbn. lra. Qed.
Lemma near_of a c : finite a -> Rabs (B2R a) <= IZR c -> near c 0 a (B2R a).
Proof. intros F H. split; [exact F|]. split; [reflexivity|]. cbn [bpow]. lra. Qed.
Lemma ddiv_near c e a b x y : (0 <= c < 2 ^ 53)%Z -> (-1074 <= e <= 971)%Z -> near c e a x -> finite b -> B2R b = y -> 1 <= y -> near c e (ddiv a b) (binary64 (x / y)).
Proof.
  intros Hc He (Fa & Ea & Ha) Fb Eb Hy. assert (H : Rabs (x / y) <= IZR c * bpow radix2 e).
  { unfold Rdiv. rewrite Rabs_mult. rewrite (Rabs_pos_eq (/ y)) by (left; apply Rinv_0_lt_compat; lra). assert (/ y <= 1) by (rewrite <- Rinv_1; apply Rinv_le; lra).
    eapply Rle_trans; [|exact Ha]. rewrite <- (Rmult_1_r (Rabs x)) at 2. apply Rmult_le_compat_l; [apply Rabs_pos|assumption]. }
  pose proof (Bdiv_correct 53 1024 prec_pos prec_small mode_NE a b) as G. rewrite Ea, Eb in G. specialize (G ltac:(lra)). pose proof (no_overflow _ _ _ Hc He H) as N. unfold binary64 in N.
  change (SpecFloat.fexp 53 1024) with (FLT_exp (-1074) 53) in G. change (round_mode mode_NE) with ZnearestE in G. rewrite N in G. destruct G as (G1 & G2 & _).
  split; [|split; [exact G1|apply b64_le; [exact Hc|tauto|exact H]]]. unfold finite, ddiv. rewrite G2. exact Fa.
Qed.
Lemma finite_number a : finite a -> is_number a.
Proof. destruct a; intros H; try discriminate; reflexivity. Qed.
Lemma finite_val a : finite a -> val a = B2R a.
Proof. destruct a; intros H; try discriminate; reflexivity. Qed.
Lemma dle_zero x : is_number x -> val x <= 0 -> dle x zero = true.
Proof. intros N H. rewrite dle_dlt; [|exact N|reflexivity]. rewrite dlt_val; [|reflexivity|exact N]. apply negb_true_iff, Rlt_bool_niff. cbn [val zero B2R]. exact H. Qed.

(** The difference from something larger is a number and not positive. *)
Lemma dsub_below b c : finite c -> (finite b /\ B2R b <= B2R c) \/ b = minus_inf -> is_number (dsub b c) /\ dle (dsub b c) zero = true.
Proof.
  intros Fc [(Fb & H)| ->]; [|destruct c as [s|s| |s m e B]; try discriminate; split; try reflexivity].
  assert (N : is_number (dsub b c)) by (apply dsub_number; [exact Fb|now apply finite_number]). split; [exact N|]. apply dle_zero; [exact N|].
  pose proof (Bminus_correct 53 1024 prec_pos prec_small mode_NE b c Fb Fc) as G. change (SpecFloat.fexp 53 1024) with (FLT_exp (-1074) 53) in G. change (round_mode mode_NE) with ZnearestE in G.
  change (round radix2 (FLT_exp (-1074) 53) ZnearestE (B2R b - B2R c)) with (binary64 (B2R b - B2R c)) in G. fold (dsub b c) in G.
  destruct (Rlt_bool_spec (Rabs (binary64 (B2R b - B2R c))) (bpow radix2 1024)) as [L|L].
  - destruct G as (G1 & G2 & _). rewrite finite_val by exact G2. rewrite G1, <- b64_0. apply b64_mono. lra.
  - destruct G as (G1 & G2). rewrite overflow_NE in G1.
    assert (Sb : Bsign b = true).
    { destruct (Bsign b) eqn:S; [reflexivity|exfalso]. assert (Sc : Bsign c = true) by (destruct (Bsign c); [reflexivity|discriminate]).
      assert (0 <= B2R b) by (destruct b as [s|s| |s m e B]; cbn in S; subst; try discriminate; cbn [B2R]; [lra|now apply F2R_ge_0]).
      assert (B2R c <= 0) by (destruct c as [s|s| |s m e B]; cbn in Sc; subst; try discriminate; cbn [B2R]; [lra|now apply F2R_le_0]).
      replace (B2R b - B2R c) with 0 in L by lra. rewrite b64_0, Rabs_R0 in L. pose proof (bpow_gt_0 radix2 1024). lra. }
    rewrite Sb in G1. destruct (dsub b c) as [s|s| |s m e B]; try discriminate. cbn in G1. injection G1 as ->. cbn [val]. pose proof (bpow_gt_0 radix2 1024). lra.
Qed.
Lemma dsub_same b c : finite b -> finite c -> B2R b = B2R c -> finite (dsub b c) /\ B2R (dsub b c) = 0.
Proof.
  intros Fb Fc H. pose proof (Bminus_correct 53 1024 prec_pos prec_small mode_NE b c Fb Fc) as G. change (SpecFloat.fexp 53 1024) with (FLT_exp (-1074) 53) in G. change (round_mode mode_NE) with ZnearestE in G.
  change (round radix2 (FLT_exp (-1074) 53) ZnearestE (B2R b - B2R c)) with (binary64 (B2R b - B2R c)) in G. fold (dsub b c) in G.
  replace (B2R b - B2R c) with 0 in G by lra. rewrite b64_0, Rabs_R0, Rlt_bool_true in G by apply bpow_gt_0. tauto.
Qed.

(** * The largest entry *)
Definition lp (a : double) : Prop := finite a \/ a = minus_inf.
Lemma lp_number a : lp a -> is_number a. Proof. intros [H| ->]; [now apply finite_number|reflexivity]. Qed.
Lemma max_fold v : forall m, lp m -> Forall lp v ->
  let r := fold_left (fun m b => if dlt m b then b else m) v m in lp r /\ In r (m :: v) /\ forall b, In b (m :: v) -> val b <= val r.
Proof.
  induction v as [|a v IH]; intros m Hm Hv; cbn [fold_left].
  - split; [exact Hm|]. split; [now left|]. intros b [->|[]]. lra.
  - inversion Hv as [|? ? Ha Hv']; subst. assert (Hx : lp (if dlt m a then a else m)) by (destruct (dlt m a); assumption). destruct (IH _ Hx Hv') as (H1 & H2 & H3).
    split; [exact H1|]. assert (Hc : val m <= val (if dlt m a then a else m) /\ val a <= val (if dlt m a then a else m)).
    { destruct (dlt m a) eqn:D; rewrite dlt_val in D by (now apply lp_number); [apply Rlt_bool_iff in D|apply Rlt_bool_niff in D]; lra. }
    split.
    + destruct H2 as [H2|H2]; [|now right; right]. rewrite <- H2. destruct (dlt m a); [right; now left|now left].
    + pose proof (H3 _ (or_introl eq_refl)) as H4. intros b [->|[->|Hb]]; [lra|lra|apply H3; now right].
Qed.
Lemma dmax_coeff_ok v : log_probs v -> exists c, dmax_coeff v = Ok c /\ In c v /\ finite c /\ forall b, In b v -> (finite b /\ B2R b <= B2R c) \/ b = minus_inf.
Proof.
  intros (Hv & a & Ha & Fa). destruct v as [|a0 v]; [easy|]. cbn [dmax_coeff]. inversion Hv as [|? ? Ha0 Hv']; subst. destruct (max_fold v a0 Ha0 Hv') as (H1 & H2 & H3).
  eexists. split; [reflexivity|]. split; [exact H2|]. set (c := fold_left _ _ _) in *.
  assert (Fc : finite c).
  { destruct H1 as [H1|H1]; [exact H1|exfalso]. specialize (H3 a Ha). rewrite H1 in H3. pose proof (val_bound a Fa). cbn in H3. cbn in H. lra. }
  split; [exact Fc|]. intros b Hb. rewrite Forall_forall in Hv. destruct (Hv b Hb) as [Fb| ->]; [left|now right]. split; [exact Fb|]. specialize (H3 b Hb). now rewrite !finite_val in H3.
Qed.

(** * Sums of numbers in [0, 1] *)
Lemma dadd_up_unit v : Forall in_unit v -> forall s, (Z.of_nat (length (entries_of s)) < 2 ^ 53)%Z ->
  finite (dadd_up s v) /\ 0 <= B2R (dadd_up s v) <= INR (length (entries_of s)) /\ forall i, In i (entries_of s) -> B2R (nth i v zero) <= B2R (dadd_up s v).
Proof.
  intros Hv. induction s as [i|l IHl r IHr]; intros Hs.
  - cbn [dadd_up entries_of length]. assert (U : in_unit (nth i v zero)).
    { destruct (nth_in_or_default i v zero) as [Hi| ->]; [rewrite Forall_forall in Hv; now apply Hv|split; [reflexivity|cbn; lra]]. }
    destruct U as (F & U). unfold value in U. split; [exact F|]. split; [cbn; lra|]. intros j [<-|[]]. lra.
  - cbn [dadd_up entries_of] in *. rewrite app_length in *. rewrite Nat2Z.inj_add in Hs. destruct (IHl ltac:(lia)) as (Fl & Bl & Cl). destruct (IHr ltac:(lia)) as (Fr & Br & Cr).
    rewrite !INR_IZR_INZ in *. set (a := dadd_up l v) in *. set (b := dadd_up r v) in *.
    assert (Na : near (Z.of_nat (length (entries_of l))) 0 a (B2R a)) by (apply near_of; [exact Fl|rewrite Rabs_pos_eq; lra]).
    assert (Nb : near (Z.of_nat (length (entries_of r))) 0 b (B2R b)) by (apply near_of; [exact Fr|rewrite Rabs_pos_eq; lra]).
    destruct (dadd_near _ _ 0 _ _ _ _ (Zle_0_nat _) (Zle_0_nat _) Hs ltac:(lia) Na Nb) as (F & E & B). split; [exact F|]. rewrite E. cbn [bpow] in B. rewrite Rmult_1_r in B.
    assert (B2R a <= binary64 (B2R a + B2R b)) by (rewrite <- (b64_val a) at 1; apply b64_mono; lra).
    assert (B2R b <= binary64 (B2R a + B2R b)) by (rewrite <- (b64_val b) at 1; apply b64_mono; lra).
    rewrite Rabs_pos_eq in B by lra. rewrite Nat2Z.inj_add. split; [lra|]. intros i Hi. apply in_app_or in Hi. destruct Hi as [Hi|Hi]; [specialize (Cl i Hi)|specialize (Cr i Hi)]; lra.
Qed.
Lemma dsum_unit ord v a : fair ord -> Forall in_unit v -> (Z.of_nat (length v) < 2 ^ 53)%Z -> In a v -> finite (dsum ord v) /\ B2R a <= B2R (dsum ord v) <= INR (length v).
Proof.
  intros HF Hv Hl Ha. unfold dsum. destruct v as [|a0 v0]; [easy|]. set (u := a0 :: v0) in *. assert (P : Permutation (entries_of (ord (length u))) (seq 0 (length u))) by (apply HF; subst u; cbn; lia).
  pose proof (Permutation_length P) as E. rewrite seq_length in E. destruct (dadd_up_unit u Hv (ord (length u))) as (F & B & C); [now rewrite E|]. rewrite E in B. split; [exact F|]. split; [|lra].
  destruct (In_nth u a zero Ha) as (i & Hi & <-). apply C. eapply Permutation_in; [symmetry; exact P|]. apply in_seq. lia.
Qed.

Lemma format_dmax : generic_format radix2 (FLT_exp (-1074) 53) (IZR (2 ^ 53 - 1) * bpow radix2 971).
Proof. apply generic_format_FLT. apply FLT_spec with (Float radix2 (2 ^ 53 - 1) 971); [reflexivity|reflexivity|cbn; lia]. Qed.
Lemma largest_double (a : double) : Rabs (B2R a) <= IZR (2 ^ 53 - 1) * bpow radix2 971.
Proof.
  destruct a as [s|s| |s m e B]; cbn [B2R]; try (rewrite Rabs_R0; apply Rmult_le_pos; [apply IZR_le; lia|apply bpow_ge_0]).
  pose proof (bounded_le_emax_minus_prec 53 1024 prec_pos m e B) as H. rewrite <- F2R_Zabs, abs_cond_Zopp. cbn [Z.abs]. eapply Rle_trans; [exact H|]. cbn [Z.sub]. 
  change (1024 - 53)%Z with 971%Z. change (1024)%Z with (53 + 971)%Z. rewrite bpow_plus. change (bpow radix2 53) with (IZR (2 ^ 53)). rewrite minus_IZR. lra.
Qed.
Lemma succ_gap (c : R) k : (-1074 <= k)%Z -> generic_format radix2 (FLT_exp (-1074) 53) c -> bpow radix2 (k + 53) <= Rabs c -> c + bpow radix2 k <= succ radix2 (FLT_exp (-1074) 53) c.
Proof.
  intros Hk Fc H.
  assert (V : Valid_exp (FLT_exp (-1074) 53)) by (apply FLT_exp_valid; reflexivity).
  assert (M : Monotone_exp (FLT_exp (-1074) 53)) by apply FLT_exp_monotone.
  assert (U : forall j, (-1074 <= j)%Z -> ulp radix2 (FLT_exp (-1074) 53) (bpow radix2 (j + 52)) = bpow radix2 j).
  { intros j Hj. rewrite ulp_bpow. f_equal. unfold FLT_exp. lia. }
  destruct (Rle_or_lt 0 c) as [P|P].
  - rewrite succ_eq_pos by exact P. apply Rplus_le_compat_l. rewrite <- (U k Hk). apply ulp_le; try assumption. rewrite Rabs_pos_eq by apply bpow_ge_0.
    eapply Rle_trans; [|exact H]. apply bpow_le. lia.
  - assert (E : succ radix2 (FLT_exp (-1074) 53) c = - pred radix2 (FLT_exp (-1074) 53) (- c)) by (rewrite <- (Ropp_involutive c) at 1; apply succ_opp).
    rewrite E. rewrite Rabs_left in H by exact P. assert (F' : generic_format radix2 (FLT_exp (-1074) 53) (- c)) by (now apply generic_format_opp).
    assert (G : bpow radix2 (k + 52) <= pred radix2 (FLT_exp (-1074) 53) (- c)).
    { apply pred_ge_gt; try assumption; [apply generic_format_FLT_bpow; [reflexivity|lia]|]. eapply Rlt_le_trans; [|exact H]. apply bpow_lt. lia. }
    pose proof (pred_plus_ulp radix2 (FLT_exp (-1074) 53) (- c) ltac:(lra) F') as Q.
    assert (bpow radix2 k <= ulp radix2 (FLT_exp (-1074) 53) (pred radix2 (FLT_exp (-1074) 53) (- c))).
    { rewrite <- (U k Hk). apply ulp_le; try assumption. rewrite !Rabs_pos_eq; [exact G| |apply bpow_ge_0]. eapply Rle_trans; [apply bpow_ge_0|exact G]. }
    lra.
Qed.
(** Adding something small and not negative to any double does not overflow. *)
Lemma dadd_small l c : finite l -> finite c -> 0 <= B2R l <= 2048 -> finite (dadd l c) /\ B2R (dadd l c) = binary64 (B2R l + B2R c) /\ B2R c <= B2R (dadd l c).
Proof.
  intros Fl Fc Hl. pose proof (Bplus_correct 53 1024 prec_pos prec_small mode_NE l c Fl Fc) as G. change (SpecFloat.fexp 53 1024) with (FLT_exp (-1074) 53) in G. change (round_mode mode_NE) with ZnearestE in G.
  change (round radix2 (FLT_exp (-1074) 53) ZnearestE (B2R l + B2R c)) with (binary64 (B2R l + B2R c)) in G. fold (dadd l c) in G.
  assert (L : B2R c <= binary64 (B2R l + B2R c)) by (rewrite <- (b64_val c) at 1; apply b64_mono; lra).
  set (M := IZR (2 ^ 53 - 1) * bpow radix2 971) in *. pose proof (largest_double c) as HM. fold M in HM. apply Rabs_le_inv in HM.
  assert (U : binary64 (B2R l + B2R c) <= M).
  { unfold binary64. apply round_N_le_midp; [apply FLT_exp_valid; reflexivity|exact format_dmax|]. fold M.
    assert (S : M + bpow radix2 970 <= succ radix2 (FLT_exp (-1074) 53) M).
    { apply succ_gap; [lia|exact format_dmax|]. unfold M. rewrite Rabs_pos_eq by (apply Rmult_le_pos; [apply IZR_le; lia|apply bpow_ge_0]). change (970 + 53)%Z with (52 + 971)%Z. rewrite bpow_plus. apply Rmult_le_compat_r; [apply bpow_ge_0|]. change (bpow radix2 52) with (IZR (2 ^ 52)). apply IZR_le. lia. }
    assert (bpow radix2 13 <= bpow radix2 970) by (apply bpow_le; lia). change (bpow radix2 13) with 8192 in H. lra. }
  assert (MB : M < bpow radix2 1024).
  { unfold M. change 1024%Z with (53 + 971)%Z. rewrite bpow_plus. apply Rmult_lt_compat_r; [apply bpow_gt_0|]. change (bpow radix2 53) with (IZR (2 ^ 53)). apply IZR_lt. lia. }
  rewrite Rlt_bool_true in G by (apply Rabs_def1; lra). destruct G as (G1 & G2 & _). rewrite G1. auto.
Qed.
Lemma absorbed l (c : double) : 0 <= l <= 2048 -> bpow radix2 66 <= Rabs (B2R c) -> binary64 (l + B2R c) = B2R c.
Proof.
  intros Hl Hc. apply Rle_antisym.
  - unfold binary64. apply round_N_le_midp; [apply FLT_exp_valid; reflexivity|exact (generic_format_B2R 53 1024 c)|].
    pose proof (succ_gap (B2R c) 13 ltac:(lia) (generic_format_B2R 53 1024 c) Hc) as S. change (bpow radix2 13) with 8192 in S. 
    change (SpecFloat.fexp 53 1024) with (FLT_exp (-1074) 53) in S. lra.
  - rewrite <- (b64_val c) at 1. apply b64_mono. lra.
Qed.

Section Oracles.
  Variable ord : nat -> order.
  Variables dexp dlog : double -> double.
  Hypothesis HF : fair ord.
  Hypothesis HE : good_exp dexp.
  Hypothesis HL : good_log dlog.

  (** What [dlse] and [dsoftmax1] have in common. *)
  Lemma shifted v : log_probs v -> (Z.of_nat (length v) < 2 ^ 53)%Z -> exists c, dmax_coeff v = Ok c /\ In c v /\ finite c /\
    (forall b, In b v -> (finite b /\ B2R b <= B2R c) \/ b = minus_inf) /\
    let e := map (fun b => dexp (dsub b c)) v in Forall in_unit e /\ finite (dsum ord e) /\ 1 <= B2R (dsum ord e).
  Proof.
    intros Hv Hl. destruct (dmax_coeff_ok v Hv) as (c & E & Hc & Fc & H). exists c. split; [exact E|]. split; [exact Hc|]. split; [exact Fc|]. split; [exact H|]. cbn zeta.
    destruct HE as (E1 & E2 & _). assert (U : Forall in_unit (map (fun b => dexp (dsub b c)) v)).
    { apply Forall_map, Forall_forall. intros b Hb. destruct (dsub_below b c Fc (H b Hb)). now apply E1. }
    split; [exact U|]. destruct (dsum_unit ord (map (fun b => dexp (dsub b c)) v) (dexp (dsub c c)) HF U) as (F & B & _).
    - now rewrite map_length.
    - apply (in_map (fun b => dexp (dsub b c))). exact Hc.
    - split; [exact F|]. destruct (dsub_same c c Fc Fc eq_refl) as (Fs & Es). pose proof (E2 _ Fs Es) as V. unfold value in V. lra.
  Qed.
  Lemma dlse_ok v : log_probs v -> (Z.of_nat (length v) < 2 ^ 53)%Z -> exists c l, In c v /\ finite c /\ (forall b, In b v -> (finite b /\ B2R b <= B2R c) \/ b = minus_inf) /\
    dlse ord dexp dlog v = Ok (dadd l c) /\ finite l /\ 0 <= B2R l <= 2048.
  Proof.
    intros Hv Hl. destruct (shifted v Hv Hl) as (c & E & Hc & Fc & H & U & Fs & Bs). destruct HL as (L1 & L2 & _).
    exists c. eexists. split; [exact Hc|]. split; [exact Fc|]. split; [exact H|]. unfold dlse. rewrite E. cbn [bind]. split; [reflexivity|].
    destruct (L1 _ Fs ltac:(unfold value; lra)) as (FL & BL). pose proof (L2 _ Fs Bs) as PL. split; [exact FL|]. unfold value in *. rewrite Rabs_pos_eq in BL by lra. lra.
  Qed.
  Lemma dlse_prob v : log_probs v -> (Z.of_nat (length v) < 2 ^ 53)%Z -> exists s, dlse ord dexp dlog v = Ok s /\ finite s /\
    (forall b, In b v -> in_unit (dexp (dsub b s))) /\ (forall m, largest v m -> m <= value s <= binary64 (m + 2048)).
  Proof.
    intros Hv Hl. destruct (dlse_ok v Hv Hl) as (c & l & Hc & Fc & H & E & Fl & Bl). destruct (dadd_small l c Fl Fc Bl) as (Fs & Es & Ls).
    exists (dadd l c). split; [exact E|]. split; [exact Fs|]. split.
    - intros b Hb. destruct HE as (E1 & _). destruct (dsub_below b (dadd l c) Fs) as (N & D).
      + destruct (H b Hb) as [(Fb & B)|B]; [left; split; [exact Fb|lra]|now right].
      + now apply E1.
    - intros m ((a & Ha & Fa & Va) & M). specialize (M c Hc Fc). unfold value in *. assert (m = B2R c).
      { apply Rle_antisym; [|exact M]. destruct (H a Ha) as [(_ & B)| ->]; [lra|discriminate]. }
      subst m. split; [lra|]. rewrite Es. apply b64_mono. lra.
  Qed.
  Lemma mapM_ok {A B} (f : A -> outcome B) (P : A -> B -> Prop) l : (forall a, In a l -> exists b, f a = Ok b /\ P a b) -> exists r, mapM f l = Ok r /\ Forall2 P l r.
  Proof.
    induction l as [|a l IH]; intros H; [exists []; split; [reflexivity|constructor]|]. destruct (H a (or_introl eq_refl)) as (b & Eb & Pb). destruct IH as (r & Er & Pr); [intros x Hx; apply H; now right|].
    exists (b :: r). cbn [mapM]. rewrite Eb, Er. cbn [bind]. split; [reflexivity|now constructor].
  Qed.
  Lemma dprob_of_ok K jll : Forall (fun r => log_probs r /\ (Z.of_nat (length r) < 2 ^ 53)%Z) jll -> exists p, dprob_of ord dexp dlog K jll = Ok p /\
    Forall2 (fun r q => length q = length r /\ Forall in_unit q) jll p.
  Proof.
    intros H. rewrite Forall_forall in H. unfold dprob_of, dlog_prob_of, dlogsumexp. cbn [Z.eqb Pos.eqb]. destruct (mapM_ok (dlse ord dexp dlog) (fun r s => forall b, In b r -> in_unit (dexp (dsub b s))) jll) as (norm & E & HN).
    { intros r Hr. destruct (H r Hr) as (H1 & H2). destruct (dlse_prob r H1 H2) as (s & Es & _ & Hs & _). eauto. }
    rewrite E. cbn [bind]. eexists. split; [reflexivity|]. clear E H. induction HN as [|r s jll norm Hr HN IH]; cbn [map2 map]; constructor; [|exact IH].
    split; [now rewrite !map_length|]. rewrite map_map. apply Forall_map, Forall_forall. exact Hr.
  Qed.
  (** Equal and large log-probabilities *)
  Lemma equal_prob K c : (1 <= K)%nat -> (Z.of_nat K < 2 ^ 53)%Z -> finite c -> bpow radix2 66 <= Rabs (value c) ->
    exists p, dprob_of ord dexp dlog K [repeat c K] = Ok [p] /\ length p = K /\ Forall (fun a => finite a /\ value a = 1) p.
  Proof.
    intros HK HK' Fc Hc. assert (Hv : log_probs (repeat c K)).
    { split; [apply Forall_forall; intros a Ha; apply repeat_spec in Ha; subst; now left|]. exists c. split; [destruct K; [lia|now left]|exact Fc]. }
    destruct (dlse_ok (repeat c K) Hv) as (c' & l & Hc' & _ & _ & E & Fl & Bl); [now rewrite repeat_length|]. apply repeat_spec in Hc'. subst c'.
    destruct (dadd_small l c Fl Fc Bl) as (Fs & Es & _). rewrite absorbed in Es by assumption.
    unfold dprob_of, dlog_prob_of, dlogsumexp. cbn [Z.eqb Pos.eqb mapM]. rewrite E. cbn [bind map2 map]. eexists. split; [reflexivity|]. split; [now rewrite !map_length, repeat_length|].
    rewrite map_map. apply Forall_map, Forall_forall. intros a Ha. apply repeat_spec in Ha. subst a. destruct (dsub_same c (dadd l c) Fc Fs (eq_sym Es)) as (F0 & E0).
    destruct HE as (E1 & E2 & _). split; [|now apply E2]. destruct (E1 (dsub c (dadd l c))) as (F & _); [now apply finite_number|apply dle_zero; [now apply finite_number|rewrite finite_val by exact F0; lra]|exact F].
  Qed.
  (** Quotients *)
  Lemma quotient a s : in_unit a -> finite s -> 1 <= B2R s -> in_unit (ddiv a s) /\ B2R (ddiv a s) = binary64 (B2R a / B2R s).
  Proof.
    intros (Fa & Ba) Fs Bs. unfold value in Ba. destruct (ddiv_near 1 0 a s (B2R a) (B2R s) ltac:(lia) ltac:(lia)) as (F & E & B); auto; [apply near_of; [exact Fa|rewrite Rabs_pos_eq; lra]|].
    split; [|exact E]. split; [exact F|]. unfold value. rewrite E. cbn [bpow] in B. rewrite Rmult_1_r in B. apply Rabs_le_inv in B. split; [|lra]. rewrite <- b64_0. apply b64_mono. unfold Rdiv. apply Rmult_le_pos; [lra|left; apply Rinv_0_lt_compat; lra].
  Qed.
  Lemma dsoftmax1_ok v : log_probs v -> (Z.of_nat (length v) < 2 ^ 53)%Z -> exists p, dsoftmax1 ord dexp v = Ok p /\ length p = length v /\ Forall in_unit p.
  Proof.
    intros Hv Hl. destruct (shifted v Hv Hl) as (c & E & Hc & Fc & H & U & Fs & Bs). unfold dsoftmax1. rewrite E. cbn [bind]. eexists. split; [reflexivity|]. split; [now rewrite !map_length|].
    apply Forall_map. eapply Forall_impl; [|exact U]. intros a Ha. now apply quotient.
  Qed.
  (** The sigmoid *)
  Lemma minus_abs x : is_number x -> is_number (Bopp (dabs x)) /\ dle (Bopp (dabs x)) zero = true.
  Proof. destruct x as [s|s| |s m e B]; intros H; try discriminate; split; reflexivity. Qed.
  Lemma minus_abs_val x : finite x -> finite (Bopp (dabs x)) /\ B2R (Bopp (dabs x)) = - Rabs (B2R x).
  Proof. intros F. unfold dabs. split; [unfold finite; now rewrite is_finite_Bopp, is_finite_Babs|now rewrite B2R_Bopp, B2R_Babs]. Qed.
  Lemma one_plus a : in_unit a -> finite (dadd (dbl 1 0) a) /\ B2R (dadd (dbl 1 0) a) = binary64 (1 + B2R a) /\ 1 <= B2R (dadd (dbl 1 0) a) <= 2.
  Proof.
    intros (Fa & Ba). unfold value in Ba. destruct one_val as (F1 & V1).
    destruct (dadd_near 1 1 0 (dbl 1 0) a 1 (B2R a)) as (F & E & B); try lia; [split; [exact F1|]; split; [exact V1|]; rewrite Rabs_pos_eq; cbn; lra|apply near_of; [exact Fa|rewrite Rabs_pos_eq; lra]|].
    split; [exact F|]. split; [exact E|]. rewrite E. cbn [bpow] in B. rewrite Rmult_1_r in B. apply Rabs_le_inv in B. split; [|cbn in B; lra]. rewrite <- b64_1 at 1. apply b64_mono. lra.
  Qed.
  Lemma numerator x : is_number x -> in_unit (dexp (if dle zero x then zero else x)).
  Proof.
    intros N. destruct HE as (E1 & _). destruct (dle zero x) eqn:D; [apply E1; reflexivity|]. apply E1; [exact N|]. rewrite dle_dlt in * by (try exact N; reflexivity).
    apply negb_false_iff in D. apply negb_true_iff. rewrite dlt_val in * by (try exact N; reflexivity). rewrite Rlt_bool_iff in D. rewrite Rlt_bool_niff. lra.
  Qed.
  Lemma dsigmoid_unit x : is_number x -> in_unit (dsigmoid1 dexp x).
  Proof.
    intros N. unfold dsigmoid1. destruct (minus_abs x N) as (N1 & D1). destruct HE as (E1 & _). destruct (one_plus _ (E1 _ N1 D1)) as (F & _ & B). apply quotient; [now apply numerator|exact F|lra].
  Qed.
  Lemma dle_zero_val x : finite x -> dle zero x = Rle_bool 0 (B2R x).
  Proof. intros F. unfold dle. rewrite Bleb_correct by (try exact F; reflexivity). reflexivity. Qed.
  Lemma dsigmoid_high x : finite x -> 64 <= value x -> finite (dsigmoid1 dexp x) /\ value (dsigmoid1 dexp x) = 1.
  Proof.
    intros F H. unfold value in *. destruct (dsigmoid_unit x (finite_number x F)) as (F' & _). split; [exact F'|]. unfold dsigmoid1. rewrite dle_zero_val, Rle_bool_true by (try exact F; lra).
    destruct HE as (E1 & E2 & _ & E4 & _). destruct (minus_abs x (finite_number x F)) as (N1 & D1). destruct (minus_abs_val x F) as (F1 & V1). pose proof (E1 _ N1 D1) as U.
    destruct (one_plus _ U) as (F2 & V2 & B2). pose proof (E4 _ F1) as S. unfold value in S. rewrite V1, Rabs_pos_eq in S by lra. specialize (S ltac:(lra)). destruct U as (U1 & U2). unfold value in U2.
    destruct (quotient (dexp zero) _ (numerator zero eq_refl) F2 ltac:(lra)) as (_ & Q). rewrite Q. rewrite (E2 zero eq_refl eq_refl : B2R (dexp zero) = 1). rewrite V2.
    assert (O : binary64 (1 + B2R (dexp (Bopp (dabs x)))) = 1).
    { apply Rle_antisym; [|rewrite <- b64_1 at 1; apply b64_mono; lra]. unfold binary64. apply round_N_le_midp; [apply FLT_exp_valid; reflexivity| |].
      - replace 1 with (IZR 1 * bpow radix2 0) by (cbn; lra). apply generic_format_FLT. apply FLT_spec with (Float radix2 1 0); [reflexivity|reflexivity|cbn; lia].
      - rewrite succ_eq_pos by lra. replace (ulp radix2 (FLT_exp (-1074) 53) 1) with (bpow radix2 (-52)) by (change 1 with (bpow radix2 0); rewrite ulp_bpow; reflexivity).
        assert (bpow radix2 (-60) <= bpow radix2 (-54)) by (apply bpow_le; lia). assert (bpow radix2 (-52) = 4 * bpow radix2 (-54)) by (change (-52)%Z with (2 + -54)%Z; rewrite bpow_plus; reflexivity).
        pose proof (bpow_gt_0 radix2 (-54)). lra. }
    rewrite O. replace (1 / 1) with 1 by lra. apply b64_1.
  Qed.
  Lemma dsigmoid_low x : finite x -> value x <= -1100 -> finite (dsigmoid1 dexp x) /\ value (dsigmoid1 dexp x) = 0.
  Proof.
    intros F H. unfold value in *. destruct (dsigmoid_unit x (finite_number x F)) as (F' & _). split; [exact F'|]. unfold dsigmoid1. rewrite dle_zero_val, Rle_bool_false by (try exact F; lra).
    destruct HE as (E1 & _ & _ & _ & E5 & _). destruct (minus_abs x (finite_number x F)) as (N1 & D1). destruct (one_plus _ (E1 _ N1 D1)) as (F2 & _ & B2). 
    rewrite (E5 x F H). destruct (quotient zero _ ltac:(split; [reflexivity|cbn; lra]) F2 ltac:(lra)) as (_ & Q). rewrite Q. cbn [zero B2R]. unfold Rdiv. rewrite Rmult_0_l. apply b64_0.
  Qed.
  Lemma dsigmoid_nan : dsigmoid1 dexp nan = nan.
  Proof. destruct HE as (_ & _ & _ & _ & _ & E6). unfold dsigmoid1. assert (D : dle zero nan = false) by reflexivity. rewrite D, E6. apply ddiv_nan_l. Qed.

  (** * The loss of samples classified beyond doubt *)
  Lemma dmul_zero_inf a s : finite a -> B2R a = 0 -> dmul a (B754_infinity s) = nan.
  Proof.
    intros F H. destruct a as [t|t| |t m e B]; try discriminate; [reflexivity|]. exfalso. cbn [B2R] in H. apply eq_0_F2R in H. destruct t; discriminate.
  Qed.
  Lemma dmul_minus_one_zero y : finite y -> B2R y = 0 -> finite (dmul (dbl (-1) 0) y) /\ B2R (dmul (dbl (-1) 0) y) = 0.
  Proof.
    intros F H. destruct y as [t|t| |t m e B]; try discriminate; [split; reflexivity|]. exfalso. cbn [B2R] in H. apply eq_0_F2R in H. destruct t; discriminate.
  Qed.
  Lemma doubtless_term m l : beyond_doubt m l -> dlog_term dlog l (dsigmoid1 dexp m) = nan.
  Proof.
    intros (Fm & Fl & H). unfold dlog_term. destruct one_val as (F1 & V1). destruct HL as (_ & _ & L3 & _). destruct H as [(Vl & Hm)|(Vl & Hm)]; unfold value in Vl.
    - destruct (dsigmoid_high m Fm Hm) as (Fs & Vs). unfold value in Vs. destruct (dsub_same (dbl 1 0) l F1 Fl ltac:(lra)) as (Fa & Va). destruct (dsub_same (dbl 1 0) _ F1 Fs ltac:(lra)) as (Fb & Vb).
      rewrite (L3 _ Fb Vb). unfold minus_inf. rewrite dmul_zero_inf by assumption. apply dsub_nan_r.
    - destruct (dsigmoid_low m Fm Hm) as (Fs & Vs). rewrite (L3 _ Fs Vs). destruct (dmul_minus_one_zero l Fl Vl). unfold minus_inf. rewrite dmul_zero_inf by assumption. apply dsub_nan_l.
  Qed.
  Lemma dlog_evaluate_nan lambda X y w ms m l : dmv ord X w = Ok ms -> length y = length X -> In (m, l) (combine ms y) -> beyond_doubt m l -> dlog_evaluate ord dexp dlog lambda X y w = Ok nan.
  Proof.
    intros E Hy Hin HB. unfold dlog_evaluate. rewrite E. cbn [bind]. assert (Hm : length ms = length X).
    { clear - E. revert ms E. unfold dmv. induction X as [|r X IH]; intros ms E; cbn [mapM] in E; [now injection E as <-|]. destruct (_ =? _)%nat; [|discriminate]. cbn [bind] in E. destruct (mapM _ X) as [ys| | |]; try discriminate. cbn [bind] in E. injection E as <-. cbn. now rewrite (IH ys eq_refl). }
    rewrite map_length, Hm, Hy, Nat.eqb_refl. f_equal. rewrite dsum_nan; [rewrite ddiv_nan_l; apply dadd_nan_l|exact HF|].
    assert (HLn : length ms = length y) by lia. clear - HE HL Hin HB HLn. revert y HLn Hin. induction ms as [|a ms IH]; intros [|b y] HLn Hin; try easy. cbn [map map2 combine] in *. destruct Hin as [Hin|Hin].
    - injection Hin as -> ->. left. now apply doubtless_term.
    - right. apply IH; [now injection HLn|exact Hin].
  Qed.

  (** * The loss of samples that are in doubt *)
  Lemma dsigmoid_mid x : finite x -> -32 <= value x <= 32 -> finite (dsigmoid1 dexp x) /\ bpow radix2 (-53) <= value (dsigmoid1 dexp x) <= 1 - bpow radix2 (-53).
  Proof.
    intros F H. unfold value in *. destruct (dsigmoid_unit x (finite_number x F)) as (F' & _). split; [exact F'|]. unfold dsigmoid1.
    destruct HE as (E1 & E2 & E3 & _). destruct (minus_abs x (finite_number x F)) as (N1 & D1). destruct (minus_abs_val x F) as (F1 & V1). pose proof (E1 _ N1 D1) as U.
    destruct (one_plus _ U) as (F2 & V2 & B2). pose proof (numerator x (finite_number x F)) as UN. destruct (quotient _ _ UN F2 ltac:(lra)) as (_ & Q). rewrite Q. set (p := dexp (if dle zero x then zero else x)) in *. set (d := dadd (dbl 1 0) (dexp (Bopp (dabs x)))) in *.
    assert (P : bpow radix2 (-52) <= B2R p).
    { unfold p. rewrite dle_zero_val by exact F. destruct (Rle_bool_spec 0 (B2R x)); [apply (E3 zero eq_refl); cbn; lra|apply E3; [exact F|unfold value; lra]]. }
    assert (S : bpow radix2 (-52) <= B2R (dexp (Bopp (dabs x)))).
    { apply E3; [exact F1|]. unfold value. rewrite V1. destruct (Rabs_le (B2R x) 32 ltac:(lra)) as []; [pose proof (Rabs_pos (B2R x)); pose proof (Rabs_le (B2R x) 32 ltac:(lra)); lra ..]. }
    destruct UN as (_ & UN). unfold value in UN. assert (D : 1 + bpow radix2 (-52) <= B2R d).
    { rewrite V2. replace (1 + bpow radix2 (-52)) with (IZR (2 ^ 52 + 1) * bpow radix2 (-52)).
      - rewrite <- (b64_F (2 ^ 52 + 1) (-52)) by lia. apply b64_mono. rewrite plus_IZR, Rmult_plus_distr_r, Rmult_1_l. replace (IZR (2 ^ 52) * bpow radix2 (-52)) with 1; [lra|]. change (IZR (2 ^ 52)) with (bpow radix2 52). rewrite <- bpow_plus. reflexivity.
      - rewrite plus_IZR, Rmult_plus_distr_r, Rmult_1_l. f_equal. change (IZR (2 ^ 52)) with (bpow radix2 52). rewrite <- bpow_plus. reflexivity. }
    assert (G53 : bpow radix2 (-52) = 2 * bpow radix2 (-53)) by (change (-52)%Z with (1 + -53)%Z; rewrite bpow_plus; reflexivity). pose proof (bpow_gt_0 radix2 (-53)) as P53.
    split.
    - replace (bpow radix2 (-53)) with (IZR 1 * bpow radix2 (-53)) by lra. rewrite <- (b64_F 1 (-53)) by lia. apply b64_mono. rewrite Rmult_1_l. apply (Rmult_le_reg_r (B2R d)); [lra|]. unfold Rdiv. rewrite Rmult_assoc, Rinv_l, Rmult_1_r by lra.
      apply Rle_trans with (bpow radix2 (-53) * 2); [apply Rmult_le_compat_l; lra|lra].
    - replace (1 - bpow radix2 (-53)) with (IZR (2 ^ 53 - 1) * bpow radix2 (-53)).
      + rewrite <- (b64_F (2 ^ 53 - 1) (-53)) by lia. apply b64_mono. apply (Rmult_le_reg_r (B2R d)); [lra|]. unfold Rdiv. rewrite Rmult_assoc, Rinv_l, Rmult_1_r by lra. rewrite minus_IZR, Rmult_minus_distr_r, Rmult_1_l.
        replace (IZR (2 ^ 53) * bpow radix2 (-53)) with 1 by (change (IZR (2 ^ 53)) with (bpow radix2 53); rewrite <- bpow_plus; reflexivity).
        assert (P1 : bpow radix2 (-53) <= / 4) by (change (/ 4) with (bpow radix2 (-2)); apply bpow_le; lia). apply Rle_trans with ((1 - bpow radix2 (-53)) * (1 + 2 * bpow radix2 (-53))); [nra|]. apply Rmult_le_compat_l; lra.
      + rewrite minus_IZR, Rmult_minus_distr_r, Rmult_1_l. f_equal. change (IZR (2 ^ 53)) with (bpow radix2 53). rewrite <- bpow_plus. reflexivity.
  Qed.
  Lemma near_weaken c d e f a x : IZR c * bpow radix2 e <= IZR d * bpow radix2 f -> near c e a x -> near d f a x.
  Proof. intros H (F & E & B). split; [exact F|]. split; [exact E|lra]. Qed.
  Lemma log_near x : finite x -> 0 < value x -> near 1 11 (dlog x) (B2R (dlog x)).
  Proof. intros F H. destruct HL as (L1 & _). destruct (L1 x F H) as (FL & BL). split; [exact FL|]. split; [reflexivity|]. unfold value in BL. change (bpow radix2 11) with 2048. lra. Qed.
  Lemma doubt_term m l : finite m -> -32 <= value m <= 32 -> finite l -> value l = 0 \/ value l = 1 -> exists x, near 1 13 (dlog_term dlog l (dsigmoid1 dexp m)) x.
  Proof.
    intros Fm Hm Fl Vl. destruct (dsigmoid_mid m Fm Hm) as (Fs & Bs). set (s := dsigmoid1 dexp m) in *. unfold value in *. destruct one_val as (F1 & V1). pose proof (bpow_gt_0 radix2 (-53)) as P53.
    assert (Nl : near 1 0 l (B2R l)) by (apply near_of; [exact Fl|rewrite Rabs_pos_eq; lra]). assert (N1 : near 1 0 (dbl 1 0) 1) by (split; [exact F1|]; split; [exact V1|]; rewrite Rabs_pos_eq; cbn; lra).
    assert (Nm : near 1 0 (dbl (-1) 0) (-1)).
    { destruct (dbl_exact (-1) 0) as (F & E); [lia|lia|]. split; [exact F|]. split; [rewrite E; cbn; lra|]. rewrite Rabs_left by lra. cbn; lra. }
    assert (Ns : near 1 0 s (B2R s)) by (apply near_of; [exact Fs|rewrite Rabs_pos_eq; lra]).
    pose proof (dmul_near 1 1 0 0 _ _ _ _ ltac:(lia) ltac:(lia) ltac:(lia) ltac:(lia) Nm Nl) as T1. pose proof (dmul_near (1 * 1) 1 (0 + 0) 11 _ _ _ _ ltac:(lia) ltac:(lia) ltac:(lia) ltac:(lia) T1 (log_near s Fs ltac:(unfold value; lra))) as T2.
    pose proof (dsub_near 1 1 0 _ _ _ _ ltac:(lia) ltac:(lia) ltac:(lia) ltac:(lia) N1 Nl) as T3. pose proof (dsub_near 1 1 0 _ _ _ _ ltac:(lia) ltac:(lia) ltac:(lia) ltac:(lia) N1 Ns) as T4.
    assert (P4 : 0 < B2R (dsub (dbl 1 0) s)).
    { destruct T4 as (_ & E4 & _). rewrite E4. apply Rlt_le_trans with (IZR 1 * bpow radix2 (-53)); [lra|]. rewrite <- (b64_F 1 (-53)) by lia. apply b64_mono. lra. }
    pose proof (dmul_near (1 + 1) 1 0 11 _ _ _ _ ltac:(lia) ltac:(lia) ltac:(lia) ltac:(lia) T3 (log_near _ (proj1 T4) P4)) as T5.
    change (1 * 1 * 1)%Z with 1%Z in T2. change ((1 + 1) * 1)%Z with 2%Z in T5. change (0 + 0 + 11)%Z with 11%Z in T2. change (0 + 11)%Z with 11%Z in T5.
    pose proof (dsub_near 1 2 11 _ _ _ _ ltac:(lia) ltac:(lia) ltac:(lia) ltac:(lia) T2 T5) as T6.
    eexists. unfold dlog_term. eapply near_weaken; [|exact T6]. cbn. lra.
  Qed.
  Lemma dnat_val n : (Z.of_nat n < 2 ^ 53)%Z -> finite (dnat n) /\ B2R (dnat n) = INR n.
  Proof. intros H. destruct (dbl_exact (Z.of_nat n) 0) as (F & E); [lia|lia|]. split; [exact F|]. unfold dnat. rewrite E, INR_IZR_INZ. cbn [bpow]. lra. Qed.
  Lemma exists_near e v : Forall (fun a => exists x, near 1 e a x) v -> exists w, Forall2 (near 1 e) v w.
  Proof. induction 1 as [|a v (x & Hx) _ (w & Hw)]; [now exists []|]. exists (x :: w). now constructor. Qed.
  Lemma dsum_bound e v : (-1074 <= e <= 971)%Z -> (Z.of_nat (length v) < 2 ^ 53)%Z -> Forall (fun a => exists x, near 1 e a x) v -> exists x, near (Z.of_nat (length v)) e (dsum ord v) x.
  Proof.
    intros He Hl Hv. destruct v as [|a v]; [exists 0; split; [reflexivity|]; split; [reflexivity|]; rewrite Rabs_R0; cbn; lra|]. destruct (exists_near e _ Hv) as (w & Hw). eexists. exact (dsum_near ord e (a :: v) w HF He ltac:(discriminate) Hl Hw).
  Qed.
  Lemma dmv_length X w ms : dmv ord X w = Ok ms -> length ms = length X.
  Proof.
    revert ms. unfold dmv. induction X as [|r X IH]; intros ms E; cbn [mapM] in E; [now injection E as <-|]. destruct (_ =? _)%nat; [|discriminate]. cbn [bind] in E. destruct (mapM _ X) as [ys| | |]; try discriminate. cbn [bind] in E. injection E as <-. cbn. now rewrite (IH ys eq_refl).
  Qed.
  Lemma dlog_evaluate_finite lambda X y w ms : dmv ord X w = Ok ms -> length y = length X -> (1 <= length X)%nat -> (Z.of_nat (length X) < 2 ^ 52)%Z -> (Z.of_nat (length w) < 2 ^ 52)%Z ->
    Forall (fun m => finite m /\ -32 <= value m <= 32) ms -> Forall (fun l => finite l /\ (value l = 0 \/ value l = 1)) y -> Forall modest w -> modest lambda ->
    exists loss, dlog_evaluate ord dexp dlog lambda X y w = Ok loss /\ finite loss.
  Proof.
    intros E Hy Hn HnX Hnw Hm Hl Hw Hla. unfold dlog_evaluate. rewrite E. cbn [bind]. pose proof (dmv_length _ _ _ E) as Hms. rewrite map_length, Hms, Hy, Nat.eqb_refl. eexists. split; [reflexivity|].
    set (terms := map2 (dlog_term dlog) y (map (dsigmoid1 dexp) ms)).
    assert (T : length terms = length X /\ Forall (fun a => exists x, near 1 13 a x) terms).
    { rewrite <- Hms. assert (G : length y = length ms) by lia. subst terms. clear - HE HL Hm Hl G. revert y G Hl. induction ms as [|m ms IH]; intros [|l y] G Hl; try easy; [split; [reflexivity|constructor]|]. cbn [map map2 length].
      inversion Hm as [|? ? (Fm & Bm) Hm']; subst. inversion Hl as [|? ? (Fl & Vl) Hl']; subst. injection G as G. destruct (IH Hm' y G Hl') as (I1 & I2). split; [now rewrite I1|]. constructor; [now apply doubt_term|exact I2]. }
    destruct T as (T1 & T2). destruct (dsum_bound 13 terms ltac:(lia) ltac:(rewrite T1; lia) T2) as (sx & HS). rewrite T1 in HS.
    destruct (dnat_val (length X) ltac:(lia)) as (Fn & Vn). assert (N1 : 1 <= INR (length X)) by (apply (le_INR 1); exact Hn).
    pose proof (ddiv_near (Z.of_nat (length X)) 13 _ _ _ _ ltac:(lia) ltac:(lia) HS Fn Vn N1) as HD.
    assert (W : exists x, near (Z.of_nat (length w)) 600 (dsq_norm ord w) x).
    { unfold dsq_norm. rewrite <- (map_length (fun a => dmul a a) w). apply dsum_bound; [lia|rewrite map_length; lia|]. apply Forall_map. eapply Forall_impl; [|exact Hw]. intros a (Fa & Ba).
      assert (Na : near 1 300 a (B2R a)) by (split; [exact Fa|]; split; [reflexivity|]; unfold value in Ba; lra). eexists. exact (dmul_near 1 1 300 300 _ _ _ _ ltac:(lia) ltac:(lia) ltac:(lia) ltac:(lia) Na Na). }
    destruct W as (wx & W). destruct (dbl_exact 2 0) as (F2 & V2); [lia|lia|].
    assert (Nn : near (Z.of_nat (length X)) 0 (dnat (length X)) (INR (length X))) by (split; [exact Fn|]; split; [exact Vn|]; rewrite Rabs_pos_eq, INR_IZR_INZ by lra; cbn; lra).
    assert (N2 : near 2 0 (dbl 2 0) 2) by (split; [exact F2|]; split; [rewrite V2; cbn; lra|]; rewrite Rabs_pos_eq; cbn; lra).
    pose proof (dmul_near (Z.of_nat (length X)) 2 0 0 _ _ _ _ ltac:(lia) ltac:(lia) ltac:(lia) ltac:(lia) Nn N2) as (FM & VM & _).
    assert (M1 : 1 <= binary64 (INR (length X) * 2)) by (rewrite <- b64_1 at 1; apply b64_mono; lra).
    pose proof (ddiv_near (Z.of_nat (length w)) 600 _ _ _ _ ltac:(lia) ltac:(lia) W FM VM M1) as HR.
    destruct Hla as (FLa & BLa). assert (Nla : near 1 300 lambda (B2R lambda)) by (split; [exact FLa|]; split; [reflexivity|]; unfold value in BLa; lra).
    pose proof (dmul_near (Z.of_nat (length w)) 1 600 300 _ _ _ _ ltac:(lia) ltac:(lia) ltac:(lia) ltac:(lia) HR Nla) as HP. change (600 + 300)%Z with 900%Z in HP.
    assert (HD' : near 1 900 (ddiv (dsum ord terms) (dnat (length X))) (binary64 (sx / INR (length X)))).
    { eapply near_weaken; [|exact HD]. rewrite Rmult_1_l. change 900%Z with (887 + 13)%Z. rewrite bpow_plus. apply Rmult_le_compat_r; [apply bpow_ge_0|]. apply Rle_trans with (bpow radix2 52); [change (bpow radix2 52) with (IZR (2 ^ 52)); apply IZR_le; lia|apply bpow_le; lia]. }
    destruct (dadd_near 1 (Z.of_nat (length w) * 1) 900 _ _ _ _ ltac:(lia) ltac:(lia) ltac:(lia) ltac:(lia) HD' HP) as (FF & _). exact FF.
  Qed.

  (** * What stochastic gradient descent makes of it *)
  Section Runs.
    Context {S : Type}.
    Variable epoch : nat -> S -> outcome (S * double).
    Variable Inv : S -> Prop.
    Hypothesis HI : forall it s s' loss, Inv s -> epoch it s = Ok (s', loss) -> Inv s'.
    Variables (tol : double) (b patience : nat).
    Hypothesis Hp : (1 <= patience)%nat.
    Lemma depochs_ok_inv : forall iters best count s s', Inv s -> (count < patience)%nat -> depochs epoch tol b patience iters best count s = Ok s' ->
      exists iter s0 loss, Inv s0 /\ epoch iter s0 = Ok (s', loss) /\ is_number loss.
    Proof.
      induction iters as [|it iters IH]; intros best count s s' Is Hc E; cbn [depochs] in E; [discriminate|].
      destruct (epoch it s) as [(s1, loss)| | |] eqn:E1; try discriminate. cbn [bind] in E. pose proof (HI _ _ _ _ Is E1) as Is1.
      destruct (dlt (dsub best (dmul tol (dnat b))) loss) eqn:D.
      - destruct (Nat.leb_spec patience (Datatypes.S count)).
        + injection E as <-. exists it, s, loss. split; [exact Is|]. split; [exact E1|]. apply dlt_numbers in D. tauto.
        + eapply IH; [exact Is1| |exact E]. lia.
      - destruct (Nat.leb_spec patience 0); [lia|]. eapply IH; [exact Is1| |exact E]. lia.
    Qed.
    Lemma depochs_nan_inv : (forall it s, Inv s -> exists s', epoch it s = Ok (s', nan)) -> forall iters best s, Inv s -> depochs epoch tol b patience iters best 0 s = Throw RuntimeError.
    Proof.
      intros HN. induction iters as [|it iters IH]; intros best s Is; cbn [depochs]; [reflexivity|]. destruct (HN it s Is) as (s1 & E). rewrite E. cbn [bind]. rewrite dlt_nan_r.
      destruct (Nat.leb_spec patience 0); [lia|]. apply IH. eapply HI; eassumption.
    Qed.
  End Runs.
  Lemma dsgd_in_doubt lambda gradient clip decay perm tol patience max_iter X y w0 w : length y = length X -> (1 <= length X)%nat -> (1 <= patience)%nat ->
    dsgd ord gradient (dlog_evaluate ord dexp dlog lambda) clip decay perm false tol (length X) patience max_iter X y w0 = Ok w ->
    exists ms, dmv ord X w = Ok ms /\ length ms = length X /\ forall m l, In (m, l) (combine ms y) -> ~ beyond_doubt m l.
  Proof.
    intros Hy Hn Hp E. unfold dsgd in E. destruct (Nat.eqb_spec (length X) 0); [lia|]. destruct (doptimize _ _ _ _ _ _) as [s| | |] eqn:Eo; try discriminate. cbn [bind] in E. injection E as <-.
    unfold doptimize in Eo. apply (depochs_ok_inv _ (fun s => fst s = (X, y))) in Eo; [|intros it t t' loss It Et|exact Hp|reflexivity|lia].
    - destruct Eo as (it & s0 & loss & I0 & Es & Nl). unfold dsgd_epoch in Es. rewrite I0 in Es. cbn [bind fst snd] in Es. rewrite Nat.div_same in Es by lia. cbn [seq foldM] in Es. unfold dbatch in Es. cbn [Nat.mul fst snd] in Es.
      unfold dmiddle_rows in Es. cbn [Nat.add skipn] in Es. rewrite Hy, Nat.leb_refl in Es. cbn [bind] in Es. rewrite firstn_all in Es. rewrite <- Hy, firstn_all in Es.
      destruct (gradient X y (snd s0)) as [g| | |]; try discriminate. cbn [bind] in Es. destruct (dupdate _ _ _) as [w| | |]; try discriminate. cbn [bind] in Es.
      destruct (dlog_evaluate ord dexp dlog lambda X y w) as [l0| | |] eqn:El; try discriminate. cbn [bind app fst snd] in Es. injection Es as <- <-. cbn [snd].
      pose proof El as El'. unfold dlog_evaluate in El'. destruct (dmv ord X w) as [ms| | |] eqn:Em; try discriminate. clear El'. exists ms. split; [reflexivity|]. split; [exact (dmv_length _ _ _ Em)|]. intros m l Hin HB.
      rewrite (dlog_evaluate_nan lambda X y w ms m l Em Hy Hin HB) in El. injection El as <-. change (is_number (dsum ord [nan])) in Nl. rewrite dsum_nan in Nl; [discriminate|exact HF|now left].
    - unfold dsgd_epoch in Et. rewrite It in Et. cbn [bind fst snd] in Et. destruct (foldM _ _ _); try discriminate. cbn [bind] in Et. injection Et as <- _. reflexivity.
  Qed.
  (** Zeros *)
  Definition null (a : double) : Prop := finite a /\ B2R a = 0.
  Lemma null_zero a : null a -> exists s, a = B754_zero s.
  Proof. intros (F & H). destruct a as [t|t| |t m e B]; try discriminate; [now exists t|]. exfalso. cbn [B2R] in H. apply eq_0_F2R in H. destruct t; discriminate. Qed.
  Lemma zero_null s : null (B754_zero s). Proof. split; reflexivity. Qed.
  Lemma dmul_null_r a z : finite a -> null z -> null (dmul a z).
  Proof. intros F H. destruct (null_zero z H) as (s & ->). destruct a as [t|t| |t m e B]; try discriminate; split; reflexivity. Qed.
  Lemma dadd_null a z : null a -> null z -> null (dadd a z).
  Proof. intros H1 H2. destruct (null_zero a H1) as (s & ->). destruct (null_zero z H2) as (t & ->). destruct s, t; split; reflexivity. Qed.
  Lemma dadd_up_null v s : Forall null v -> null (dadd_up s v).
  Proof. intros Hv. induction s as [i|l IHl r IHr]; cbn [dadd_up]; [|now apply dadd_null]. destruct (nth_in_or_default i v zero) as [Hi| ->]; [rewrite Forall_forall in Hv; now apply Hv|apply zero_null]. Qed.
  Lemma dsum_null v : Forall null v -> null (dsum ord v).
  Proof. intros Hv. unfold dsum. destruct v; [apply zero_null|now apply dadd_up_null]. Qed.
  Lemma ddiv_null a b : null a -> finite b -> 1 <= B2R b -> null (ddiv a b).
  Proof.
    intros Ha Fb Hb. destruct (null_zero a Ha) as (s & ->). destruct b as [t|t| |t m e B]; try discriminate; [cbn in Hb; lra|]. split; reflexivity.
  Qed.
  Lemma dsub_null w z : is_finite_strict w = true -> null z -> dsub w z = w.
  Proof. intros F H. destruct (null_zero z H) as (s & ->). destruct w as [t|t| |t m e B]; try discriminate. reflexivity. Qed.
  Lemma strict_factors x w : finite (dmul x w) -> B2R (dmul x w) <> 0 -> is_finite_strict x = true /\ is_finite_strict w = true.
  Proof.
    destruct x as [s|s| |s m e B], w as [t|t| |t n f C]; intros F H; try discriminate F; try (exfalso; apply H; reflexivity). split; reflexivity.
  Qed.
  Lemma strict_finite a : is_finite_strict a = true -> finite a. Proof. destruct a; intros H; try discriminate; reflexivity. Qed.
  Lemma dsum_one a : dsum ord [a] = a.
  Proof.
    unfold dsum. cbn [length]. pose proof (HF 1%nat ltac:(lia)) as P. cbn [seq] in P. destruct (ord 1%nat) as [i|l r]; cbn [entries_of] in P.
    - apply Permutation_sym, Permutation_length_1_inv in P. injection P as ->. reflexivity.
    - exfalso. apply Permutation_length in P. rewrite app_length in P. cbn in P. assert (Q : forall s, (1 <= length (entries_of s))%nat) by (induction s; cbn; [lia|rewrite app_length; lia]). pose proof (Q l). pose proof (Q r). lia.
  Qed.
  Lemma dmv_one xs w : dmv ord (map (fun x => [x]) xs) [w] = Ok (map (fun x => dmul x w) xs).
  Proof.
    unfold dmv. induction xs as [|x xs IH]; [reflexivity|]. cbn [map mapM]. rewrite IH. cbn [length Nat.eqb bind combine map fst snd]. now rewrite dsum_one.
  Qed.
  Lemma doubtless_error m l : beyond_doubt m l -> null (dsub (dsigmoid1 dexp m) l).
  Proof.
    intros (Fm & Fl & H). unfold value in H. destruct H as [(Vl & Hm)|(Vl & Hm)].
    - destruct (dsigmoid_high m Fm Hm) as (Fs & Vs). unfold value in Vs. apply dsub_same; [exact Fs|exact Fl|lra].
    - destruct (dsigmoid_low m Fm Hm) as (Fs & Vs). unfold value in Vs. apply dsub_same; [exact Fs|exact Fl|lra].
  Qed.
  Definition right_all (xs y : list double) (w : double) : Prop := Forall2 (fun x l => beyond_doubt (dmul x w) l) xs y.
  Lemma right_strict x l w : beyond_doubt (dmul x w) l -> is_finite_strict x = true /\ is_finite_strict w = true.
  Proof. intros (F & _ & H). apply strict_factors; [exact F|]. unfold value in H. lra. Qed.
  Lemma gradient_null xs y w : right_all xs y w -> (1 <= length xs)%nat -> (Z.of_nat (length xs) < 2 ^ 53)%Z ->
    exists g, dlog_gradient ord dexp zero (map (fun x => [x]) xs) y [w] = Ok [g] /\ null g.
  Proof.
    intros H Hn Hn'. unfold dlog_gradient. rewrite dmv_one. cbn [bind]. unfold drow_sub. rewrite !map_length, <- (F2_len _ _ _ H), Nat.eqb_refl. cbn [bind length seq map nth]. eexists. split; [reflexivity|].
    destruct (dnat_val (length xs) Hn') as (Fn & Vn). assert (N1 : 1 <= B2R (dnat (length xs))) by (rewrite Vn; apply (le_INR 1); exact Hn).
    assert (Fw : finite w) by (destruct H as [|x l xs y Hx H]; [cbn in Hn; lia|]; apply strict_finite; exact (proj2 (right_strict _ _ _ Hx))).
    apply dadd_null.
    - apply ddiv_null; [|exact Fn|exact N1]. apply dsum_null. clear - HE H. induction H as [|x l xs y Hx H IH]; [constructor|]. cbn [map KDTree_Model.diff combine]. constructor; [|exact IH]. cbn [fst snd nth].
      apply dmul_null_r; [apply strict_finite; exact (proj1 (right_strict _ _ _ Hx))|]. now apply doubtless_error.
    - apply dmul_null_r; [|apply zero_null]. 
      destruct (ddiv_near (2 ^ 53 - 1) 971 w (dnat (length xs)) (B2R w) (B2R (dnat (length xs))) ltac:(lia) ltac:(lia)) as (F & _); [|exact Fn|reflexivity|exact N1|exact F]. split; [exact Fw|]. split; [reflexivity|apply largest_double].
  Qed.
  Lemma right_firstn k : forall xs y w, right_all xs y w -> right_all (firstn k xs) (firstn k y) w.
  Proof. intros. now apply F2_firstn. Qed.
  Lemma dsgd_right xs y w decay perm on_nan tol b patience max_iter : right_all xs y w -> (1 <= b <= length xs)%nat -> (Z.of_nat (length xs) < 2 ^ 53)%Z -> (1 <= patience)%nat -> (forall it, finite (decay it)) ->
    dsgd ord (dlog_gradient ord dexp zero) (dlog_evaluate ord dexp dlog zero) (dclip on_nan) decay perm false tol b patience max_iter (map (fun x => [x]) xs) y [w] = Throw RuntimeError.
  Proof.
    intros H Hb Hn Hp Hd. unfold dsgd. destruct (Nat.eqb_spec b 0); [lia|]. unfold doptimize.
    assert (B : forall lr j losses, finite lr -> (j * b + b <= length xs)%nat ->
      dbatch (dlog_gradient ord dexp zero) (dlog_evaluate ord dexp dlog zero) (dclip on_nan) b lr (map (fun x => [x]) xs) y ([w], losses) j = Ok ([w], losses ++ [nan])).
    { intros lr j losses Flr Hj. unfold dbatch, dmiddle_rows. rewrite map_length, <- (F2_len _ _ _ H). destruct (Nat.leb_spec (j * b + b) (length xs)); [|lia]. cbn [bind fst snd]. rewrite skipn_map, firstn_map.
      set (xs' := firstn b (skipn (j * b) xs)). set (y' := firstn b (skipn (j * b) y)). assert (H' : right_all xs' y' w) by (apply F2_firstn, F2_skipn; exact H).
      assert (L' : length xs' = b) by (unfold xs'; rewrite firstn_length, skipn_length; lia).
      destruct (gradient_null xs' y' w H' ltac:(lia) ltac:(lia)) as (g & Eg & Ng). rewrite Eg. cbn [bind map]. 
      assert (Ew : dupdate [w] [dclip on_nan g] lr = Ok [w]).
      { destruct (null_zero g Ng) as (s & ->). assert (Ec : dclip on_nan (B754_zero s) = B754_zero s) by (destruct s; reflexivity). rewrite Ec. unfold dupdate, drow_sub. cbn [map length Nat.eqb]. f_equal. change ([dsub w (dmul lr (B754_zero s))] = [w]). f_equal.
        destruct H' as [|x l xs' y' Hx _]; [cbn in L'; lia|]. apply dsub_null; [exact (proj2 (right_strict _ _ _ Hx))|]. apply dmul_null_r; [exact Flr|apply zero_null]. }
      rewrite Ew. cbn [bind].
      assert (El : dlog_evaluate ord dexp dlog zero (map (fun x => [x]) xs') y' [w] = Ok nan).
      { destruct H' as [|x l xs' y' Hx H']; [cbn in L'; lia|]. eapply dlog_evaluate_nan; [apply dmv_one| |now left|exact Hx]. rewrite map_length. cbn [length]. now rewrite (F2_len _ _ _ H'). }
      now rewrite El. }
    assert (F : forall lr k, finite lr -> (k * b <= length xs)%nat -> foldM (dbatch (dlog_gradient ord dexp zero) (dlog_evaluate ord dexp dlog zero) (dclip on_nan) b lr (map (fun x => [x]) xs) y) (seq 0 k) ([w], []) = Ok ([w], repeat nan k)).
    { intros lr k Flr. induction k as [|k IH]; intros Hk; [reflexivity|]. rewrite seq_S, foldM_app, IH by lia. cbn [bind foldM Nat.add]. rewrite B by (try exact Flr; lia). cbn [bind]. do 2 f_equal. clear. induction k; [reflexivity|]. cbn [repeat app]. now rewrite IHk. }
    assert (D : (1 <= length xs / b)%nat) by (apply Nat.div_le_lower_bound; lia). assert (D' : (length xs / b * b <= length xs)%nat) by (rewrite Nat.mul_comm; apply Nat.mul_div_le; lia).
    assert (Ep : forall it, dsgd_epoch ord (dlog_gradient ord dexp zero) (dlog_evaluate ord dexp dlog zero) (dclip on_nan) decay perm false b it (map (fun x => [x]) xs, y, [w]) = Ok (map (fun x => [x]) xs, y, [w], nan)).
    { intros it. unfold dsgd_epoch. cbn [bind fst snd]. rewrite map_length, (F (decay it) _ (Hd it) D'). cbn [bind fst snd]. rewrite dsum_nan; [reflexivity|exact HF|]. destruct (length xs / b)%nat; [lia|now left]. }
    rewrite (depochs_nan_inv _ (fun s => s = (map (fun x => [x]) xs, y, [w]))); [reflexivity| |exact Hp| |reflexivity].
    - intros it s s' loss -> Es. rewrite Ep in Es. now injection Es.
    - intros it s ->. eexists. apply Ep.
  Qed.
End Oracles.
