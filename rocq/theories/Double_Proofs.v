(** Facts about doubles and the proofs behind [Properties_Double]. *)
From Coq Require Import Reals Lra.
From Flocq Require Import Core BinarySingleNaN.
From Verif Require Import Base Common_Model Argsort_Model KDTree_Model Tree_Model KMeans_Model Shuffle_Model Round_Spec Double_Spec Double_Model.
Local Open Scope R_scope.

(** * Comparisons *)
(** Numbers as reals, infinity being 2^1024. *)
Definition val (x : double) : R := match x with B754_infinity s => if s then - bpow radix2 1024 else bpow radix2 1024 | _ => B2R x end.
Lemma val_bound x : finite x -> - bpow radix2 1024 < val x < bpow radix2 1024.
Proof.
  intros H. pose proof (abs_B2R_lt_emax 53 1024 x) as B. apply Rabs_def2 in B. destruct x; cbn [val]; try discriminate; lra.
Qed.
Lemma big : 0 < bpow radix2 1024. Proof. apply bpow_gt_0. Qed.
Lemma dlt_val a b : is_number a -> is_number b -> dlt a b = Rlt_bool (val a) (val b).
Proof.
  intros Ha Hb. pose proof big as HB.
  assert (F : forall x, is_number x -> (exists s, x = B754_infinity s) \/ finite x) by (intros [s|s| |s m e H] Hx; [right; reflexivity|left; eauto|discriminate|right; reflexivity]).
  destruct (F a Ha) as [(s & ->)|Fa], (F b Hb) as [(t & ->)|Fb].
  - symmetry. destruct s, t; cbn; [apply Rlt_bool_false|apply Rlt_bool_true|apply Rlt_bool_false|apply Rlt_bool_false]; lra.
  - pose proof (val_bound b Fb). symmetry. destruct s; cbn [val].
    + rewrite Rlt_bool_true by lra. destruct b as [?|?| |[] ? ? ?]; cbn in Fb; try discriminate; reflexivity.
    + rewrite Rlt_bool_false by lra. destruct b as [?|?| |[] ? ? ?]; cbn in Fb; try discriminate; reflexivity.
  - pose proof (val_bound a Fa). symmetry. destruct t; cbn [val].
    + rewrite Rlt_bool_false by lra. destruct a as [?|?| |[] ? ? ?]; cbn in Fa; try discriminate; reflexivity.
    + rewrite Rlt_bool_true by lra. destruct a as [?|?| |[] ? ? ?]; cbn in Fa; try discriminate; reflexivity.
  - unfold dlt. rewrite Bltb_correct by assumption. destruct a, b; try discriminate; reflexivity.
Qed.
Lemma dle_dlt a b : is_number a -> is_number b -> dle a b = negb (dlt b a).
Proof.
  unfold dle, dlt, Bleb, Bltb, SpecFloat.SFleb, SpecFloat.SFltb. intros Ha Hb.
  assert (E : SpecFloat.SFcompare (B2SF b) (B2SF a) = option_map CompOpp (SpecFloat.SFcompare (B2SF a) (B2SF b))).
  { change (Bcompare b a = option_map CompOpp (Bcompare a b)). rewrite Bcompare_swap. reflexivity. }
  rewrite E. destruct (SpecFloat.SFcompare (B2SF a) (B2SF b)) as [[]|] eqn:E'; try reflexivity.
  exfalso. destruct a as [s|s| |s m e H], b as [t|t| |t n f G]; try discriminate Ha; try discriminate Hb; try destruct s; try destruct t; discriminate E'.
Qed.
Lemma dlt_numbers a b : dlt a b = true -> is_number a /\ is_number b.
Proof. destruct a as [s|s| |s m e H], b as [t|t| |t n f G]; intros E; try destruct s; try destruct t; try discriminate E; split; reflexivity. Qed.
Lemma dlt_nan_l b : dlt nan b = false. Proof. destruct b; reflexivity. Qed.
Lemma dlt_nan_r a : dlt a nan = false. Proof. destruct a as [s|s| |s m e H]; try destruct s; reflexivity. Qed.
Lemma dle_nan_l b : dle nan b = false. Proof. destruct b; reflexivity. Qed.
Lemma Rlt_bool_iff a b : Rlt_bool a b = true <-> a < b.
Proof. destruct (Rlt_bool_spec a b); split; intros; try easy; lra. Qed.
Lemma Rlt_bool_niff a b : Rlt_bool a b = false <-> b <= a.
Proof. destruct (Rlt_bool_spec a b); split; intros; try easy; lra. Qed.
Lemma dlt_trans a b c : dlt a b = true -> dlt b c = true -> dlt a c = true.
Proof.
  intros H1 H2. destruct (dlt_numbers _ _ H1), (dlt_numbers _ _ H2). rewrite dlt_val in * by assumption. rewrite Rlt_bool_iff in *. lra.
Qed.
Lemma dlt_le_trans a b c : dlt a b = true -> dle b c = true -> is_number c -> dlt a c = true.
Proof.
  intros H1 H2 Hc. destruct (dlt_numbers _ _ H1). rewrite dle_dlt in H2 by assumption. apply negb_true_iff in H2.
  rewrite dlt_val in * by assumption. rewrite Rlt_bool_iff in *. rewrite Rlt_bool_niff in *. lra.
Qed.
Lemma dlt_irrefl a : dlt a a = false.
Proof.
  destruct (is_nan a) eqn:E; [destruct a; try discriminate; reflexivity|]. rewrite dlt_val by exact E. apply Rlt_bool_niff. lra.
Qed.
Lemma dlt_dle a b : dlt a b = true -> dle a b = true.
Proof.
  intros H. destruct (dlt_numbers _ _ H). rewrite dle_dlt by assumption. apply negb_true_iff. rewrite dlt_val in * by assumption.
  rewrite Rlt_bool_iff in *. rewrite Rlt_bool_niff. lra.
Qed.
Lemma nan_is x : is_nan x = true -> x = nan. Proof. destruct x; try discriminate; reflexivity. Qed.

(** * NaN goes through every operation *)
Lemma dadd_nan_l b : dadd nan b = nan. Proof. destruct b; reflexivity. Qed.
Lemma dadd_nan_r a : dadd a nan = nan. Proof. destruct a; reflexivity. Qed.
Lemma dsub_nan_l b : dsub nan b = nan. Proof. destruct b; reflexivity. Qed.
Lemma dsub_nan_r a : dsub a nan = nan. Proof. destruct a; reflexivity. Qed.
Lemma dmul_nan_l b : dmul nan b = nan. Proof. destruct b; reflexivity. Qed.
Lemma ddiv_nan_l b : ddiv nan b = nan. Proof. destruct b; reflexivity. Qed.
Lemma dsqrt_nan : dsqrt nan = nan. Proof. reflexivity. Qed.
Lemma dadd_up_nan s : forall v i, In i (entries_of s) -> nth i v zero = nan -> dadd_up s v = nan.
Proof.
  induction s as [j|l IHl r IHr]; cbn [entries_of dadd_up]; intros v i Hi E.
  - destruct Hi as [->|[]]. exact E.
  - apply in_app_or in Hi. destruct Hi as [Hi|Hi]; [rewrite (IHl v i Hi E); apply dadd_nan_l|rewrite (IHr v i Hi E); apply dadd_nan_r].
Qed.
Lemma dsum_nan ord v : fair ord -> has_nan v -> dsum ord v = nan.
Proof.
  intros HO H. destruct (In_nth _ _ zero H) as (i & Hi & E). destruct v as [|a v]; [destruct H|]. cbn [dsum].
  apply dadd_up_nan with (i := i); [|exact E]. apply (Permutation_in _ (Permutation_sym (HO (length (a :: v)) ltac:(simpl; lia)))). apply in_seq. lia.
Qed.
Lemma diff_nan_l x y : length x = length y -> has_nan x -> has_nan (KDTree_Model.diff dsub x y).
Proof.
  unfold has_nan, KDTree_Model.diff. revert y. induction x as [|a x IH]; intros [|b y] HL H; try discriminate; [destruct H|]. cbn. destruct H as [->|H].
  - left. apply dsub_nan_l.
  - right. apply IH; [now injection HL|exact H].
Qed.
Lemma diff_nan_r x y : length x = length y -> has_nan y -> has_nan (KDTree_Model.diff dsub x y).
Proof.
  unfold has_nan, KDTree_Model.diff. revert y. induction x as [|a x IH]; intros [|b y] HL H; try discriminate; [destruct H|]. cbn. destruct H as [->|H].
  - left. apply dsub_nan_r.
  - right. apply IH; [now injection HL|exact H].
Qed.
Lemma map_nan (f : double -> double) v : f nan = nan -> has_nan v -> has_nan (map f v).
Proof. unfold has_nan. intros E H. rewrite <- E. now apply in_map. Qed.
Lemma dsq_norm_nan ord v : fair ord -> has_nan v -> dsq_norm ord v = nan.
Proof. intros HO H. unfold dsq_norm. apply dsum_nan; [exact HO|]. now apply (map_nan (fun a => dmul a a)). Qed.
Lemma dnorm_nan ord v : fair ord -> has_nan v -> dnorm ord v = nan.
Proof. intros HO H. unfold dnorm. now rewrite dsq_norm_nan. Qed.
Lemma dnorm1_nan ord v : fair ord -> has_nan v -> dnorm1 ord v = nan.
Proof. intros HO H. unfold dnorm1. apply dsum_nan; [exact HO|]. now apply map_nan. Qed.

(** * Positive numbers, and infinities *)
Definition positive (x : double) : Prop := is_number x /\ Bsign x = false.
Lemma overflow_NE s : binary_overflow 53 1024 mode_NE s = SpecFloat.S754_infinity s.
Proof. destruct s; reflexivity. Qed.
Lemma dmul_positive a : is_number a -> positive (dmul a a).
Proof.
  intros Ha. destruct a as [s|s| |s m e H]; try discriminate; [destruct s; split; reflexivity|destruct s; split; reflexivity|].
  set (x := B754_finite s m e H) in *. pose proof (Bmult_correct 53 1024 prec_pos prec_small mode_NE x x) as C. unfold dmul.
  destruct (Rlt_bool _ _) in C.
  - destruct C as (_ & C2 & C3). cbn [is_finite x andb] in C2.
    assert (N : is_nan (@Bmult 53 1024 prec_pos prec_small mode_NE x x) = false) by (destruct (@Bmult 53 1024 prec_pos prec_small mode_NE x x); try discriminate; reflexivity).
    split; [exact N|]. rewrite (C3 N). apply xorb_nilpotent.
  - rewrite overflow_NE in C. destruct (@Bmult 53 1024 prec_pos prec_small mode_NE x x); try discriminate. injection C as ->. split; [reflexivity|]. cbn [Bsign]. apply xorb_nilpotent.
Qed.
Lemma dabs_positive a : is_number a -> positive (dabs a).
Proof. intros Ha. destruct a; try discriminate; split; reflexivity. Qed.
Lemma dadd_positive a b : positive a -> positive b -> positive (dadd a b).
Proof.
  intros (Na & Sa) (Nb & Sb).
  assert (F : forall x, is_number x -> Bsign x = false -> x = inf \/ finite x)
    by (intros [s|s| |s m e H] Hx Hs; [right; reflexivity|left; cbn in Hs; subst; reflexivity|discriminate|right; reflexivity]).
  destruct (F a Na Sa) as [->|Fa].
  - destruct b as [s|s| |s m e H]; cbn in Sb; try discriminate Nb; subst; split; reflexivity.
  - destruct (F b Nb Sb) as [->|Fb]; [destruct a as [s|s| |s m e H]; cbn in Sa; try discriminate Na; subst; split; reflexivity|].
    pose proof (Bplus_correct 53 1024 prec_pos prec_small mode_NE a b Fa Fb) as C. fold dadd in C. fold (dadd a b) in C.
    destruct (Rlt_bool _ _) in C.
    + destruct C as (C1 & C2 & C3). split; [unfold is_number; destruct (dadd a b); try discriminate; reflexivity|]. rewrite C3.
      assert (P : forall x, finite x -> Bsign x = false -> 0 <= B2R x).
      { intros [s|s| |s m e H] Hx Hs; try discriminate; [cbn; lra|]. cbn in Hs. subst. apply F2R_ge_0. cbn. lia. }
      pose proof (P a Fa Sa). pose proof (P b Fb Sb). rewrite Sa, Sb. destruct (Rcompare_spec (B2R a + B2R b) 0); try reflexivity. lra.
    + destruct C as (C & _). rewrite overflow_NE in C. destruct (dadd a b); try discriminate. injection C as ->. split; [reflexivity|exact Sa].
Qed.
Lemma dadd_inf_l b : positive b -> dadd inf b = inf.
Proof. intros (N & S). destruct b as [s|s| |s m e H]; cbn in S; try discriminate; subst; reflexivity. Qed.
Lemma dadd_inf_r a : positive a -> dadd a inf = inf.
Proof. intros (N & S). destruct a as [s|s| |s m e H]; cbn in S; try discriminate; subst; reflexivity. Qed.
Lemma dadd_up_positive s : forall v, Forall positive v -> positive (dadd_up s v).
Proof.
  induction s as [j|l IHl r IHr]; cbn [dadd_up]; intros v H; [|apply dadd_positive; auto].
  destruct (nth_in_or_default j v zero) as [Hin|E]; [eapply Forall_forall; eauto|rewrite E; split; reflexivity].
Qed.
Lemma dadd_up_inf s : forall v i, Forall positive v -> In i (entries_of s) -> nth i v zero = inf -> dadd_up s v = inf.
Proof.
  induction s as [j|l IHl r IHr]; cbn [entries_of dadd_up]; intros v i HP Hi E.
  - destruct Hi as [->|[]]. exact E.
  - apply in_app_or in Hi. destruct Hi as [Hi|Hi]; [rewrite (IHl v i HP Hi E); apply dadd_inf_l|rewrite (IHr v i HP Hi E); apply dadd_inf_r]; now apply dadd_up_positive.
Qed.
Lemma dsum_inf ord v : fair ord -> Forall positive v -> In inf v -> dsum ord v = inf.
Proof.
  intros HO HP H. destruct (In_nth _ _ zero H) as (i & Hi & E). destruct v as [|a v]; [destruct H|]. cbn [dsum].
  apply dadd_up_inf with (i := i); [exact HP| |exact E]. apply (Permutation_in _ (Permutation_sym (HO (length (a :: v)) ltac:(simpl; lia)))). apply in_seq. lia.
Qed.

(** * k-means: prediction *)
Definition ddist (ord : nat -> order) (x c : list double) : double := dnorm ord (KDTree_Model.diff dsub x c).
Section Means.
  Variable ord : nat -> order.
  Lemma dclosest_inv K C x j : dclosest ord K C x = Ok j ->
    (forall i, (i < K)%nat -> exists c, nth_error C i = Some c /\ length x = length c) /\
    ((j = 0%nat /\ forall i c, (i < K)%nat -> nth_error C i = Some c -> dlt (ddist ord x c) inf = false) \/
     (exists cj, (j < K)%nat /\ nth_error C j = Some cj /\ dlt (ddist ord x cj) inf = true /\
        forall i c, (i < K)%nat -> nth_error C i = Some c -> dlt (ddist ord x c) inf = true ->
          dle (ddist ord x cj) (ddist ord x c) = true /\ ((i < j)%nat -> dlt (ddist ord x cj) (ddist ord x c) = true))).
  Proof.
    unfold dclosest. destruct (foldM (dclosest_step ord C x) (seq 0 K) (inf, 0%nat)) as [(m, j')| | |] eqn:E; try discriminate. cbn [bind snd]. intros Ej. injection Ej as ->.
    assert (G : (forall i, (i < K)%nat -> exists c, nth_error C i = Some c /\ length x = length c) /\
      ((m = inf /\ j = 0%nat /\ forall i c, (i < K)%nat -> nth_error C i = Some c -> dlt (ddist ord x c) inf = false) \/
       (exists cj, (j < K)%nat /\ nth_error C j = Some cj /\ m = ddist ord x cj /\ dlt m inf = true /\
        forall i c, (i < K)%nat -> nth_error C i = Some c -> dlt (ddist ord x c) inf = true ->
          dle m (ddist ord x c) = true /\ ((i < j)%nat -> dlt m (ddist ord x c) = true)))).
    2:{ destruct G as (G1 & [(_ & -> & G)|(cj & H1 & H2 & -> & H3 & H4)]); split; auto. right. exists cj. auto. }
    revert m j E. induction K as [|K IH]; intros m j E.
    - cbn in E. injection E as <- <-. split; [intros; lia|]. left. repeat split; intros; lia.
    - rewrite seq_S, foldM_app in E. cbn [plus] in E. destruct (foldM (dclosest_step ord C x) (seq 0 K) (inf, 0%nat)) as [(m0, j0)| | |] eqn:E0; try discriminate.
      cbn [bind foldM] in E. destruct (IH m0 j0 eq_refl) as (I1 & I2). clear IH E0.
      unfold dclosest_step in E. unfold vget in E. destruct (nth_error C K) as [c|] eqn:Ec; [|discriminate]. cbn [bind] in E. unfold drow_sub in E.
      destruct (Nat.eqb_spec (length x) (length c)) as [HL|]; [|discriminate]. cbn [bind fst snd] in E.
      change (dnorm ord (KDTree_Model.diff dsub x c)) with (ddist ord x c) in E. set (d := ddist ord x c) in *.
      split. { intros i Hi. destruct (Nat.eq_dec i K) as [->|]; [eauto|apply I1; lia]. }
      destruct (dlt d m0) eqn:Ed; cbn [bind] in E; injection E as <- <-.
      + assert (Hd : dlt d inf = true).
        { destruct I2 as [(-> & _)|(cj & _ & _ & -> & H & _)]; [exact Ed|eapply dlt_trans; eauto]. }
        right. exists c. split; [lia|]. split; [exact Ec|]. split; [reflexivity|]. split; [exact Hd|].
        intros i c' Hi Hc' Hf. destruct (Nat.eq_dec i K) as [->|N].
        * rewrite Ec in Hc'. injection Hc' as <-. fold d. split; [|lia]. rewrite dle_dlt by apply (dlt_numbers _ _ Hd). now rewrite dlt_irrefl.
        * assert (Hlt : dlt d (ddist ord x c') = true).
          { destruct I2 as [(-> & _ & I2)|(cj & _ & _ & -> & H & I2)]; [rewrite (I2 i c') in Hf by (assumption || lia); discriminate|].
            destruct (I2 i c' ltac:(lia) Hc' Hf) as (Hle & _). apply (dlt_le_trans _ _ _ Ed Hle). apply (dlt_numbers _ _ Hf). }
          split; [now apply dlt_dle|auto].
      + destruct I2 as [(-> & -> & I2)|(cj & H1 & H2 & -> & H3 & I2)].
        * left. repeat split. intros i c' Hi Hc'. destruct (Nat.eq_dec i K) as [->|]; [rewrite Ec in Hc'; injection Hc' as <-; exact Ed|apply (I2 i); [lia|exact Hc']].
        * right. exists cj. split; [lia|]. split; [exact H2|]. split; [reflexivity|]. split; [exact H3|]. intros i c' Hi Hc' Hf.
          destruct (Nat.eq_dec i K) as [->|]; [|apply I2; [lia|exact Hc'|exact Hf]]. rewrite Ec in Hc'. injection Hc' as <-. fold d in Hf |- *. split; [|lia].
          rewrite dle_dlt; [now rewrite Ed|apply (dlt_numbers _ _ H3)|apply (dlt_numbers _ _ Hf)].
  Qed.
  Lemma dclosest_nan K C x j : fair ord -> has_nan x -> dclosest ord K C x = Ok j -> j = 0%nat.
  Proof.
    intros HO Hx E. destruct (dclosest_inv _ _ _ _ E) as (H1 & [(-> & _)|(cj & Hj & Hc & Hd & _)]); [reflexivity|].
    destruct (H1 j Hj) as (c & Hc' & HL). rewrite Hc in Hc'. injection Hc' as <-. unfold ddist in Hd. rewrite dnorm_nan in Hd by (try assumption; now apply diff_nan_l).
    now rewrite dlt_nan_l in Hd.
  Qed.
End Means.

(** * k-means: a sample with a NaN *)
Section NanSample.
  Variable ord : nat -> order.
  Hypothesis HO : fair ord.
  Variables (nf K : nat) (X : list (list double)) (i c : nat) (x : list double).
  Hypothesis Hx : nth_error X i = Some x.
  Hypothesis Hc : (c < nf)%nat.
  Hypothesis Hn : nth c x zero = nan.
  Lemma x_nan : has_nan x.
  Proof. unfold has_nan. rewrite <- Hn. apply nth_In. destruct (Nat.lt_ge_cases c (length x)) as [H|H]; [exact H|]. rewrite nth_overflow in Hn by exact H. discriminate. Qed.
  Lemma dassign_nan C m : dassign ord K C X = Ok m -> om_sorted Nat.compare m /\ exists js, om_find Nat.compare 0%nat m = Some js /\ In i js.
  Proof.
    unfold dassign.
    assert (A1 : forall a b, Nat.compare a b = Eq <-> a = b) by (intros; apply Nat.compare_eq_iff).
    assert (A2 : forall a b, Nat.compare a b = CompOpp (Nat.compare b a)) by (intros; apply Nat.compare_antisym).
    assert (A3 : forall a b c, Nat.compare a b = Lt -> Nat.compare b c = Lt -> Nat.compare a c = Lt) by (intros a b d; rewrite !Nat.compare_lt_iff; lia).
    assert (G : forall n m, foldM (fun m i => let! x := vget X i in let! k := dclosest ord K C x in Ok (push_sample m k i)) (seq 0 n) [] = Ok m ->
      om_sorted Nat.compare m /\ ((i < n)%nat -> exists js, om_find Nat.compare 0%nat m = Some js /\ In i js)).
    { induction n as [|n IH]; intros m0 E; [cbn in E; injection E as <-; split; [constructor|lia]|].
      rewrite seq_S, foldM_app in E. cbn [plus] in E. destruct (foldM _ (seq 0 n) []) as [m1| | |]; try discriminate. destruct (IH m1 eq_refl) as (S1 & F1). cbn [bind foldM] in E.
      destruct (vget X n) as [z| | |] eqn:Ez; try discriminate. cbn [bind] in E. destruct (dclosest ord K C z) as [k| | |] eqn:Ek; try discriminate. cbn [bind] in E.
      injection E as <-. unfold push_sample. split; [now apply om_set_sorted|]. intros Hi. rewrite (om_set_find A1 A2) by assumption.
      destruct (Nat.eq_dec i n) as [->|N].
      - unfold vget in Ez. rewrite Hx in Ez. injection Ez as <-. rewrite (dclosest_nan ord K C x k HO x_nan Ek). cbn [Nat.compare]. eexists. split; [reflexivity|]. apply in_or_app. right. now left.
      - destruct (F1 ltac:(lia)) as (js & Ej & Hj). destruct (Nat.compare 0 k) eqn:Ck; [|eauto|eauto]. apply A1 in Ck. subst k. rewrite Ej. eexists. split; [reflexivity|]. apply in_or_app. now left. }
    intros E. destruct (G _ _ E) as (S & F). split; [exact S|]. apply F. apply nth_error_Some. congruence.
  Qed.
  Definition spoilt (C : list (list double)) : Prop := exists r, nth_error C 0 = Some r /\ nth c r zero = nan.
  Lemma mean_nan rows : In x rows -> nth c (dcol_mean ord nf rows) zero = nan.
  Proof.
    intros H. unfold dcol_mean. rewrite (nth_indep _ zero (ddiv (dsum ord (map (fun r => nth 0 r zero) rows)) (dnat (length rows)))) by (rewrite map_length, seq_length; exact Hc).
    rewrite (map_nth (fun j => ddiv (dsum ord (map (fun r => nth j r zero) rows)) (dnat (length rows)))), seq_nth by exact Hc. cbn [plus].
    rewrite dsum_nan; [apply ddiv_nan_l|exact HO|]. unfold has_nan. rewrite <- Hn. apply (in_map (fun r => nth c r zero)). exact H.
  Qed.
  Lemma nth_error_set0 {A} (l : list A) k (v : A) : nth_error (set_nth l (S k) v) 0 = nth_error l 0.
  Proof. destruct l; reflexivity. Qed.
  Lemma dmove_nan asserts : forall m C1 eps C2 eps2, foldM (dmove_one ord asserts nf X) m (C1, eps) = Ok (C2, eps2) -> om_sorted Nat.compare m ->
    (exists js, In (0%nat, js) m /\ In i js) \/ (spoilt C1 /\ eps = nan /\ forall k js, In (k, js) m -> k <> 0%nat) -> spoilt C2 /\ eps2 = nan.
  Proof.
    induction m as [|[k is] m IH]; intros C1 eps C2 eps2 E Hs H.
    - cbn in E. injection E as <- <-. destruct H as [(js & [] & _)|(H1 & H2 & _)]. now split.
    - cbn [foldM] in E. destruct (dmove_one ord asserts nf X (C1, eps) (k, is)) as [(C', e')| | |] eqn:E1; try discriminate. cbn [bind] in E.
      inversion Hs as [|? ? Hs' Hlt]; subst.
      assert (Hnk : forall k' is', In (k', is') m -> (k < k')%nat).
      { intros k' is' Hin. rewrite Forall_forall in Hlt. specialize (Hlt _ Hin). cbn [fst] in Hlt. now apply Nat.compare_lt_iff in Hlt. }
      apply (IH _ _ _ _ E Hs'). unfold dmove_one in E1. cbn [fst snd] in E1.
      destruct (mapM (vget X) is) as [cl| | |] eqn:Ecl; try discriminate. cbn [bind] in E1. destruct (vget C1 k) as [old| | |] eqn:Eo; try discriminate. cbn [bind] in E1.
      unfold drow_sub in E1. destruct (Nat.eqb_spec (length (dcol_mean ord nf cl)) (length old)) as [HL|]; [|discriminate]. cbn [bind] in E1.
      destruct (asserts && negb (nf =? 1)%nat); [discriminate|]. injection E1 as <- <-.
      destruct H as [(js & [Hj|Hj] & Hij)|(H1 & -> & H3)].
      + injection Hj as -> ->. right. assert (Hin : In x cl).
        { clear - Ecl Hij Hx. revert cl Ecl. induction js as [|j js IHj]; intros cl E; [destruct Hij|]. cbn [mapM] in E.
          destruct (vget X j) as [z| | |] eqn:Ez; try discriminate. cbn [bind] in E. destruct (mapM (vget X) js) as [zs| | |]; try discriminate. injection E as <-.
          destruct Hij as [->|Hij]; [left; unfold vget in Ez; rewrite Hx in Ez; now injection Ez|right; now apply IHj]. }
        pose proof (mean_nan cl Hin) as Hm. split; [|split].
        * destruct C1 as [|r0 C1]; [discriminate|]. exists (dcol_mean ord nf cl). now split.
        * rewrite dnorm_nan; [apply dadd_nan_r|exact HO|]. apply diff_nan_l; [exact HL|]. unfold has_nan. rewrite <- Hm. apply nth_In. unfold dcol_mean. now rewrite map_length, seq_length.
        * intros k' js' Hin'. specialize (Hnk _ _ Hin'). lia.
      + left. eauto.
      + right. destruct k as [|k]; [now destruct (H3 0%nat is (or_introl eq_refl))|]. split; [|split].
        * destruct H1 as (r & Hr & Er). exists r. now rewrite nth_error_set0.
        * apply dadd_nan_l.
        * intros k' js' Hin'. specialize (Hnk _ _ Hin'). lia.
  Qed.
  Lemma diteration_nan asserts C C' eps : diteration ord asserts nf K X C = Ok (C', eps) -> spoilt C' /\ eps = nan.
  Proof.
    unfold diteration. destruct (dassign ord K C X) as [m| | |] eqn:Em; try discriminate. cbn [bind]. intros E. destruct (dassign_nan C m Em) as (Hs & js & Ej & Hi).
    apply (dmove_nan asserts m _ _ _ _ E Hs). left. exists js. split; [|exact Hi]. apply om_find_In in Ej; [exact Ej|]. intros; apply Nat.compare_eq_iff.
  Qed.
  Lemma dlloyd_nan asserts tol : forall n C C', dlloyd ord asserts nf K tol X (S n) C = Ok C' -> spoilt C'.
  Proof.
    induction n as [|n IH]; intros C C'; cbn [dlloyd]; destruct (diteration ord asserts nf K X C) as [(C1, eps)| | |] eqn:E; try discriminate; cbn [bind];
      destruct (diteration_nan asserts C C1 eps E) as (S1 & ->); rewrite dlt_nan_l; [intros E'; now injection E' as <-|apply IH].
  Qed.
  (** Every potential of k-means++ is NaN. *)
  Lemma dsq_dists_nan y ds : dsq_dists ord X y = Ok ds -> length ds = length X /\ nth_error ds i = Some nan.
  Proof.
    unfold dsq_dists. clear Hc. revert i ds Hx. induction X as [|z Z IH]; intros i0 ds Hi E; [destruct i0; discriminate|]. cbn [mapM] in E.
    unfold drow_sub in E at 1. destruct (Nat.eqb_spec (length z) (length y)) as [HL|]; [|discriminate]. cbn [bind] in E.
    destruct (mapM _ Z) as [zs| | |] eqn:Ez; try discriminate. cbn [bind] in E. injection E as <-. destruct i0 as [|i0].
    - cbn in Hi. injection Hi as ->. assert (HLz : length zs = length Z) by (clear - Ez; revert zs Ez; induction Z as [|z Z IH]; intros zs E; cbn [mapM] in E;
        [now injection E as <-|destruct (let! d := drow_sub z y in Ok (dsq_norm ord d)); try discriminate; cbn [bind] in E; destruct (mapM _ Z); try discriminate; injection E as <-; cbn; now rewrite IH]).
      split; [cbn; now rewrite HLz|]. cbn. f_equal. apply dsq_norm_nan; [exact HO|]. apply diff_nan_l; [exact HL|exact x_nan].
    - destruct (IH i0 zs Hi eq_refl) as (H1 & H2). split; [cbn; now rewrite H1|exact H2].
  Qed.
  Lemma dlower_bound_Ok l v : forall fuel first len, (len <= fuel)%nat -> (first + len <= length l)%nat -> exists k, dlower_bound_loop fuel l v first len = Ok k /\ (k <= length l)%nat.
  Proof.
    clear Hc Hn Hx. induction fuel as [|fuel IH]; intros first len H1 H2; [assert (len = 0)%nat by lia; subst; exists first; split; [reflexivity|lia]|].
    destruct len as [|len]; [exists first; split; [reflexivity|lia]|]. cbn [dlower_bound_loop].
    assert (Hh : (Nat.div2 (S len) < S len)%nat) by (apply Nat.lt_div2; lia). set (h := Nat.div2 (S len)) in *.
    unfold vget. destruct (nth_error l (first + h)) as [m|] eqn:Em; [|apply nth_error_None in Em; lia]. cbn [bind].
    destruct (dlt m v); apply IH; lia.
  Qed.
  Lemma dcandidate_Ok cd v : (0 < length cd)%nat -> exists k, dcandidate_index cd v = Ok k /\ (k < length cd)%nat.
  Proof.
    clear Hc Hn Hx. intros H. unfold dcandidate_index, dlower_bound. assert (HL : length (dcumsum cd) = length cd).
    { assert (G : forall l s, length (dcumsum_from s l) = length l) by (induction l; intros; cbn; [reflexivity|now rewrite IHl]). destruct cd; [reflexivity|]. cbn. now rewrite G. }
    destruct (dlower_bound_Ok (dcumsum cd) v (length (dcumsum cd)) 0 (length (dcumsum cd)) (le_n _) (le_n _)) as (k & -> & Hk). cbn [bind].
    eexists. split; [reflexivity|]. destruct (Nat.ltb_spec (length cd - 1) k); lia.
  Qed.
  Lemma dsq_dists_Ok y : table nf X -> length y = nf -> exists ds, dsq_dists ord X y = Ok ds.
  Proof.
    clear Hc Hn Hx. intros HT Hy. unfold dsq_dists. induction HT as [|r X' Hr HT IH]; [exists []; reflexivity|]. cbn [mapM]. unfold drow_sub at 1.
    rewrite Hr, Hy, Nat.eqb_refl. cbn [bind]. destruct IH as (ds & ->). cbn [bind]. eauto.
  Qed.
  Lemma dtrials_nan cd pot : table nf X -> length cd = length X -> nth_error cd i = Some nan -> forall rs s, foldM (dtrial ord X cd pot) rs s = Ok s.
  Proof.
    intros HT HL Hcd. assert (Hpos : (0 < length cd)%nat) by (rewrite HL; assert (i < length X)%nat by (apply nth_error_Some; congruence); lia).
    induction rs as [|r rs IH]; intros s; [auto|]. cbn [foldM]. unfold dtrial at 1.
    destruct (dcandidate_Ok cd (dmul r pot) Hpos) as (k & -> & Hk). cbn [bind]. rewrite HL in Hk. unfold vget. destruct (nth_error X k) as [z|] eqn:Ez; [|apply nth_error_None in Ez; lia]. cbn [bind].
    destruct (dsq_dists_Ok z HT) as (ds & E); [unfold table in HT; rewrite Forall_forall in HT; apply HT; eapply nth_error_In, Ez|]. rewrite E. cbn [bind]. destruct (dsq_dists_nan z ds E) as (_ & Hd).
    rewrite dsum_nan; [rewrite dlt_nan_l; now apply IH|exact HO|].
    unfold has_nan. apply nth_error_In with (n := i). rewrite nth_error_map.
    assert (Ec : nth_error (combine cd ds) i = Some (nan, nan)).
    { clear - Hcd Hd. revert i ds Hcd Hd. induction cd as [|a cd IH]; intros [|i] [|b ds] H1 H2; cbn in *; try discriminate; [congruence|now apply IH]. }
    rewrite Ec. reflexivity.
  Qed.
  Lemma dplusplus_nan first draws : table nf X -> (first < length X)%nat -> draws <> [] -> dplusplus ord X first draws = UB.
  Proof.
    intros HT Hf Hd. unfold dplusplus. unfold vget at 1. destruct (nth_error X first) as [c0|] eqn:E0; [|apply nth_error_None in E0; lia]. cbn [bind].
    destruct (dsq_dists_Ok c0 HT) as (ds & Ed); [unfold table in HT; rewrite Forall_forall in HT; apply HT; eapply nth_error_In, E0|]. rewrite Ed. cbn [bind].
    destruct (dsq_dists_nan c0 ds Ed) as (HL & Hn'). destruct draws as [|rs draws]; [easy|]. cbn [dmore_centres]. rewrite dtrials_nan by assumption. reflexivity.
  Qed.
  Lemma dlloyd_nan_tol asserts tol tol' : forall n C, dlloyd ord asserts nf K tol X n C = dlloyd ord asserts nf K tol' X n C.
  Proof.
    induction n as [|n IH]; intros C; [reflexivity|]. cbn [dlloyd]. destruct (diteration ord asserts nf K X C) as [(C1, eps)| | |] eqn:E; try reflexivity. cbn [bind].
    destruct (diteration_nan asserts C C1 eps E) as (_ & ->). rewrite !dlt_nan_l. apply IH.
  Qed.
End NanSample.

(** * Trees *)
Definition nan_to_inf (a : double) : double := if is_nan a then inf else a.
Lemma dle_inf v : v <> inf -> dle inf v = false.
Proof. destruct v as [s|s| |s m e H]; try destruct s; try reflexivity. intros N. now destruct N. Qed.
Lemma dwalk_nan {I V} (t : dtree double I V) x : no_inf_split t -> dwalk t x = dwalk t (map nan_to_inf x).
Proof.
  induction t as [|i l IHl r IHr]; [reflexivity|]. intros (H & Hl & Hr). cbn [dwalk]. destruct l as [|i' l' r']; [reflexivity|].
  destruct (n_split i) as [((f, v), g)|]; [|reflexivity]. unfold vget. rewrite nth_error_map. destruct (nth_error x f) as [a|]; [|reflexivity]. cbn [bind option_map].
  assert (E : dle (nan_to_inf a) v = dle a v).
  { unfold nan_to_inf. destruct (is_nan a) eqn:Ea; [|reflexivity]. apply nan_is in Ea. subst a. now rewrite dle_nan_l, dle_inf. }
  rewrite E. destruct (dle a v); [now apply IHl|now apply IHr].
Qed.
Lemma dwalk_numbers {I V} (t : dtree double I V) x : Forall is_number x -> number_splits t -> dwalk t x = walk dlt t x.
Proof.
  intros Hx. induction t as [|i l IHl r IHr]; [reflexivity|]. intros (H & Hl & Hr). cbn [dwalk walk]. destruct l as [|i' l' r']; [reflexivity|].
  destruct (n_split i) as [((f, v), g)|]; [|reflexivity]. destruct (vget x f) as [a| | |] eqn:Ea; try reflexivity. cbn [bind].
  unfold leb. rewrite dle_dlt; [destruct (dlt v a); cbn [negb]; [now apply IHr|now apply IHl]| |exact H].
  rewrite Forall_forall in Hx. apply Hx. unfold vget in Ea. destruct (nth_error x f) eqn:E; [|discriminate]. injection Ea as ->. eapply nth_error_In, E.
Qed.

(** * The root of a KD-tree is a branch whose boxes have one bound per feature, taken from the data *)
Section Root.
  Variable P : double -> Prop.
  Variable nf : nat.
  Definition box (b : list double * list double) : Prop := length (fst b) = nf /\ length (snd b) = nf /\ Forall P (fst b) /\ Forall P (snd b).
  Definition rooted (nodes : list (node double)) : Prop :=
    exists root rest lr rr, nodes = root :: rest /\ nd_leaf root = None /\ nd_lrect root = Some lr /\ nd_rrect root = Some rr /\ box lr /\ box rr.
  Lemma rooted_vset nodes i parent b ptr nodes' : nth_error nodes i = Some parent -> rooted nodes -> vset nodes i (set_child parent b ptr) = Ok nodes' -> rooted nodes'.
  Proof.
    intros Hp (root & rest & lr & rr & -> & H1 & H2 & H3 & H4). unfold vset. destruct (Nat.ltb_spec i (length (root :: rest))); [|discriminate].
    intros E. injection E as <-. destruct i as [|i]; cbn [firstn app].
    - cbn in Hp. injection Hp as <-. exists (set_child root b ptr), (skipn 1 (root :: rest)), lr, rr. split; [reflexivity|]. unfold set_child. destruct b; auto.
    - exists root, (firstn i rest ++ set_child parent b ptr :: skipn (S i) rest)%list, lr, rr. auto.
  Qed.
  Lemma rooted_app nodes l : rooted nodes -> rooted (nodes ++ l)%list.
  Proof. intros (root & rest & lr & rr & -> & H). exists root, (rest ++ l)%list, lr, rr. now split. Qed.
  Lemma rooted_loop leaf_size : forall fuel stk nodes nodes', rooted nodes -> build_loop dlt dsub dabs fuel leaf_size nf stk nodes = Ok nodes' -> rooted nodes'.
  Proof.
    induction fuel as [|fuel IH]; intros stk nodes nodes' HB; cbn [build_loop]; [discriminate|]. destruct stk as [|it stk]; [intros E; now injection E as <-|].
    destruct (nth_error nodes (it_parent it)) as [p|] eqn:Ep; [|discriminate].
    destruct (vset nodes (it_parent it) _) as [t1| | |] eqn:E1; try discriminate. cbn [bind]. pose proof (rooted_vset _ _ _ _ _ _ Ep HB E1) as HB1.
    destruct (length (it_data it) <=? leaf_size)%nat; [intros E; eapply IH; [|exact E]; now apply rooted_app|].
    destruct (split_rows _ _ _ _ _ _) as [(((axis, val), d'), i')| | |]; try discriminate. cbn [bind].
    destruct (if it_left it then nd_lrect p else nd_rrect p) as [(lo, hi)|]; [|discriminate].
    destruct (vset hi axis val); try discriminate. cbn [bind]. destruct (vset lo axis val); try discriminate. cbn [bind].
    intros E. eapply IH; [|exact E]. now apply rooted_app.
  Qed.
  Lemma vget_P {A} (Q : A -> Prop) v i a : Forall Q v -> vget v i = Ok a -> Q a.
  Proof. rewrite Forall_forall. intros H E. unfold vget in E. destruct (nth_error v i) eqn:Ei; [|discriminate]. injection E as <-. apply H. eapply nth_error_In, Ei. Qed.
  Lemma mapM_P {A B} (Q : B -> Prop) (f : A -> outcome B) : forall l v, (forall a b, In a l -> f a = Ok b -> Q b) -> mapM f l = Ok v -> Forall Q v.
  Proof.
    induction l as [|a l IH]; intros v H E; cbn [mapM] in E; [injection E as <-; constructor|]. destruct (f a) as [b| | |] eqn:Eb; try discriminate. cbn [bind] in E.
    destruct (mapM f l) as [bs| | |]; try discriminate. injection E as <-. constructor; [eapply H; [now left|exact Eb]|]. apply (IH bs); [|reflexivity]. intros; eapply H; [right; eassumption|assumption].
  Qed.
  Lemma vset_P {A} (Q : A -> Prop) v i a v' : Forall Q v -> Q a -> vset v i a = Ok v' -> length v' = length v /\ Forall Q v'.
  Proof.
    unfold vset. destruct (Nat.ltb_spec i (length v)); [|discriminate]. intros H1 H2 E. apply (f_equal (fun o => match o with Ok w => w | _ => v end)) in E. cbn beta iota in E. rewrite <- E.
    split; [rewrite app_length, firstn_length; change (length (a :: skipn (S i) v)) with (S (length (skipn (S i) v))); rewrite skipn_length; lia|].
    apply Forall_app. split; [|constructor; [exact H2|]]; apply Forall_forall; intros z Hz; rewrite Forall_forall in H1; apply H1.
    - rewrite <- (firstn_skipn i v). apply in_or_app. now left.
    - rewrite <- (firstn_skipn (S i) v). apply in_or_app. now right.
  Qed.
  Lemma mapM_len {A B} (f : A -> outcome B) : forall l r, mapM f l = Ok r -> length r = length l.
  Proof.
    induction l as [|a l IH]; intros r E; cbn [mapM] in E; [now injection E as <-|]. destruct (f a); try discriminate. cbn [bind] in E.
    destruct (mapM f l) as [bs| | |]; try discriminate. injection E as <-. cbn. f_equal. now apply IH.
  Qed.
  Lemma fold_P (f : double -> double -> double) : (forall a b, f a b = a \/ f a b = b) -> forall c a, P a -> Forall P c -> P (fold_left f c a).
  Proof. intros Hf. induction c as [|b c IH]; intros a Ha H; [exact Ha|]. inversion H; subst. cbn [fold_left]. apply IH; [|assumption]. destruct (Hf a b) as [->| ->]; assumption. Qed.
  Lemma bounds_P (f : double -> double -> double) (g : list double -> option double) data v : (forall a b, f a b = a \/ f a b = b) ->
    (forall c, g c = match c with [] => None | x :: c' => Some (fold_left f c' x) end) -> Forall (Forall P) data -> bounds g nf data = Ok v -> length v = nf /\ Forall P v.
  Proof.
    intros Hf Hg HD E. unfold bounds in E. split; [apply mapM_len in E; now rewrite seq_length in E|]. eapply mapM_P; [|exact E]. cbn beta. intros j b _ Eb.
    destruct (col_of data j) as [c| | |] eqn:Ec; try discriminate. cbn [bind] in Eb. rewrite Hg in Eb.
    assert (Hc : Forall P c). { eapply mapM_P; [|exact Ec]. cbn beta. intros r a Hr Ea. rewrite Forall_forall in HD. eapply vget_P; [apply HD, Hr|exact Ea]. }
    destruct c as [|x c]; [discriminate|]. injection Eb as <-. inversion Hc; subst. now apply fold_P.
  Qed.
  Lemma build_rooted leaf_size data nodes : Forall (Forall P) data -> dbuild leaf_size nf data = Ok nodes -> rooted nodes.
  Proof.
    intros HD. unfold dbuild, KDTree_Model.build_tree. destruct data as [|r data]; [discriminate|]. set (X := r :: data) in *.
    destruct (bounds (col_min dlt) nf X) as [lo| | |] eqn:El; try discriminate. cbn [bind].
    destruct (bounds (col_max dlt) nf X) as [hi| | |] eqn:Eh; try discriminate. cbn [bind].
    destruct (split_rows _ _ _ _ _ _) as [(((axis, val), d'), i')| | |] eqn:Es; try discriminate. cbn [bind].
    destruct (bounds_P (tmin dlt) _ X lo ltac:(intros a b; unfold tmin; destruct (dlt b a); auto) (fun c => eq_refl) HD El) as (L1 & P1).
    destruct (bounds_P (tmax dlt) _ X hi ltac:(intros a b; unfold tmax; destruct (dlt a b); auto) (fun c => eq_refl) HD Eh) as (L2 & P2).
    assert (Hv : P val).
    { unfold split_rows in Es. destruct (find_partition_axis _ _ _ nf X) as [ax| | |]; try discriminate. cbn [bind] in Es. destruct (col_of X ax); try discriminate. cbn [bind] in Es.
      destruct (argsort_col dlt a) as [o| | |]; try discriminate. cbn [bind] in Es. destruct (select X o) as [dd| | |] eqn:Ed; try discriminate. cbn [bind] in Es.
      destruct (select (seq 0 (length X)) o); try discriminate. cbn [bind] in Es. destruct (vget dd _) as [mr| | |] eqn:Em; try discriminate. cbn [bind] in Es.
      destruct (vget mr ax) as [w| | |] eqn:Ew; try discriminate. cbn [bind] in Es. injection Es as _ <- _ _.
      assert (Hdd : Forall (Forall P) dd). { eapply mapM_P; [|exact Ed]. cbn beta. intros i b _ Eb. eapply vget_P; [exact HD|exact Eb]. }
      eapply vget_P; [|exact Ew]. eapply vget_P; [exact Hdd|exact Em]. }
    destruct (vset hi 0 val) as [hi'| | |] eqn:Eh'; try discriminate. cbn [bind]. destruct (vset lo 0 val) as [lo'| | |] eqn:El'; try discriminate. cbn [bind].
    destruct (vset_P P _ _ _ _ P2 Hv Eh') as (L3 & P3). destruct (vset_P P _ _ _ _ P1 Hv El') as (L4 & P4).
    apply rooted_loop. do 4 eexists. split; [reflexivity|]. split; [reflexivity|]. split; [reflexivity|]. split; [reflexivity|].
    unfold box. cbn [fst snd]. rewrite L3, L4, L1, L2. auto.
  Qed.
End Root.

(** * A query whose distance to both boxes of the root is not below infinity *)
Section FarQuery.
  Variable norm : list double -> double.
  Variable pick : nat -> nat.
  Lemma fold_top (l : list (double * nat)) : Forall (fun e => fst e = inf) l -> fold_left (fun m x => if dlt m (fst x) then fst x else m) l inf = inf.
  Proof. induction l as [|e l IH]; intros H; [reflexivity|]. inversion H; subst. cbn [fold_left]. rewrite H2, dlt_irrefl. auto. Qed.
  Lemma filter_all {A} (f : A -> bool) l : (forall a, In a l -> f a = true) -> filter f l = l.
  Proof. induction l as [|a l IH]; intros H; [reflexivity|]. cbn [filter]. rewrite H by (now left). f_equal. apply IH. intros; apply H; now right. Qed.
  Lemma dmax_positions_repeat k : dmax_positions (repeat (inf, 0%nat) k) = seq 0 k.
  Proof.
    unfold dmax_positions. rewrite repeat_length. apply filter_all. intros i Hi. apply in_seq in Hi.
    rewrite nth_error_repeat by lia. unfold dis_max. apply forallb_forall. intros e He. apply repeat_spec in He. subst e. cbn [fst]. now rewrite dlt_irrefl.
  Qed.
  Lemma ddrain_repeat : forall k n acc, ddrain pick k (repeat (inf, 0%nat) k, n) acc = Ok (repeat (inf, 0%nat) k ++ acc).
  Proof.
    induction k as [|k IH]; intros n acc; [reflexivity|]. cbn [ddrain]. unfold dpop. rewrite dmax_positions_repeat, seq_length.
    assert (Hi : (pick n mod S k < S k)%nat) by (apply Nat.mod_upper_bound; lia). set (i := (pick n mod S k)%nat) in *.
    assert (E1 : vget (seq 0 (S k)) i = Ok i). { unfold vget. rewrite nth_error_nth' with (d := 0%nat) by (rewrite seq_length; exact Hi). now rewrite seq_nth by exact Hi. }
    rewrite E1. cbn [bind]. assert (E2 : vget (repeat (inf, 0%nat) (S k)) i = Ok (inf, 0%nat)) by (unfold vget; now rewrite nth_error_repeat by exact Hi).
    rewrite E2. cbn [bind]. assert (E3 : firstn i (repeat (inf, 0%nat) (S k)) ++ skipn (S i) (repeat (inf, 0%nat) (S k)) = repeat (inf, 0%nat) k).
    { replace (S k) with (i + (1 + (k - i)))%nat at 1 2 by lia. rewrite !repeat_app. rewrite firstn_app, repeat_length, Nat.sub_diag. cbn [firstn]. rewrite app_nil_r.
      rewrite firstn_all2 by (rewrite repeat_length; lia). rewrite skipn_app, repeat_length. rewrite skipn_all2 by (rewrite repeat_length; lia).
      replace (S i - i)%nat with 1%nat by lia. cbn [repeat app skipn]. rewrite <- repeat_app. f_equal. lia. }
    rewrite E3, IH. f_equal. replace (repeat (inf, 0%nat) (S k)) with (repeat (inf, 0%nat) (k + 1)) by (f_equal; lia). rewrite repeat_app, <- app_assoc. reflexivity.
  Qed.
  Definition far (q : list double) (b : list double * list double) : Prop := dlt (norm (KDTree_Model.diff dsub (clamp dlt q (fst b) (snd b)) q)) inf = false.
  Lemma dquery_far P nf nodes q k : rooted P nf nodes -> length q = nf -> (1 <= k)%nat -> (forall b, box P nf b -> far q b) ->
    dquery_single norm pick nodes q k = Ok (repeat (inf, 0%nat) k).
  Proof.
    intros (root & rest & lr & rr & -> & H1 & H2 & H3 & H4 & H5) Hq Hk HF. unfold dquery_single. cbn [nth_error length dknn_loop]. rewrite H1. cbn [fst].
    destruct k as [|k]; [lia|]. cbn [repeat dtop_key fst]. rewrite fold_top by (apply Forall_forall; intros e He; apply repeat_spec in He; now subst e).
    cbn [bind]. unfold dpush_children. rewrite H2, H3. unfold dcheck. destruct H4 as (L1 & L2 & F1), H5 as (L3 & L4 & F2).
    rewrite Hq, L1, L2, L3, L4, !Nat.eqb_refl. cbn [andb]. rewrite (HF lr), (HF rr) by (unfold box; tauto). cbn [bind]. destruct rest; cbn [length dknn_loop bind];
    change ((inf, 0%nat) :: repeat (inf, 0%nat) k) with (repeat (inf, 0%nat) (S k)); rewrite ddrain_repeat, app_nil_r; reflexivity.
  Qed.
End FarQuery.
Lemma clamp_length : forall q lo hi, length lo = length q -> length hi = length q -> length (clamp dlt q lo hi) = length q.
Proof. induction q as [|a q IH]; intros [|l lo] [|h hi] H1 H2; cbn in *; try discriminate; [reflexivity|]. injection H1 as H1. injection H2 as H2. now rewrite IH. Qed.
Lemma far_nan norm nf q b : (forall v, has_nan v -> norm v = nan) -> has_nan q -> length q = nf -> box (fun _ => True) nf b -> far norm q b.
Proof.
  intros Hn Hq HL (L1 & L2 & _). unfold far. rewrite Hn; [apply dlt_nan_l|]. apply diff_nan_r; [apply clamp_length; congruence|exact Hq].
Qed.
(** An infinite coordinate, finite boxes. *)
Lemma clamp1_finite q lo hi : finite lo -> finite hi -> is_number q -> finite (clamp1 dlt q lo hi) \/ clamp1 dlt q lo hi = q /\ finite q.
Proof.
  intros H1 H2 H3. unfold clamp1. destruct q as [s|s| |s m e H]; try discriminate H3.
  - destruct (dlt hi _); [destruct (dlt hi lo); auto|]. destruct (dlt _ lo); [auto|right; split; reflexivity].
  - destruct s.
    + assert (E : dlt hi (B754_infinity true) = false) by (destruct hi as [?|?| |? ? ? ?]; try discriminate H2; reflexivity). rewrite E.
      assert (E' : dlt (B754_infinity true) lo = true) by (destruct lo as [?|?| |? ? ? ?]; try discriminate H1; reflexivity). rewrite E'. auto.
    + assert (E : dlt hi (B754_infinity false) = true) by (destruct hi as [?|?| |s0 ? ? ?]; try discriminate H2; try destruct s0; reflexivity). rewrite E. destruct (dlt hi lo); auto.
  - destruct (dlt hi _); [destruct (dlt hi lo); auto|]. destruct (dlt _ lo); [auto|right; split; reflexivity].
Qed.
Lemma dsub_number a b : finite a -> is_number b -> is_number (dsub a b).
Proof.
  intros Ha Hb. assert (F : finite b \/ exists s, b = B754_infinity s) by (destruct b as [s|s| |s m e H]; try discriminate Hb; [left; reflexivity|right; eauto|left; reflexivity]).
  destruct F as [Fb|(s & ->)]; [|destruct a as [?|?| |? ? ? ?]; try discriminate Ha; reflexivity].
  pose proof (Bminus_correct 53 1024 prec_pos prec_small mode_NE a b Ha Fb) as C. fold dsub in C. fold (dsub a b) in C. destruct (Rlt_bool _ _) in C.
  - destruct C as (_ & C & _). unfold is_number. destruct (dsub a b); try discriminate; reflexivity.
  - destruct C as (C & _). rewrite overflow_NE in C. destruct (dsub a b); try discriminate. reflexivity.
Qed.
Lemma dsub_inf a s : finite a -> dsub a (B754_infinity s) = B754_infinity (negb s).
Proof. intros Ha. destruct a as [?|?| |? ? ? ?]; try discriminate Ha; reflexivity. Qed.
Lemma clamp_diff : forall q lo hi, length lo = length q -> length hi = length q -> Forall finite lo -> Forall finite hi -> Forall is_number q ->
  Forall is_number (KDTree_Model.diff dsub (clamp dlt q lo hi) q) /\
  (forall s, In (B754_infinity s) q -> In (B754_infinity (negb s)) (KDTree_Model.diff dsub (clamp dlt q lo hi) q)).
Proof.
  induction q as [|a q IH]; intros [|l lo] [|h hi] H1 H2 F1 F2 F3; cbn [length] in *; try discriminate; [split; [constructor|intros s []]|].
  injection H1 as H1. injection H2 as H2. inversion F1; subst. inversion F2; subst. inversion F3; subst. destruct (IH lo hi H1 H2) as (I1 & I2); try assumption.
  assert (Hc : finite (clamp1 dlt a l h)) by (destruct (clamp1_finite a l h) as [H|(-> & H)]; assumption).
  unfold KDTree_Model.diff in *. cbn [clamp combine map fst snd]. split; [constructor; [now apply dsub_number|exact I1]|].
  intros s [->|Hs]; [left; now apply dsub_inf|right; now apply I2].
Qed.
Lemma dnorm_inf ord v s : fair ord -> Forall is_number v -> In (B754_infinity s) v -> dnorm ord v = inf.
Proof.
  intros HO HN H. unfold dnorm, dsq_norm. rewrite dsum_inf; [reflexivity|exact HO| |].
  - apply Forall_forall. intros z Hz. apply in_map_iff in Hz. destruct Hz as (w & <- & Hw). apply dmul_positive. rewrite Forall_forall in HN. now apply HN.
  - apply in_map_iff. exists (B754_infinity s). split; [destruct s; reflexivity|exact H].
Qed.
Lemma dnorm1_inf ord v s : fair ord -> Forall is_number v -> In (B754_infinity s) v -> dnorm1 ord v = inf.
Proof.
  intros HO HN H. unfold dnorm1. rewrite dsum_inf; [reflexivity|exact HO| |].
  - apply Forall_forall. intros z Hz. apply in_map_iff in Hz. destruct Hz as (w & <- & Hw). apply dabs_positive. rewrite Forall_forall in HN. now apply HN.
  - apply in_map_iff. exists (B754_infinity s). split; [reflexivity|exact H].
Qed.
Lemma far_inf norm nf q b s : (forall v s, Forall is_number v -> In (B754_infinity s) v -> norm v = inf) -> Forall is_number q -> In (B754_infinity s) q ->
  length q = nf -> box finite nf b -> far norm q b.
Proof.
  intros Hn Hq Hi HL (L1 & L2 & F1 & F2). unfold far. destruct (clamp_diff q (fst b) (snd b)) as (D1 & D2); try congruence; try assumption.
  rewrite (Hn _ (negb s)); [apply dlt_irrefl|exact D1|now apply D2].
Qed.

(** * The stopping rule *)
Section Stop.
  Context {S : Type}.
  Variable epoch : nat -> S -> outcome (S * double).
  Variables (tol : double) (b patience : nat).
  Hypothesis Hp : (1 <= patience)%nat.
  Lemma depochs_ok : forall iters best count s s', (count < patience)%nat -> depochs epoch tol b patience iters best count s = Ok s' ->
    exists iter s0 loss, In iter iters /\ epoch iter s0 = Ok (s', loss) /\ is_number loss.
  Proof.
    induction iters as [|it iters IH]; intros best count s s' Hc E; cbn [depochs] in E; [discriminate|].
    destruct (epoch it s) as [(s1, loss)| | |] eqn:E1; try discriminate. cbn [bind] in E.
    destruct (dlt (dsub best (dmul tol (dnat b))) loss) eqn:D.
    - destruct (Nat.leb_spec patience (Datatypes.S count)).
      + injection E as <-. exists it, s, loss. split; [now left|]. split; [exact E1|]. apply dlt_numbers in D. tauto.
      + apply IH in E; [|lia]. destruct E as (i & s0 & l & Hi & H1). exists i, s0, l. split; [now right|exact H1].
    - destruct (Nat.leb_spec patience 0); [lia|]. apply IH in E; [|lia]. destruct E as (i & s0 & l & Hi & H1). exists i, s0, l. split; [now right|exact H1].
  Qed.
  Lemma dsub_inf_l a : dsub inf a = inf \/ dsub inf a = nan.
  Proof. destruct a as [s|s| |s m e H]; try destruct s; auto. Qed.
  Lemma depochs_diverged : (forall iter s, exists s' loss, epoch iter s = Ok (s', loss) /\ (loss = nan \/ loss = inf)) ->
    forall iters s, depochs epoch tol b patience iters inf 0 s = Throw RuntimeError.
  Proof.
    intros HE. induction iters as [|it iters IH]; intros s; cbn [depochs]; [reflexivity|]. destruct (HE it s) as (s1 & loss & -> & HL). cbn [bind].
    assert (D : dlt (dsub inf (dmul tol (dnat b))) loss = false).
    { destruct HL as [->| ->]; [apply dlt_nan_r|]. destruct (dsub_inf_l (dmul tol (dnat b))) as [->| ->]; [apply dlt_irrefl|apply dlt_nan_l]. }
    assert (D' : (if dlt loss inf then loss else inf) = inf) by (destruct HL as [->| ->]; reflexivity).
    rewrite D, D'. destruct (Nat.leb_spec patience 0); [lia|]. apply IH.
  Qed.
  Lemma depochs_nan_tol : tol = nan -> (forall iter s, exists r, epoch iter s = Ok r) -> forall iters best s, depochs epoch tol b patience iters best 0 s = Throw RuntimeError.
  Proof.
    intros -> HE. induction iters as [|it iters IH]; intros best s; cbn [depochs]; [reflexivity|]. destruct (HE it s) as ((s1 & loss) & ->). cbn [bind].
    rewrite dmul_nan_l, dsub_nan_r, dlt_nan_l. destruct (Nat.leb_spec patience 0); [lia|]. apply IH.
  Qed.
End Stop.

(** * Squared error: NaN weights give a NaN loss *)
Lemma dmv_nan ord X w y_hat : fair ord -> has_nan w -> dmv ord X w = Ok y_hat -> length y_hat = length X /\ forall a, In a y_hat -> a = nan.
Proof.
  intros HO Hw. unfold dmv. revert y_hat. induction X as [|r X IH]; intros y_hat E; cbn [mapM] in E; [injection E as <-; split; [reflexivity|intros a []]|].
  destruct (Nat.eqb_spec (length r) (length w)) as [HL|]; [|discriminate]. cbn [bind] in E. destruct (mapM _ X) as [ys| | |]; try discriminate. cbn [bind] in E. injection E as <-.
  destruct (IH ys eq_refl) as (H1 & H2). split; [cbn; now rewrite H1|]. intros a [<-|Ha]; [|now apply H2]. apply dsum_nan; [exact HO|].
  clear - Hw HL. revert r HL. induction w as [|b w IH]; intros [|c r] HL; try discriminate; [destruct Hw|]. injection HL as HL. destruct Hw as [->|Hw].
  - left. cbn [combine map fst snd]. destruct c; reflexivity.
  - right. now apply IH.
Qed.
Lemma dmse_nan ord lambda X y w loss : fair ord -> has_nan w -> X <> [] -> dmse ord lambda X y w = Ok loss -> loss = nan.
Proof.
  intros HO Hw HX E. unfold dmse in E. destruct (dmv ord X w) as [yh| | |] eqn:Ey; try discriminate. cbn [bind] in E. destruct (dmv_nan ord X w yh HO Hw Ey) as (HL & Hn).
  unfold drow_sub in E. destruct (Nat.eqb_spec (length y) (length yh)) as [HL'|]; [|discriminate]. cbn [bind] in E.
  apply (f_equal (fun o => match o with Ok a => a | _ => nan end)) in E. cbn beta iota in E. rewrite <- E. clear E.
  rewrite (dsq_norm_nan ord (KDTree_Model.diff dsub y yh)); [|exact HO|].
  - assert (E : dmul (dbl 1 (-1)) nan = nan) by reflexivity. rewrite E, ddiv_nan_l. apply dadd_nan_l.
  - apply diff_nan_r; [exact HL'|]. destruct X as [|r X]; [easy|]. destruct yh as [|a yh]; [discriminate|]. left. symmetry. now rewrite (Hn a (or_introl eq_refl)).
Qed.
Lemma permute_len {A} p (x y : list A) : permute p x = Ok y -> length y = length x.
Proof.
  unfold permute. destruct (length p =? length x)%nat; [|discriminate]. intros E. injection E as <-.
  assert (G : forall l (z : list A), length (fold_left (fun out (ia : nat * A) => set_nth out (fst ia) (snd ia)) l z) = length z).
  { induction l as [|a l IH]; intros z; [reflexivity|]. cbn [fold_left]. rewrite IH. generalize (fst a) (snd a). clear. induction z as [|b z IH]; intros [|i] v; cbn; auto. }
  apply G.
Qed.
Section SgdNan.
  Variable ord : nat -> order.
  Hypothesis HO : fair ord.
  Variable gradient : list (list double) -> list double -> list double -> outcome (list double).
  Variable evaluate : list (list double) -> list double -> list double -> outcome double.
  Hypothesis Hev : forall X y w loss, has_nan w -> X <> [] -> evaluate X y w = Ok loss -> loss = nan.
  Variable clip : double -> double.
  Variable decay : nat -> double.
  Variable perm : nat -> list nat.
  Variables (shuffle : bool) (tol : double) (b patience : nat).
  Hypothesis Hb : (1 <= b)%nat.
  Lemma dbatches_nan lr X y n w0 r : (1 <= n)%nat -> foldM (dbatch gradient evaluate clip b lr X y) (seq 0 n) (w0, []) = Ok r -> has_nan (fst r) -> has_nan (snd r).
  Proof.
    intros Hn E Hw. destruct n as [|n]; [lia|]. rewrite seq_S, foldM_app in E. cbn [plus] in E. destruct (foldM _ (seq 0 n) _) as [s| | |]; try discriminate. cbn [bind foldM] in E.
    unfold dbatch in E. destruct (dmiddle_rows X (n * b) b) as [Xb| | |] eqn:EX; try discriminate. cbn [bind] in E. destruct (dmiddle_rows y (n * b) b) as [yb| | |]; try discriminate. cbn [bind] in E.
    destruct (gradient Xb yb (fst s)) as [g| | |]; try discriminate. cbn [bind] in E. destruct (dupdate _ _ _) as [w| | |]; try discriminate. cbn [bind] in E.
    destruct (evaluate Xb yb w) as [loss| | |] eqn:El; try discriminate. cbn [bind] in E. injection E as <-. cbn [fst snd] in *.
    apply in_or_app. right. left. apply (Hev Xb yb w loss Hw); [|exact El].
    unfold dmiddle_rows in EX. destruct (Nat.leb_spec (n * b + b) (length X)); [|discriminate]. injection EX as <-. intros C. apply (f_equal (@length _)) in C. rewrite firstn_length, skipn_length in C. cbn in C. lia.
  Qed.
  Lemma dsgd_nan max_iter X y w0 w : (1 <= patience)%nat -> (b <= length X)%nat ->
    dsgd ord gradient evaluate clip decay perm shuffle tol b patience max_iter X y w0 = Ok w -> ~ has_nan w.
  Proof.
    intros Hp HX E Hw. unfold dsgd in E. destruct (Nat.eqb_spec b 0); [lia|]. destruct (doptimize _ _ _ _ _ _) as [s| | |] eqn:Eo; try discriminate. cbn [bind] in E. injection E as <-.
    unfold doptimize in Eo.
    assert (G : forall iters best count X1 y1 w1 s, (b <= length X1)%nat -> (count < patience)%nat ->
      depochs (dsgd_epoch ord gradient evaluate clip decay perm shuffle b) tol b patience iters best count (X1, y1, w1) = Ok s -> ~ has_nan (snd s)).
    { clear s Eo Hw X y w0 HX. induction iters as [|it iters IH]; intros best count X1 y1 w1 s HX Hc E; cbn [depochs] in E; [discriminate|].
      destruct (dsgd_epoch _ _ _ _ _ _ _ _ it (X1, y1, w1)) as [(s1, loss)| | |] eqn:E1; try discriminate. cbn [bind] in E.
      unfold dsgd_epoch in E1. cbn [fst snd] in E1.
      destruct (if shuffle then shuffle_data2 (perm it) X1 y1 else Ok (X1, y1)) as [(X2, y2)| | |] eqn:Es; try discriminate. cbn [bind fst snd] in E1.
      assert (HL : length X2 = length X1).
      { destruct shuffle; [|now injection Es as <- <-]. unfold shuffle_data2 in Es. destruct (permute (perm it) X1) as [sx| | |] eqn:Ep; try discriminate. cbn [bind] in Es. destruct (permute (perm it) y1); try discriminate. cbn [bind] in Es. injection Es as <- <-. exact (permute_len _ _ _ Ep). }
      destruct (foldM _ (seq 0 (length X2 / b)) (w1, [])) as [r| | |] eqn:Er; try discriminate. cbn [bind] in E1. injection E1 as <- <-.
      assert (H1 : (1 <= length X2 / b)%nat) by (apply Nat.div_le_lower_bound; lia).
      destruct (dlt _ (dsum ord (snd r))) eqn:D.
      - destruct (patience <=? Datatypes.S count)%nat eqn:P.
        + injection E as <-. cbn [snd]. intros Hn. pose proof (dbatches_nan _ _ _ _ _ _ H1 Er Hn) as Hl. rewrite dsum_nan in D by assumption. rewrite dlt_nan_r in D. discriminate.
        + apply Nat.leb_gt in P. eapply IH; [| |exact E]; lia.
      - destruct (Nat.leb_spec patience 0); [lia|]. eapply IH; [| |exact E]; lia. }
    eapply G; [exact HX| |exact Eo|exact Hw]. lia.
  Qed.
End SgdNan.
