(** KD-trees with rounded arithmetic, and facts about roundings. *)
From Coq Require Import Reals Lra.
From Flocq Require Import Core.
From Verif Require Import Base KDTree_Model KDTree_Spec KDBuild_Proofs KDQuery_Proofs KDReal_Proofs Round_Spec.
Local Open Scope R_scope.

Lemma binary64_rounding : rounding binary64.
Proof. split; [intros a b H; apply round_le; [apply FLT_exp_valid; reflexivity|apply valid_rnd_N|exact H]|intros a; apply round_NE_opp]. Qed.
Lemma binary32_rounding : rounding binary32.
Proof. split; [intros a b H; apply round_le; [apply FLT_exp_valid; reflexivity|apply valid_rnd_N|exact H]|intros a; apply round_NE_opp]. Qed.
Section Rounding.
  Variable rnd : R -> R.
  Hypothesis HR : rounding rnd.
  Lemma rnd_le a b : a <= b -> rnd a <= rnd b.
  Proof. apply HR. Qed.
  Lemma rnd_opp a : rnd (- a) = - rnd a.
  Proof. apply HR. Qed.
  Lemma rnd_0 : rnd 0 = 0.
  Proof. pose proof (rnd_opp 0) as H. rewrite Ropp_0 in H. lra. Qed.
  Lemma rnd_pos a : 0 <= a -> 0 <= rnd a.
  Proof. intros H. rewrite <- rnd_0. now apply rnd_le. Qed.
  Lemma rnd_neg a : a <= 0 -> rnd a <= 0.
  Proof. intros H. rewrite <- rnd_0. now apply rnd_le. Qed.
  Lemma rnd_abs a : Rabs (rnd a) = rnd (Rabs a).
  Proof.
    destruct (Rle_dec 0 a) as [H|H].
    - rewrite !Rabs_right; [reflexivity|lra|apply Rle_ge, rnd_pos, H].
    - rewrite (Rabs_left1 a), rnd_opp, Rabs_left1 by (try apply rnd_neg; lra). reflexivity.
  Qed.
  Lemma rnd_abs_le a b : Rabs a <= Rabs b -> Rabs (rnd a) <= Rabs (rnd b).
  Proof. rewrite !rnd_abs. apply rnd_le. Qed.
  Lemma add_up_mono s : forall u v, (forall i, nth i u 0 <= nth i v 0) -> add_up rnd s u <= add_up rnd s v.
  Proof. induction s as [i|l IHl r IHr]; intros u v H; cbn; [apply H|]. apply rnd_le, Rplus_le_compat; auto. Qed.
  Lemma nth_map_mono (f : R -> R) a b : length a = length b ->
    (forall j x y, nth_error a j = Some x -> nth_error b j = Some y -> f x <= f y) -> forall i, nth i (map f a) 0 <= nth i (map f b) 0.
  Proof.
    revert b. induction a as [|x a IH]; intros [|y b] Hl H i; cbn in *; try lia; [destruct i; lra|].
    destruct i as [|i]; [apply (H 0%nat x y); reflexivity|]. apply IH; [lia|]. intros j. apply (H (S j)).
  Qed.
  Lemma computed_norm_mono s m a b : length a = length b ->
    (forall j x y, nth_error a j = Some x -> nth_error b j = Some y -> Rltb (Rabs y) (Rabs x) = false) ->
    Rltb (computed_norm rnd s m b) (computed_norm rnd s m a) = false.
  Proof.
    intros Hl H. apply Rltb_false.
    assert (H' : forall j x y, nth_error a j = Some x -> nth_error b j = Some y -> Rabs x <= Rabs y).
    { intros j x y Hx Hy. apply Rltb_false. eauto. }
    destruct m; cbn [computed_norm].
    - apply add_up_mono. now apply nth_map_mono.
    - apply rnd_le, sqrt_le_1_alt, add_up_mono. apply nth_map_mono; [assumption|]. intros j x y Hx Hy. apply rnd_le. apply Rsqr_le_abs_1. eauto.
    - now apply rmax_mono.
  Qed.
  Definition rsub a b := rnd (a - b).
  Lemma rclamp_closer q lo hi x : Rltb x lo = false -> Rltb hi x = false ->
    Rltb (Rabs (rsub x q)) (Rabs (rsub (clamp1 Rltb q lo hi) q)) = false.
  Proof. intros H1 H2. apply Rltb_false. apply rnd_abs_le. apply Rltb_false. now apply clamp_closer. Qed.
  Lemma rounded_range c s : col_range Rltb rsub Rabs c = Some s -> exists s0, spread c s0 /\ s = rnd s0.
  Proof.
    intros E. assert (E' : exists s0, col_range Rltb Rminus Rabs c = Some s0 /\ s = rnd s0).
    { revert E. unfold col_range, rsub. destruct (col_min Rltb c); [|discriminate]. destruct (col_max Rltb c); [|discriminate].
      intros E. injection E as <-. eexists. split; [reflexivity|]. apply rnd_abs. }
    destruct E' as (s0 & E0 & ->). exists s0. split; [now apply col_range_spread|reflexivity].
  Qed.
  Lemma rounded_first_widest nf data : first_column_widest nf data -> is_matrix nf data -> (0 < nf)%nat -> data <> [] ->
    first_widest Rltb rsub Rabs nf data.
  Proof.
    intros H Hm Hnf Hne j a b d Hj Ea Eb. apply Rltb_false. unfold range_at in *.
    assert (E : forall i, (i < nf)%nat -> map (fun r => nth i r d) data = column i data).
    { intros i Hi. apply map_ext_in. intros r Hr. apply nth_indep. now rewrite (Hm r Hr). }
    rewrite E in Ea, Eb by assumption. destruct (rounded_range _ _ Ea) as (sa & Sa & ->). destruct (rounded_range _ _ Eb) as (sb & Sb & ->).
    apply rnd_le. now apply (H j sb sa Hj).
  Qed.

  Lemma rounded_no_columns leaf_size data : is_matrix 0 data -> build_tree Rltb rsub Rabs leaf_size 0 data = UB.
  Proof.
    intros H. destruct data as [|r data]; [reflexivity|].
    assert (r = []) as -> by (apply length_zero_iff_nil, H; now left). reflexivity.
  Qed.
  Lemma rounded_build_defined leaf_size nf data tree : is_matrix nf data ->
    build_tree Rltb rsub Rabs leaf_size nf data = Ok tree -> (3 <= length data)%nat /\ (2 <= leaf_size)%nat /\ (0 < nf)%nat.
  Proof.
    intros Hm E. assert (Hnf : (0 < nf)%nat).
    { destruct nf; [|lia]. rewrite rounded_no_columns in E by assumption. discriminate. }
    assert (H : (3 <= length data)%nat /\ (2 <= leaf_size)%nat) by (eapply build_tree_defined in E; eauto using Rltb_irrefl, Rltb_trans, Rltb_total).
    lia.
  Qed.

  Variables (s : order) (m : metric).
  Notation cdist := (computed_dist rnd s m).
  Notation cnorm := (computed_norm rnd s m).
  Lemma by_facts data q (l : list (R * nat)) rest :
    Permutation (l ++ rest) (map (fun p => (cdist (fst p) q, snd p)) (combine data (seq 0 (length data)))) ->
    NoDup (map snd l) /\
    (forall d i, In (d, i) l -> exists r, nth_error data i = Some r /\ d = cdist r q) /\
    (forall i r, nth_error data i = Some r -> ~ In i (map snd l) -> In (cdist r q, i) rest).
  Proof.
    intros HP. repeat split.
    - assert (H : Permutation (map snd l ++ map snd rest) (seq 0 (length data))).
      { rewrite <- map_app, HP, map_map. cbn [snd]. clear. generalize 0%nat. induction data as [|r data IH]; intros k; simpl; [constructor|]. constructor. apply IH. }
      apply Permutation_sym, Permutation_NoDup in H; [|apply seq_NoDup].
      clear -H. induction (map snd l) as [|x l0 IH]; [constructor|]. simpl in H. inversion H as [|? ? H1 H2]; subst.
      constructor; [|auto]. intros Hx. apply H1, in_app_iff. now left.
    - intros d i Hin. assert (H : In (d, i) (map (fun p => (cdist (fst p) q, snd p)) (combine data (seq 0 (length data))))).
      { apply (Permutation_in _ HP), in_app_iff. now left. }
      apply in_map_iff in H. destruct H as ((r & j) & E & H). cbn [fst snd] in E. injection E as <- <-.
      apply in_combine_seq in H. destruct H as (j' & -> & H). exists r. auto.
    - intros i r Hi Hn. assert (H : In (cdist r q, i) (l ++ rest)).
      { apply (Permutation_in _ (Permutation_sym HP)), in_map_iff. exists (r, i). split; [reflexivity|].
        apply in_combine_seq. exists i. auto. }
      apply in_app_iff in H. destruct H as [H|H]; [|assumption]. exfalso. apply Hn, in_map_iff. now exists (cdist r q, i).
  Qed.
  Lemma rounded_query_single pick leaf_size nf data nodes q k : is_matrix nf data -> first_column_widest nf data ->
    build_tree Rltb rsub Rabs leaf_size nf data = Ok nodes -> length q = nf -> (0 < k <= length data)%nat ->
    (query_single Rltb rsub cnorm pick nodes q k = UB /\ ~ (5 <= leaf_size /\ 6 <= length data)%nat) \/
    exists ans, query_single Rltb rsub cnorm pick nodes q k = Ok (map (fun p => (Some (fst p), snd p)) ans) /\
      nearest_by cdist data q k ans.
  Proof.
    intros Hm Hw Eb Hq Hk. destruct (rounded_build_defined _ _ _ _ Hm Eb) as (H3 & H2 & Hnf).
    destruct (@query_single_spec R Rltb rsub Rabs Rltb_irrefl Rltb_trans Rltb_total nf Hnf cnorm (computed_norm_mono s m)
               rclamp_closer pick leaf_size data nodes q k H2 H3 (rows_ok_of _ _ Hm)) as [H|(r & rest & E & Hl & HP & Hs & Hle)];
      [|exact Eb|assumption|assumption|now left|].
    { apply rounded_first_widest; auto. intros ->. simpl in H3. lia. }
    right. exists r. split; [exact E|].
    destruct (by_facts data q r rest HP) as (F1 & F2 & F3).
    repeat split; auto.
    - clear -Hs. induction Hs as [|a l Hs IH Hall]; simpl; constructor; [assumption|].
      rewrite Forall_forall in *. intros x Hx. apply in_map_iff in Hx. destruct Hx as (p & <- & Hp).
      apply Rltb_false. now apply Hall.
    - intros i row Hi Hn d Hd. apply in_map_iff in Hd. destruct Hd as (p & <- & Hp).
      apply Rltb_false. apply (Hle p (cdist row q, i)); [assumption|]. now apply F3.
  Qed.
  Lemma rounded_radius_single leaf_size nf data nodes q radius : is_matrix nf data -> first_column_widest nf data ->
    build_tree Rltb rsub Rabs leaf_size nf data = Ok nodes -> length q = nf ->
    exists ans, query_radius_single Rltb rsub cnorm nodes q radius = Ok ans /\ within_by cdist data q radius ans.
  Proof.
    intros Hm Hw Eb Hq. destruct (rounded_build_defined _ _ _ _ Hm Eb) as (H3 & H2 & Hnf).
    destruct (@query_radius_single_spec R Rltb rsub Rabs Rltb_irrefl Rltb_trans Rltb_total nf Hnf cnorm (computed_norm_mono s m)
               rclamp_closer (fun _ => 0%nat) leaf_size data nodes q radius H2 H3 (rows_ok_of _ _ Hm)) as (found & missed & E & HP & Hmiss);
      [exact Eb|assumption|].
    exists found. split; [exact E|].
    set (all := map (fun p => (cdist (fst p) q, snd p)) (combine data (seq 0 (length data)))) in *.
    assert (Hall : exists rest, Permutation (found ++ rest) all).
    { exists (missed ++ filter (fun e => Rltb radius (fst e)) all). rewrite app_assoc.
      change (distance rsub cnorm) with cdist in HP. fold all in HP. rewrite HP.
      clear. induction all as [|e l IH]; simpl; [constructor|].
      destruct (Rltb radius (fst e)); simpl; [|now constructor].
      rewrite <- Permutation_middle. now constructor. }
    destruct Hall as (rest & Hall).
    destruct (by_facts data q found rest Hall) as (F1 & F2 & F3).
    assert (Hin : forall e, In e (found ++ missed) <-> In e all /\ fst e <= radius).
    { intros e. change (distance rsub cnorm) with cdist in HP. fold all in HP. split.
      - intros He. apply (Permutation_in _ HP), filter_In in He. destruct He as (He & Hr).
        apply Bool.negb_true_iff, Rltb_false in Hr. auto.
      - intros (He & Hr). apply (Permutation_in _ (Permutation_sym HP)), filter_In. split; [assumption|].
        apply Bool.negb_true_iff, Rltb_false. assumption. }
    split; [assumption|]. split.
    - intros d i Hd. destruct (F2 d i Hd) as (r & Hr & Ed). exists r. repeat split; auto.
      apply (Hin (d, i)). apply in_app_iff. now left.
    - intros i r Hi Hlt.
      assert (He : In (cdist r q, i) (found ++ missed)).
      { apply Hin. split; [|simpl; lra]. apply in_map_iff. exists (r, i). split; [reflexivity|].
        apply in_combine_seq. exists i. auto. }
      apply in_app_iff in He. destruct He as [He|He]; [apply in_map_iff; now exists (cdist r q, i)|].
      exfalso. specialize (Hmiss (rounded_first_widest _ _ Hw Hm Hnf ltac:(intros ->; simpl in H3; lia)) _ He). simpl in Hmiss. lra.
  Qed.
End Rounding.
(** One or two terms can be added in one way only. *)
Lemma few_orders s : forall nf, Permutation (entries_of s) (seq 0 nf) -> (nf <= 2)%nat ->
  (nf = 1%nat /\ s = Entry 0) \/ (nf = 2%nat /\ (s = Add (Entry 0) (Entry 1) \/ s = Add (Entry 1) (Entry 0))).
Proof.
  assert (Hlen : forall t, (1 <= length (entries_of t))%nat).
  { induction t; cbn; [lia|]. rewrite app_length. lia. }
  assert (One : forall t, length (entries_of t) = 1%nat -> exists i, t = Entry i).
  { intros [i|l r] H; [eauto|]. cbn in H. rewrite app_length in H. pose proof (Hlen l). pose proof (Hlen r). lia. }
  intros nf HP Hnf. pose proof (Permutation_length HP) as HL. rewrite seq_length in HL. pose proof (Hlen s).
  destruct nf as [|[|[|]]]; try lia.
  - left. split; [reflexivity|]. destruct (One s HL) as (i & ->). cbn in HP. apply Permutation_length_1 in HP. congruence.
  - right. split; [reflexivity|]. destruct s as [i|l r]; [discriminate|]. cbn in HL. rewrite app_length in HL.
    pose proof (Hlen l). pose proof (Hlen r).
    destruct (One l ltac:(lia)) as (i & ->), (One r ltac:(lia)) as (j & ->). cbn in HP.
    apply Permutation_length_2 in HP. destruct HP as [(-> & ->)|(-> & ->)]; auto.
Qed.
