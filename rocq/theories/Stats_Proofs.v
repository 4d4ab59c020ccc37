From Coq Require Import Reals Lra.
From Verif Require Import Base Sorting KDReal_Proofs Impurity_Model Impurity_Spec Impurity_Proofs Vec MathFun_Model Stats_Model Stats_Spec
  Loss_Model Loss_Proofs LossHinge_Proofs LossSoftmax_Proofs.
Local Open Scope R_scope.
Set Implicit Arguments.

Lemma INR_pos {A} (l : list A) : l <> [] -> 0 < INR (length l).
Proof. intros H. apply lt_0_INR. destruct l; [congruence|simpl; lia]. Qed.
Lemma shape_width nr nc x : shape nr nc x -> width nc x.
Proof. intros (_ & H) r Hr. now apply H. Qed.

(** * Column sums *)
Lemma fold_vadd_nth x : forall acc j, width (length acc) x -> nth j (fold_left vadd x acc) 0 = nth j acc 0 + total (col j x).
Proof.
  induction x as [|r x IH]; intros acc j HW; simpl; [lra|]. apply width_cons in HW. destruct HW as (H1 & H2).
  rewrite IH by (rewrite vadd_length; auto). rewrite nth_vadd by auto. lra.
Qed.
Lemma fold_vadd_length x : forall acc, width (length acc) x -> length (fold_left vadd x acc) = length acc.
Proof.
  induction x as [|r x IH]; intros acc HW; simpl; [reflexivity|]. apply width_cons in HW. destruct HW as (H1 & H2).
  rewrite IH by (rewrite vadd_length; auto). apply vadd_length. auto.
Qed.
Lemma col_sum_nth nc x j : width nc x -> nth j (col_sum nc x) 0 = total (col j x).
Proof.
  intros H. unfold col_sum. rewrite fold_vadd_nth by (now rewrite zeros_length). unfold zeros. rewrite nth_repeat. lra.
Qed.
Lemma col_sum_length nc x : width nc x -> length (col_sum nc x) = nc.
Proof. intros H. unfold col_sum. rewrite fold_vadd_length; now rewrite zeros_length. Qed.
Lemma col_sum_spec nc x : width nc x -> col_sum nc x = map total (cols_of nc x).
Proof.
  intros H. rewrite (list_as_nths 0 (col_sum nc x)), col_sum_length by assumption. unfold cols_of. rewrite map_map. apply map_ext.
  intros j. now apply col_sum_nth.
Qed.
Lemma col_means_spec nc x : width nc x -> col_means nc x = map avg (cols_of nc x).
Proof.
  intros H. unfold col_means. rewrite col_sum_spec by assumption. unfold cols_of. rewrite !map_map. apply map_ext. intros j.
  unfold avg, col. now rewrite map_length.
Qed.
Lemma mean1_avg v : mean1 v = avg v.
Proof. unfold mean1, avg. now rewrite Rsum_total. Qed.

(** * Variance *)
Lemma avg_scal_plus {A} (l : list A) f c : l <> [] -> avg (map (fun a => f a + c) l) = avg (map f l) + c.
Proof. intros H. unfold avg. rewrite !map_length. rewrite total_plus, total_const. field. apply Rgt_not_eq, INR_pos, H. Qed.
Lemma var_formula v : v <> [] -> avg (map sq v) - avg v * avg v = mean_sq_dev v.
Proof.
  intros H. unfold mean_sq_dev, avg. rewrite !map_length. fold (avg v). unfold sq.
  rewrite (total_ext (fun a => (a - avg v) ^ 2) (fun a => a * a + (((-2) * avg v) * a + avg v ^ 2))) by (intros; ring).
  rewrite !total_plus, total_scal, total_const, map_id. unfold avg. field. apply Rgt_not_eq, INR_pos, H.
Qed.
Lemma mean_sq_dev_nonneg v : v <> [] -> 0 <= mean_sq_dev v.
Proof.
  intros H. unfold mean_sq_dev, avg. apply Rmult_le_pos.
  - apply total_nonneg. intros x _. apply pow2_ge_0.
  - left. apply Rinv_0_lt_compat. rewrite map_length. now apply INR_pos.
Qed.
Lemma mean_sq_dev_zero v : v <> [] -> (mean_sq_dev v = 0 <-> forall a b, In a v -> In b v -> a = b).
Proof.
  intros H. pose proof (INR_pos H) as Hn. split.
  - intros E a b Ha Hb. unfold mean_sq_dev in E. unfold avg at 1 in E. rewrite map_length in E.
    assert (E' : total (map (fun a => (a - avg v) ^ 2) v) = 0).
    { apply Rmult_eq_reg_r with (/ INR (length v)); [|apply Rinv_neq_0_compat; lra]. rewrite Rmult_0_l. exact E. }
    assert (G : forall c, In c v -> c = avg v).
    { intros c Hc. pose proof (total_zero (fun a => (a - avg v) ^ 2) v (fun x _ => pow2_ge_0 _) E' c Hc) as Q. simpl in Q.
      assert (c - avg v = 0) by (apply Rsqr_0_uniq; unfold Rsqr; lra). lra. }
    now rewrite (G a Ha), (G b Hb).
  - intros G. destruct v as [|c v]; [congruence|]. unfold mean_sq_dev.
    assert (E : avg (c :: v) = c).
    { unfold avg. assert (Q : total (c :: v) = INR (length (c :: v)) * c).
      { rewrite <- (map_id (c :: v)) at 1. rewrite (total_ext (fun a => a) (fun _ => c)); [apply total_const|]. intros x Hx. apply G; [assumption|now left]. }
      rewrite Q. field. lra. }
    unfold avg at 1. rewrite E. rewrite (total_ext _ (fun _ => 0)); [rewrite total_const; unfold Rdiv; ring|].
    intros x Hx. rewrite (G x c Hx) by now left. ring.
Qed.
Lemma col_map_sq nc x j : width nc x -> (j < nc)%nat -> col j (map (map sq) x) = map sq (col j x).
Proof.
  intros HW Hj. unfold col. rewrite !map_map. apply map_ext_in. intros r Hr. rewrite (nth_indep _ 0 (sq 0)) by (rewrite map_length, (HW r Hr); assumption).
  apply map_nth.
Qed.
Lemma width_map nc x f : width nc x -> width nc (map (map f) x).
Proof. intros H r Hr. apply in_map_iff in Hr. destruct Hr as (r' & <- & Hr). rewrite map_length. now apply H. Qed.
Lemma var0_spec nc x : x <> [] -> width nc x -> vsub (col_means nc (map (map sq) x)) (map sq (col_means nc x)) = map mean_sq_dev (cols_of nc x).
Proof.
  intros Hx HW. rewrite !col_means_spec by (try apply width_map; assumption). unfold cols_of. rewrite !map_map.
  assert (G : forall l, (forall j, In j l -> (j < nc)%nat) ->
     vsub (map (fun j => avg (col j (map (map sq) x))) l) (map (fun j => sq (avg (col j x))) l) = map (fun j => mean_sq_dev (col j x)) l).
  { induction l as [|j l IH]; intros Hl; [reflexivity|]. unfold vsub in *. simpl. rewrite IH by (intros; apply Hl; now right). f_equal.
    rewrite (col_map_sq HW) by (apply Hl; now left). apply var_formula. unfold col. destruct x; [congruence|discriminate]. }
  apply G. intros j Hj. apply in_seq in Hj. lia.
Qed.
Lemma vsub_maps {A} (f g : A -> R) l : vsub (map f l) (map g l) = map (fun a => f a - g a) l.
Proof. unfold vsub. induction l as [|a l IH]; simpl; [reflexivity|]. now rewrite IH. Qed.

(** * Centring and covariance *)
Lemma col_center nc x j : width nc x -> (j < nc)%nat -> col j (center nc x) = map (fun a => a - avg (col j x)) (col j x).
Proof.
  intros HW Hj. unfold center. rewrite col_means_spec by assumption. unfold col. rewrite !map_map. apply map_ext_in. intros r Hr.
  assert (HL : length (cols_of nc x) = nc) by (unfold cols_of; now rewrite map_length, seq_length).
  rewrite nth_vsub by (rewrite map_length, HL; now apply HW). f_equal.
  rewrite (nth_indep _ 0 (avg [])) by (rewrite map_length, HL; assumption). rewrite (map_nth avg). unfold cols_of.
  rewrite (nth_indep _ [] (col 0 x)) by (rewrite map_length, seq_length; assumption). rewrite (map_nth (fun j => col j x)). rewrite seq_nth by assumption. reflexivity.
Qed.
Lemma center_total nc x j : x <> [] -> width nc x -> (j < nc)%nat -> total (col j (center nc x)) = 0.
Proof.
  intros Hx HW Hj. rewrite col_center by assumption. assert (Hc : col j x <> []) by (unfold col; destruct x; [congruence|discriminate]).
  rewrite (total_ext _ (fun a => a + - avg (col j x))) by (intros; ring). rewrite total_plus, total_const, map_id. unfold avg. field.
  apply Rgt_not_eq, INR_pos, Hc.
Qed.
Lemma width_center nc x : width nc x -> width nc (center nc x).
Proof.
  intros HW r Hr. unfold center in Hr. apply in_map_iff in Hr. destruct Hr as (r' & <- & Hr'). rewrite vsub_length; [now apply HW|].
  unfold col_means. rewrite map_length, col_sum_length by assumption. now apply HW.
Qed.
Definition cov_entry nc x i j := total (map (fun r => nth i r 0 * nth j r 0) (center nc x)) / (INR (length x) - 1).
Lemma cov_nth nc x i j : (i < nc)%nat -> (j < nc)%nat -> entry (cov nc x) i j = cov_entry nc x i j.
Proof.
  intros Hi Hj. unfold entry, cov.
  set (F := fun i => map (fun j => Rsum (map (fun r => nth i r 0 * nth j r 0) (center nc x)) / (INR (length x) - 1)) (seq 0 nc)).
  rewrite (nth_indep _ [] (F 0%nat)) by (rewrite map_length, seq_length; assumption). rewrite (map_nth F), seq_nth by assumption. unfold F.
  set (g := fun j => Rsum (map (fun r => nth (0 + i) r 0 * nth j r 0) (center nc x)) / (INR (length x) - 1)).
  rewrite (nth_indep _ 0 (g 0%nat)) by (rewrite map_length, seq_length; assumption). rewrite (map_nth g), seq_nth by assumption. unfold g, cov_entry.
  now rewrite Rsum_total.
Qed.
Lemma cov_quadratic nc x v : width nc x -> (2 <= length x)%nat ->
  total (map (fun i => total (map (fun j => nth i v 0 * cov_entry nc x i j * nth j v 0) (seq 0 nc))) (seq 0 nc)) =
  total (map (fun r => (total (map (fun i => nth i v 0 * nth i r 0) (seq 0 nc))) ^ 2) (center nc x)) / (INR (length x) - 1).
Proof.
  intros HW Hn. unfold cov_entry.
  rewrite (total_ext (fun r => _ ^ 2) (fun r => total (map (fun i => total (map (fun j => (nth i v 0 * nth i r 0) * (nth j v 0 * nth j r 0)) (seq 0 nc))) (seq 0 nc)))).
  2: { intros r _. symmetry. etransitivity.
    - apply (total_ext _ (fun i => total (map (fun i => nth i v 0 * nth i r 0) (seq 0 nc)) * (nth i v 0 * nth i r 0))).
      intros i _. rewrite total_scal. ring.
    - rewrite total_scal. ring. }
  rewrite (@total_swap _ _ (fun r i => total (map (fun j => nth i v 0 * nth i r 0 * (nth j v 0 * nth j r 0)) (seq 0 nc))) (center nc x) (seq 0 nc)). unfold Rdiv. rewrite Rmult_comm, <- total_scal. apply total_ext. intros i _.
  rewrite (@total_swap _ _ (fun r j => nth i v 0 * nth i r 0 * (nth j v 0 * nth j r 0)) (center nc x) (seq 0 nc)). rewrite <- total_scal. apply total_ext. intros j _.
  rewrite (total_ext (fun a => nth i v 0 * nth i a 0 * (nth j v 0 * nth j a 0)) (fun r => (nth i v 0 * nth j v 0) * (nth i r 0 * nth j r 0))) by (intros; ring).
  rewrite total_scal. ring.
Qed.

(** * Cumulative sums *)
Lemma partial_sum_from_nth v : forall s i, (i < length v)%nat -> nth i (partial_sum_from s v) 0 = s + total (firstn (S i) v).
Proof.
  induction v as [|a v IH]; intros s i Hi; simpl in Hi; [lia|]. destruct i as [|i]; simpl; [lra|].
  rewrite IH by lia. simpl. destruct v; simpl in *; [lia|]. lra.
Qed.
Lemma partial_sum_from_length v : forall s, length (partial_sum_from s v) = length v.
Proof. induction v as [|a v IH]; intros s; simpl; auto. Qed.
Lemma partial_sum_nth v i : (i < length v)%nat -> nth i (partial_sum v) 0 = total (firstn (S i) v).
Proof.
  destruct v as [|a v]; simpl; intros Hi; [lia|]. destruct i as [|i]; simpl; [lra|]. rewrite partial_sum_from_nth by lia. reflexivity.
Qed.
Lemma partial_sum_length v : length (partial_sum v) = length v.
Proof. destruct v; simpl; [reflexivity|]. now rewrite partial_sum_from_length. Qed.
Lemma of_columns_entry nr cs i j : (i < nr)%nat -> (j < length cs)%nat -> entry (of_columns nr cs) i j = nth i (nth j cs []) 0.
Proof.
  intros Hi Hj. unfold entry, of_columns. rewrite (nth_indep _ [] (map (fun c => nth 0 c 0) cs)) by (rewrite map_length, seq_length; assumption).
  rewrite (map_nth (fun i => map (fun c => nth i c 0) cs)), seq_nth by assumption. simpl.
  rewrite (nth_indep _ 0 (nth i [] 0)) by (rewrite map_length; assumption). apply (map_nth (fun c => nth i c 0)).
Qed.

(** * Median *)
Lemma sorted_R v : StronglySorted Rle (isort Rltb v).
Proof.
  assert (H : StronglySorted (le Rltb) (isort Rltb v)).
  { apply isort_sorted.
    - intros a b. rewrite Rltb_true, Rltb_false. lra.
    - intros a b c. unfold le. rewrite !Rltb_false. lra. }
  induction H as [|a l Hl IH Hf]; constructor; auto. eapply Forall_impl; [|exact Hf]. intros b Hb. unfold le in Hb. now apply Rltb_false.
Qed.
Lemma sorted_nth (s : list R) : StronglySorted Rle s -> forall i j, (i <= j)%nat -> (j < length s)%nat -> nth i s 0 <= nth j s 0.
Proof.
  induction 1 as [|a s Hs IH Hf]; intros i j Hij Hj; simpl in Hj; [lia|]. rewrite Forall_forall in Hf.
  destruct i as [|i], j as [|j]; simpl; try lia; [lra|apply Hf, nth_In; lia|]. apply IH; lia.
Qed.
Lemma count_if_perm p u v : Permutation u v -> count_if p u = count_if p v.
Proof.
  unfold count_if. induction 1; simpl; auto.
  - destruct (p x); simpl; congruence.
  - destruct (p x), (p y); reflexivity.
  - congruence.
Qed.
Lemma count_if_app p u v : count_if p (u ++ v) = (count_if p u + count_if p v)%nat.
Proof. unfold count_if. now rewrite filter_app, app_length. Qed.
Lemma count_if_all p u : (forall a, In a u -> p a = true) -> count_if p u = length u.
Proof. unfold count_if. induction u as [|a u IH]; intros H; simpl; [reflexivity|]. rewrite (H a) by now left. simpl. rewrite IH; auto. intros; apply H; now right. Qed.
Lemma sorted_counts s m k : StronglySorted Rle s -> (k <= length s)%nat -> (forall i, (i < k)%nat -> nth i s 0 <= m) ->
  (k <= count_if (fun a => if Rle_dec a m then true else false) s)%nat.
Proof.
  intros Hs Hk Hm. rewrite <- (firstn_skipn k s), count_if_app. rewrite count_if_all; [rewrite firstn_length; lia|].
  intros a Ha. destruct (In_nth _ _ 0 Ha) as (i & Hi & E). rewrite firstn_length in Hi.
  assert (a = nth i s 0). { rewrite <- E. rewrite <- (firstn_skipn k s) at 2. rewrite app_nth1; [reflexivity|]. rewrite firstn_length. lia. }
  destruct (Rle_dec a m) as [|N]; [reflexivity|]. exfalso. apply N. rewrite H. apply Hm. lia.
Qed.
Lemma nth_skipn {A} (d : A) k s i : nth i (skipn k s) d = nth (k + i) s d.
Proof. revert s. induction k as [|k IH]; intros [|a s]; simpl; auto; destruct i; reflexivity. Qed.
Lemma sorted_counts_ge s m k : StronglySorted Rle s -> (k <= length s)%nat -> (forall i, (k <= i)%nat -> (i < length s)%nat -> m <= nth i s 0) ->
  (length s - k <= count_if (fun a => if Rle_dec m a then true else false) s)%nat.
Proof.
  intros Hs Hk Hm. rewrite <- (firstn_skipn k s) at 2. rewrite count_if_app. rewrite (count_if_all _ (skipn k s)); [rewrite skipn_length; lia|].
  intros a Ha. destruct (In_nth _ _ 0 Ha) as (i & Hi & E). rewrite skipn_length in Hi. rewrite nth_skipn in E.
  destruct (Rle_dec m a) as [|N]; [reflexivity|]. exfalso. apply N. rewrite <- E. apply Hm; lia.
Qed.
Lemma median1_spec v : v <> [] -> exists m, median1 v = Ok m /\ is_median v m.
Proof.
  intros Hv. unfold median1. set (s := isort Rltb v). assert (HL : length s = length v) by apply isort_length.
  assert (HP : Permutation v s) by apply isort_perm. pose proof (sorted_R v) as Hs. fold s in Hs.
  assert (Hn : (0 < length v)%nat) by (destruct v; [congruence|simpl; lia]).
  pose proof (Nat.div_mod (length v) 2 ltac:(lia)) as HD. pose proof (Nat.mod_upper_bound (length v) 2 ltac:(lia)) as HM.
  set (q := (length v / 2)%nat) in *. set (r := (length v mod 2)%nat) in *.
  unfold vget at 1. rewrite (nth_error_some 0) by lia. cbn [bind].
  assert (HC : forall m, is_median s m -> is_median v m) by (intros m; unfold is_median; rewrite !(count_if_perm _ HP), HL; auto).
  destruct (Nat.eqb_spec r 0) as [E|E].
  - assert (q <> 0)%nat by lia. unfold vget. rewrite (nth_error_some 0) by lia. cbn [bind]. eexists. split; [reflexivity|]. apply HC. unfold is_median.
    pose proof (@sorted_nth s Hs (q - 1) q ltac:(lia) ltac:(lia)) as Ho.
    set (m := (nth q s 0 + nth (q - 1) s 0) / 2).
    assert (A : (q <= count_if (fun a => if Rle_dec a m then true else false) s)%nat).
    { apply sorted_counts; auto; [lia|]. intros i Hi. pose proof (@sorted_nth s Hs i (q - 1) ltac:(lia) ltac:(lia)). unfold m. lra. }
    assert (B : (length s - q <= count_if (fun a => if Rle_dec m a then true else false) s)%nat).
    { apply sorted_counts_ge; auto; [lia|]. intros i Hi Hi'. pose proof (@sorted_nth s Hs q i ltac:(lia) ltac:(lia)). unfold m. lra. }
    fold m. lia.
  - eexists. split; [reflexivity|]. apply HC. unfold is_median.
    set (m := nth q s 0).
    assert (A : (S q <= count_if (fun a => if Rle_dec a m then true else false) s)%nat).
    { apply sorted_counts; auto; [lia|]. intros i Hi. apply sorted_nth; auto; lia. }
    assert (B : (length s - q <= count_if (fun a => if Rle_dec m a then true else false) s)%nat).
    { apply sorted_counts_ge; auto; [lia|]. intros i Hi Hi'. apply sorted_nth; auto; lia. }
    lia.
Qed.

(** * Mode *)
Section ModeP.
  Context {T : Type}.
  Variable eqb ltb : T -> T -> bool.
  Variable eq_dec : forall a b : T, {a = b} + {a <> b}.
  Hypothesis eqb_eq : forall a b, eqb a b = true <-> a = b.

  Definition look (m : list (T * nat)) (e : T) : nat := match find (fun p => eqb (fst p) e) m with Some p => snd p | None => 0%nat end.
  Lemma eqb_refl a : eqb a a = true.
  Proof. now apply eqb_eq. Qed.
  Lemma bump_spec m e : snd (bump eqb m e) = S (look m e) /\ forall k, look (fst (bump eqb m e)) k = (look m k + if eq_dec k e then 1 else 0)%nat.
  Proof.
    induction m as [|(k0, c) m IH]; simpl.
    - split; [reflexivity|]. intros k. unfold look. simpl. destruct (eq_dec k e) as [->|N]; [now rewrite eqb_refl|].
      destruct (eqb e k) eqn:E; [apply eqb_eq in E; congruence|]. reflexivity.
    - destruct (eqb k0 e) eqn:E.
      + apply eqb_eq in E. subst k0. unfold look. simpl. rewrite eqb_refl. split; [reflexivity|]. intros k.
        destruct (eqb e k) eqn:E2; simpl.
        * apply eqb_eq in E2. subst k. destruct (eq_dec e e); [lia|congruence].
        * destruct (eq_dec k e) as [->|N]; [rewrite eqb_refl in E2; discriminate|lia].
      + destruct (bump eqb m e) as (m2, c2) eqn:Eb. simpl in *. destruct IH as (IH1 & IH2). split.
        * unfold look in *. simpl. now rewrite E.
        * intros k. specialize (IH2 k). unfold look in *. simpl. destruct (eqb k0 k) eqn:E2; [|assumption]. simpl.
          apply eqb_eq in E2. subst k0. destruct (eq_dec k e) as [->|N]; [rewrite eqb_refl in E; discriminate|lia].
  Qed.
  Definition mode_inv (seen : list T) (s : list (T * nat) * (nat * option T)) : Prop :=
    (forall k, look (fst s) k = count_occ eq_dec seen k) /\
    (forall k, (count_occ eq_dec seen k <= fst (snd s))%nat) /\
    match snd (snd s) with None => seen = [] /\ fst (snd s) = 0%nat | Some e => count_occ eq_dec seen e = fst (snd s) /\ (0 < fst (snd s))%nat end.
  Lemma count_occ_snoc seen e k : count_occ eq_dec (seen ++ [e]) k = (count_occ eq_dec seen k + if eq_dec k e then 1 else 0)%nat.
  Proof.
    rewrite count_occ_app. simpl. destruct (eq_dec e k), (eq_dec k e); congruence || lia.
  Qed.
  Lemma mode_step_inv seen s e : mode_inv seen s -> mode_inv (seen ++ [e]) (mode_step eqb s e).
  Proof.
    destruct s as (m, (best, el)). intros (H1 & H2 & H3). simpl in *. pose proof (bump_spec m e) as (B1 & B2).
    destruct (bump eqb m e) as (m', f). simpl in B1, B2. subst f. rewrite H1 in *. unfold mode_inv.
    assert (E : forall k, count_occ eq_dec (seen ++ [e]) k = (count_occ eq_dec seen k + if eq_dec k e then 1 else 0)%nat) by apply count_occ_snoc.
    destruct (Nat.ltb_spec best (S (count_occ eq_dec seen e))) as [L|L]; simpl.
    - repeat split.
      + intros k. now rewrite B2, H1, E.
      + intros k. rewrite E. specialize (H2 k). destruct (eq_dec k e) as [->|N]; lia.
      + rewrite E. destruct (eq_dec e e); [lia|congruence].
      + lia.
    - split; [|split].
      + intros k. now rewrite B2, H1, E.
      + intros k. rewrite E. specialize (H2 k). destruct (eq_dec k e) as [->|N]; lia.
      + destruct el as [a|]; [|destruct H3 as (-> & ->); simpl in *; lia]. rewrite E. destruct H3 as (H3 & H4). split; [|assumption].
        destruct (eq_dec a e) as [->|N]; lia.
  Qed.
  Lemma mode_fold v : forall seen s, mode_inv seen s -> mode_inv (seen ++ v) (fold_left (mode_step eqb) v s).
  Proof.
    induction v as [|e v IH]; intros seen s H; simpl; [now rewrite app_nil_r|].
    replace (seen ++ e :: v) with ((seen ++ [e]) ++ v) by (rewrite <- app_assoc; reflexivity). apply IH. now apply mode_step_inv.
  Qed.
  Hypothesis ltb_irrefl : forall a, ltb a a = false.
  Hypothesis ltb_trans : forall a b c, ltb b a = false -> ltb c b = false -> ltb c a = false.
  Hypothesis ltb_asym : forall a b, ltb a b = true -> ltb b a = false.
  Lemma fold_min v : forall a, In (fold_left (fun m b => if ltb b m then b else m) v a) (a :: v) /\
    forall b, In b (a :: v) -> ltb b (fold_left (fun m b => if ltb b m then b else m) v a) = false.
  Proof.
    induction v as [|c v IH]; intros a; simpl.
    - split; [now left|]. intros b [<-|[]]. apply ltb_irrefl.
    - destruct (IH (if ltb c a then c else a)) as (H1 & H2). split.
      + simpl in H1. destruct H1 as [H1|H1]; [|auto]. rewrite <- H1. destruct (ltb c a); auto.
      + intros b [<-|[<-|Hb]].
        * destruct (ltb c a) eqn:E; [|apply H2; now left]. eapply ltb_trans; [apply H2; now left|]. now apply ltb_asym.
        * destruct (ltb c a) eqn:E; [apply H2; now left|]. eapply ltb_trans; [apply H2; now left|assumption].
        * apply H2. now right.
  Qed.
  Lemma count_occ_one_In v e : In e v -> (forall k, (count_occ eq_dec v k <= 1)%nat) -> count_occ eq_dec v e = 1%nat.
  Proof. intros H1 H2. specialize (H2 e). apply (count_occ_In eq_dec) in H1. lia. Qed.
  Lemma mode1_spec v : v <> [] -> exists m c, mode1 eqb ltb v = Ok (m, c) /\ is_mode eq_dec v m c /\
    (c = 1%nat -> forall b, In b v -> ltb b m = false).
  Proof.
    intros Hv. unfold mode1. pose proof (@mode_fold v [] ([], (0%nat, None))) as HI. simpl in HI.
    destruct (fold_left (mode_step eqb) v ([], (0%nat, None))) as (m, (best, el)) eqn:E.
    destruct HI as (H1 & H2 & H3). { repeat split; simpl; auto. }
    simpl in *. destruct el as [e|]; [|destruct H3; congruence]. destruct H3 as (H3 & H4).
    destruct (Nat.eqb_spec best 1) as [->|N].
    - destruct v as [|a v]; [congruence|]. unfold min_coeff. cbn [bind]. pose proof (fold_min v a) as (M1 & M2). do 2 eexists. split; [reflexivity|].
      split; [|intros _; exact M2]. repeat split; [|lia|exact H2]. now apply count_occ_one_In.
    - exists e, best. split; [reflexivity|]. split; [repeat split; auto|]. intros ->. congruence.
  Qed.
End ModeP.
