(** The quality of a split: weighted impurities of the two sides. *)
From Coq Require Import Reals Lra Psatz.
From Verif Require Import Base Common_Model Tree_Model Tree_Spec Tree_Proofs KDReal_Proofs Impurity_Spec Impurity_Model Impurity_Proofs Gain_Spec.
Local Open Scope R_scope.
Set Implicit Arguments.

Section Gain.
  Context {T : Type}.
  Variable eq_dec : forall a b : T, {a = b} + {a <> b}.

  Definition keep (x : list T) (ls : list T) : list T := filter (fun a => if in_dec eq_dec a x then true else false) ls.
  Lemma keep_labels y x ls : labels_of y ls -> incl x y -> labels_of x (keep x ls).
  Proof.
    intros (N & H) I. split; [apply NoDup_filter; auto|]. intro l. unfold keep. rewrite filter_In. destruct (in_dec eq_dec l x) as [J|J].
    - rewrite H. split; auto.
    - split; [intros (_ & E); discriminate|easy].
  Qed.
  Lemma total_keep (f : T -> R) x ls : (forall l, ~ In l x -> f l = 0) -> total (map f (keep x ls)) = total (map f ls).
  Proof.
    intro F. unfold keep. induction ls as [|l ls IH]; cbn; auto. destruct (in_dec eq_dec l x) as [J|J]; cbn; fold (total (map f ls)).
    - fold (total (map f (filter (fun a => if in_dec eq_dec a x then true else false) ls))). rewrite IH; auto.
    - fold (total (map f (filter (fun a => if in_dec eq_dec a x then true else false) ls))). rewrite IH, F by auto. lra.
  Qed.
  Lemma freq_out x l : ~ In l x -> freq eq_dec x l = 0.
  Proof. intro H. unfold freq. apply (count_occ_not_In eq_dec) in H. rewrite H. cbn. unfold Rdiv; lra. Qed.
  Lemma gini_keep x ls : gini_index eq_dec x (keep x ls) = gini_index eq_dec x ls.
  Proof. unfold gini_index. f_equal. apply total_keep. intros l H. rewrite freq_out by auto. lra. Qed.
  Lemma shannon_keep x ls : shannon eq_dec x (keep x ls) = shannon eq_dec x ls.
  Proof. unfold shannon. apply total_keep. intros l H. rewrite freq_out by auto. lra. Qed.

  Variables y l r : list T.
  Hypothesis Hne : y <> [].
  Hypothesis Hy : Permutation y (l ++ r).
  Let wl := share l y.
  Let wr := share r y.

  Lemma len_pos (z : list T) : z <> [] -> 0 < INR (length z).
  Proof. intro H. apply lt_0_INR. destruct z; [congruence|cbn; lia]. Qed.
  Lemma len_sum : INR (length y) = INR (length l) + INR (length r).
  Proof. rewrite (Permutation_length Hy), app_length, plus_INR. auto. Qed.
  Lemma weights : 0 <= wl /\ 0 <= wr /\ wl + wr = 1.
  Proof.
    pose proof (len_pos Hne) as P. pose proof len_sum as E. pose proof (pos_INR (length l)). pose proof (pos_INR (length r)). unfold wl, wr, share.
    assert (0 < / INR (length y)) by (apply Rinv_0_lt_compat; auto).
    split; [|split]; [apply Rmult_le_pos; lra|apply Rmult_le_pos; lra|].
    replace (INR (length l) / INR (length y) + INR (length r) / INR (length y)) with ((INR (length l) + INR (length r)) / INR (length y)) by (field; lra).
    rewrite <- E. field. lra.
  Qed.
  Lemma share_freq x a : share x y * freq eq_dec x a = INR (count_occ eq_dec x a) / INR (length y).
  Proof.
    pose proof (len_pos Hne) as P. unfold share, freq. destruct x as [|b x]; [cbn; unfold Rdiv; ring|].
    assert (b :: x <> []) as N by discriminate. pose proof (len_pos N). field. lra.
  Qed.
  Lemma freq_mix a : freq eq_dec y a = wl * freq eq_dec l a + wr * freq eq_dec r a.
  Proof.
    unfold wl, wr. rewrite !share_freq. unfold freq. pose proof (len_pos Hne).
    rewrite (Permutation_count_occ eq_dec) in Hy. rewrite Hy, count_occ_app, plus_INR. field. lra.
  Qed.
  Lemma freq_pos (x : list T) a : 0 <= freq eq_dec x a.
  Proof.
    unfold freq. destruct x as [|b x]; [cbn; unfold Rdiv; lra|]. apply Rmult_le_pos; [apply pos_INR|]. left; apply Rinv_0_lt_compat. apply len_pos; discriminate.
  Qed.

  Lemma gini_concave ls : wl * gini_index eq_dec l ls + wr * gini_index eq_dec r ls <= gini_index eq_dec y ls.
  Proof.
    destruct weights as (W1 & W2 & W). unfold gini_index.
    assert (H : total (map (fun a => freq eq_dec y a * freq eq_dec y a) ls) <=
      wl * total (map (fun a => freq eq_dec l a * freq eq_dec l a) ls) + wr * total (map (fun a => freq eq_dec r a * freq eq_dec r a) ls)).
    { rewrite <- !total_scal, <- total_plus. apply total_le. intros a _. rewrite freq_mix.
      set (p := freq eq_dec l a). set (q := freq eq_dec r a). assert (wl = 1 - wr) as E by lra. rewrite E.
      assert (0 <= (1 - wr) * wr * ((p - q) * (p - q))) by (apply Rmult_le_pos; [apply Rmult_le_pos; lra|apply Rle_0_sqr]). nra. }
    set (a := total _) in *. set (b := total _) in *. set (d := total _) in *. nra.
  Qed.

  Lemma ln2_pos : 0 < ln 2.
  Proof. rewrite <- ln_1. apply ln_increasing; lra. Qed.
  Lemma ln_upper x : 0 < x -> ln x <= x - 1.
  Proof. intro H. pose proof (exp_ineq1_le (ln x)) as E. rewrite exp_ln in E by auto. lra. Qed.
  (** w p ln p - w p ln m >= w (p - m), also for p = 0 *)
  Lemma gibbs p m : 0 <= p -> 0 < m -> p - m <= p * ln p - p * ln m.
  Proof.
    intros Hp Hm. destruct (Rle_lt_or_eq_dec 0 p Hp) as [P|P].
    - pose proof (ln_upper (x := m / p)) as H. assert (0 < m / p) as D by (apply Rdiv_lt_0_compat; auto). specialize (H D).
      unfold Rdiv in H. rewrite ln_mult, ln_Rinv in H; auto; [|apply Rinv_0_lt_compat; auto].
      apply (Rmult_le_compat_l p) in H; [|lra]. replace (p * (m * / p - 1)) with (m - p) in H by (field; lra). lra.
    - subst p. lra.
  Qed.
  Lemma shannon_concave ls : wl * shannon eq_dec l ls + wr * shannon eq_dec r ls <= shannon eq_dec y ls.
  Proof.
    destruct weights as (W1 & W2 & W). unfold shannon. rewrite <- !total_scal, <- total_plus. apply total_le. intros a _.
    pose proof ln2_pos as L2. set (p := freq eq_dec l a). set (q := freq eq_dec r a). pose proof (freq_pos l a) as P. pose proof (freq_pos r a) as Q. fold p in P. fold q in Q.
    rewrite freq_mix. fold p q. set (m := wl * p + wr * q).
    replace (wl * (- p * (ln p / ln 2)) + wr * (- q * (ln q / ln 2))) with ((- (wl * (p * ln p) + wr * (q * ln q))) * / ln 2) by (field; lra).
    replace (- m * (ln m / ln 2)) with ((- (m * ln m)) * / ln 2) by (field; lra).
    apply Rmult_le_compat_r; [left; apply Rinv_0_lt_compat; auto|].
    assert (M : 0 <= m) by (unfold m; nra). destruct (Rle_lt_or_eq_dec 0 m M) as [M'|M'].
    - pose proof (gibbs P M') as G1. pose proof (gibbs Q M') as G2.
      apply (Rmult_le_compat_l wl) in G1; [|lra]. apply (Rmult_le_compat_l wr) in G2; [|lra].
      replace (m * ln m) with (wl * (p * ln m) + wr * (q * ln m)) by (unfold m; ring).
      assert (wl * (p - m) + wr * (q - m) = 0). { replace (wl * (p - m) + wr * (q - m)) with (m - (wl + wr) * m) by (unfold m; ring). rewrite W. ring. }
      lra.
    - assert (Z1 : 0 <= wl * p) by (apply Rmult_le_pos; auto). assert (Z2 : 0 <= wr * q) by (apply Rmult_le_pos; auto).
      assert (wl * p = 0) as E1 by (unfold m in M'; lra). assert (wr * q = 0) as E2 by (unfold m in M'; lra).
      replace (wl * (p * ln p)) with (wl * p * ln p) by ring. replace (wr * (q * ln q)) with (wr * q * ln q) by ring. rewrite E1, E2, <- M'. lra.
  Qed.
  Lemma shannon_nonneg x ls : 0 <= shannon eq_dec x ls.
  Proof.
    unfold shannon. induction ls as [|a ls IH]; [cbn; lra|]. cbn [map total fold_right]. fold (total (map (fun l => - freq eq_dec x l * (ln (freq eq_dec x l) / ln 2)) ls)).
    pose proof ln2_pos as L2. pose proof (freq_pos x a) as P. assert (freq eq_dec x a <= 1) as Q.
    { unfold freq. destruct x as [|b x]; [cbn; unfold Rdiv; lra|]. assert (b :: x <> []) as N by discriminate. pose proof (len_pos N).
      apply (Rmult_le_reg_r (INR (length (b :: x)))); [auto|]. unfold Rdiv. rewrite Rmult_assoc, Rinv_l by lra.
      rewrite Rmult_1_r, Rmult_1_l. apply le_INR. apply count_occ_bound. }
    assert (- freq eq_dec x a * (ln (freq eq_dec x a) / ln 2) >= 0); [|lra].
    destruct (Rle_lt_or_eq_dec _ _ P) as [P'|P']; [|rewrite <- P'; lra].
    assert (ln (freq eq_dec x a) <= 0). { rewrite <- ln_1. apply ln_le_compat; auto. }
    apply Rle_ge. replace (- freq eq_dec x a * (ln (freq eq_dec x a) / ln 2)) with (freq eq_dec x a * (- ln (freq eq_dec x a) * / ln 2)) by (field; lra).
    apply Rmult_le_pos; auto. apply Rmult_le_pos; [lra|left; apply Rinv_0_lt_compat; auto].
  Qed.
End Gain.

Lemma total_sq_dev m (y : list R) : total (map (fun a => (a - m) * (a - m)) y) = total (map (fun a => a * a) y) - 2 * m * total y + INR (length y) * (m * m).
Proof.
  induction y as [|a y IH]; [cbn; lra|]. cbn [map total fold_right length]. rewrite S_INR.
  fold (total (map (fun a => (a - m) * (a - m)) y)). fold (total (map (fun a => a * a) y)). fold (total y). rewrite IH. ring.
Qed.
Lemma var_vec_sse y : y <> [] -> var_vec y = Ok (sse y / INR (length y)).
Proof.
  intro H. assert (P : 0 < INR (length y)) by (apply lt_0_INR; destruct y; [congruence|cbn; lia]).
  unfold var_vec, mean_vec. destruct y as [|a y]; [congruence|]. cbn [bind map]. f_equal.
  change (map (fun v => v * v) y) with (map (fun v => v * v) y). change (a * a :: map (fun v => v * v) y) with (map (fun v => v * v) (a :: y)).
  rewrite map_length, !Rsum_total. unfold sse. rewrite total_sq_dev. unfold mean_of. field. lra.
Qed.
(** The mean minimises the sum of squared deviations. *)
Lemma sse_least y m : y <> [] -> sse y <= total (map (fun a => (a - m) * (a - m)) y).
Proof.
  intro H. assert (P : 0 < INR (length y)) by (apply lt_0_INR; destruct y; [congruence|cbn; lia]).
  unfold sse. rewrite !total_sq_dev. set (q := total (map (fun a => a * a) y)). unfold mean_of. set (t := total y). set (n := INR (length y)) in *.
  assert (E : q - 2 * (t / n) * t + n * (t / n * (t / n)) = q - t * t / n) by (field; lra). rewrite E.
  assert (0 <= (t - n * m) * (t - n * m) / n). { apply Rmult_le_pos; [apply Rle_0_sqr|left; apply Rinv_0_lt_compat; auto]. }
  replace ((t - n * m) * (t - n * m) / n) with (t * t / n - 2 * m * t + n * (m * m)) in H0 by (field; lra). lra.
Qed.
Lemma sse_split y l r : l <> [] -> r <> [] -> Permutation y (l ++ r) -> sse l + sse r <= sse y.
Proof.
  intros Hl Hr P. pose proof (sse_least (mean_of y) Hl) as A. pose proof (sse_least (mean_of y) Hr) as B.
  assert (E : sse y = total (map (fun a => (a - mean_of y) * (a - mean_of y)) l) + total (map (fun a => (a - mean_of y) * (a - mean_of y)) r)).
  { unfold sse at 1. rewrite (total_perm (Permutation_map _ P)). rewrite map_app. apply total_app. }
  lra.
Qed.

(** A matrix with a column and two rows has a candidate threshold. *)
Lemma candidate_exists {A} (lt : A -> A -> bool) mid nf (D : list (list A * A)) :
  total_order lt -> (0 < nf)%nat -> matrix nf (map fst D) -> (2 <= length D)%nat -> exists t, candidate lt mid D 0 t.
Proof.
  intros HT Hn HM HD.
  assert (C : exists c, map (fun e : list A * A => nth_error (fst e) 0) D = map Some c /\ length c = length D).
  { clear HD. induction D as [|[x v] D IH]; [exists []; auto|]. destruct IH as (c & E & L); [intros r Hr; apply HM; right; auto|].
    assert (length x = nf) as Lx by (apply HM; left; auto). destruct x as [|a x]; [cbn in Lx; lia|].
    exists (a :: c). split; [|cbn [length]; lia]. cbn [map]. f_equal. exact E. }
  destruct C as (c & E & L). pose (s := Sorting.isort lt c).
  assert (Ls : length s = length D) by (unfold s; rewrite Sorting.isort_length; auto).
  destruct s as [|a [|b s']] eqn:Es; [cbn in Ls; lia..|]. exists (mid a b). exists (a :: b :: s'), 0%nat, a, b.
  split; [|split; [|auto]].
  - rewrite E. apply Permutation_map. rewrite <- Es. symmetry. apply Sorting.isort_perm.
  - rewrite <- Es. apply Sorting.isort_sorted.
    + intros u v X. destruct (lt v u) eqn:Y; auto. pose proof (to_trans HT _ _ _ X Y) as Z. rewrite (to_irrefl HT) in Z. discriminate.
    + unfold Sorting.le. intros u v w A1 A2. destruct (lt w u) eqn:X; auto. exfalso. destruct (lt u v) eqn:Y.
      * pose proof (to_trans HT _ _ _ X Y). congruence.
      * assert (v = u) by (apply (to_total HT); auto). subst. congruence.
Qed.

(** The rows of the children of a split node. *)
Lemma rows_child {T I V} (lt : T -> T -> bool) (t : dtree T I V) p D i l r f th g : node_at t p = Node i l r -> n_split i = Some (f, th, g) ->
  map snd (rows_at lt t (p ++ [true]) D) = left_targets lt (rows_at lt t p D) f th /\
  map snd (rows_at lt t (p ++ [false]) D) = right_targets lt (rows_at lt t p D) f th.
Proof.
  intros Hp Es. revert t D Hp. induction p as [|b p IH]; intros t D Hp.
  - cbn in Hp. subst t. destruct i as [n v s]. cbn in Es. subst s. cbn [app]. rewrite rows_at_left, rows_at_right, !rows_at_nil. auto.
  - rewrite node_at_cons in Hp. destruct t as [|i0 l0 r0]; [cbn [child] in Hp; rewrite node_at_null in Hp; discriminate|].
    destruct i0 as [n0 v0 [[[f0 t0] g0]|]].
    + cbn [app]. destruct b; cbn [child] in Hp; rewrite ?rows_at_left, ?rows_at_right; now apply IH.
    + assert (E : forall q, rows_at lt (Node (Info n0 v0 None) l0 r0) (b :: q) D = []).
      { intros q. unfold rows_at. cbn. clear. induction D; auto. }
      cbn [app]. rewrite !E. auto.
Qed.
