(** C42: the Gaussian log density; C43: weighted entropy and Gini index; C44: norms. *)
From Coq Require Import Reals Lra.
From Verif Require Import Base Tree_Spec KDReal_Proofs Impurity_Model Impurity_Spec Impurity_Proofs Vec MathFun_Model MathFun_Proofs Stats_Model Stats_Spec Stats_Proofs Metric_Proofs Weights_Proofs.
Local Open Scope R_scope.

(** * C43: weights *)

(** With positive weights of mean 1, [gini] and [entropy] are the Gini index and the entropy of the distribution that
    gives each label its share of the total weight, with the usual bounds. *)
Theorem C43_weighted : forall (T : Type) (lt : T -> T -> bool) (eq_dec : forall a b : T, {a = b} + {a <> b}) (x ls : list T) (w : list R),
  total_order lt -> x <> [] -> labels_of x ls -> length w = length x -> (forall v, In v w -> 0 < v) -> total w = INR (length x) ->
  exists g e, gini lt x w = Ok g /\ g = weighted_gini eq_dec x w ls /\ entropy lt x w = Ok e /\ e = weighted_shannon eq_dec x w ls /\
    0 <= g <= 1 - 1 / INR (length ls) /\ 0 <= e <= ln (INR (length ls)) / ln 2 /\
    (g = 0 <-> forall a b, In a x -> In b x -> a = b) /\ (e = 0 <-> forall a b, In a x -> In b x -> a = b).
Proof.
  intros T lt eq_dec x ls w HT Hx HL Hl HW HS. exists (weighted_gini eq_dec x w ls), (weighted_shannon eq_dec x w ls).
  assert (P := @n_pos T x ls w Hx Hl HL). assert (E1 : total w / INR (length x) = 1) by (rewrite HS; field; lra).
  assert (Ne := @ls_ne T x ls w Hx Hl HL). assert (Sp := @share_pos T eq_dec x ls w Hx Hl HL HW). assert (St := @share_total T eq_dec x ls w Hx Hl HL HW).
  split; [rewrite (@gini_weighted T lt eq_dec HT x ls w Hx Hl HL HW), E1; f_equal; ring|]. split; [reflexivity|].
  split; [rewrite (@entropy_weighted T lt eq_dec HT x ls w Hx Hl HL HW), E1, ln_1; f_equal; unfold Rdiv; ring|]. split; [reflexivity|].
  split; [unfold Rdiv; rewrite Rmult_1_l; exact (dist_gini (share eq_dec x w) Ne Sp St)|]. split; [exact (dist_shannon (share eq_dec x w) Ne Sp St)|].
  pose proof (@single_labels T x ls w Hx Hl HL) as SL. split; (split; [intro Z; apply SL|intro Z; apply SL in Z; destruct Z as (l & ->)]).
  - exact (dist_gini_zero (share eq_dec x w) Ne Sp St (proj1 HL) Z).
  - unfold weighted_gini. cbn in *. replace (share eq_dec x w l) with 1 by lra. ring.
  - exact (dist_shannon_zero (share eq_dec x w) Ne Sp St (proj1 HL) Z).
  - unfold weighted_shannon. cbn in *. replace (share eq_dec x w l) with 1 by lra. rewrite ln_1. unfold Rdiv. ring.
Qed.
Print Assumptions C43_weighted.

(** For any positive weights, with c = (total weight) / (number of rows) instead of 1: the shares are multiplied by c ... *)
Theorem C43_unnormalised : forall (T : Type) (lt : T -> T -> bool) (eq_dec : forall a b : T, {a = b} + {a <> b}) (x ls : list T) (w : list R),
  total_order lt -> x <> [] -> labels_of x ls -> length w = length x -> (forall v, In v w -> 0 < v) -> let c := total w / INR (length x) in
  gini lt x w = Ok (1 - c * c * (1 - weighted_gini eq_dec x w ls)) /\ entropy lt x w = Ok (c * (weighted_shannon eq_dec x w ls - ln c / ln 2)).
Proof.
  intros T lt eq_dec x ls w HT Hx HL Hl HW c. split; [exact (@gini_weighted T lt eq_dec HT x ls w Hx Hl HL HW)|exact (@entropy_weighted T lt eq_dec HT x ls w Hx Hl HL HW)].
Qed.
Print Assumptions C43_unnormalised.
Example C43_unnormalised_case := C43_unnormalised Z Z.ltb Z.eq_dec [4; 4; 7]%Z [4; 7]%Z [1; 2; 3]
  ltac:(repeat split; intros; rewrite ?Z.ltb_lt, ?Z.ltb_ge, ?Z.ltb_irrefl in *; try lia) ltac:(discriminate)
  ltac:(split; [repeat constructor; simpl; intuition discriminate|simpl; intuition]) eq_refl ltac:(intros v [<-|[<-|[<-|[]]]]; lra).

(** ... so (refuted: "only the proportions of the weights matter") equal labels have an impurity other than 0 unless the
    weights add up to the number of rows, and it is negative when they add up to more. *)
Theorem C43_weights_refuted : forall (T : Type) (lt : T -> T -> bool) (l : T) (w : list R) n, total_order lt -> (0 < n)%nat -> length w = n -> (forall v, In v w -> 0 < v) ->
  exists g e, gini lt (repeat l n) w = Ok g /\ entropy lt (repeat l n) w = Ok e /\ (g = 0 <-> total w = INR n) /\ (e = 0 <-> total w = INR n) /\ (INR n < total w -> g < 0 /\ e < 0).
Proof.
  intros T lt l w n HT Hn Hl HW.
  assert (eq_dec : forall a b : T, {a = b} + {a <> b}).
  { intros a b. destruct (lt a b) eqn:E1; [right; intros ->; rewrite (to_irrefl HT) in E1; discriminate|]. destruct (lt b a) eqn:E2; [right; intros ->; rewrite (to_irrefl HT) in E2; discriminate|]. left. now apply (to_total HT). }
  assert (Hx : repeat l n <> []) by (destruct n; [lia|discriminate]). assert (HL : labels_of (repeat l n) [l]).
  { split; [repeat constructor; auto|]. intro a. split; [intros [<-|[]]; destruct n; [lia|now left]|]. intro Ha. apply repeat_spec in Ha. now left. }
  assert (Hl' : length w = length (repeat l n)) by now rewrite repeat_length.
  pose proof (@gini_weighted T lt eq_dec HT _ _ w Hx Hl' HL HW) as G. pose proof (@entropy_weighted T lt eq_dec HT _ _ w Hx Hl' HL HW) as E.
  pose proof (@share_total T eq_dec _ _ w Hx Hl' HL HW) as St. cbn in St. assert (S1 : share eq_dec (repeat l n) w l = 1) by lra.
  assert (P := @n_pos T _ _ w Hx Hl' HL). assert (Pc := @c_pos T _ _ w Hx Hl' HL HW). rewrite repeat_length in *. set (c := total w / INR n) in *.
  assert (G0 : weighted_gini eq_dec (repeat l n) w [l] = 0) by (unfold weighted_gini; cbn; rewrite S1; ring). assert (E0 : weighted_shannon eq_dec (repeat l n) w [l] = 0) by (unfold weighted_shannon; cbn; rewrite S1, ln_1; unfold Rdiv; ring).
  rewrite G0 in G. rewrite E0 in E. eexists _, _. split; [exact G|]. split; [exact E|]. pose proof ln2_pos as L2.
  assert (C1 : c = 1 <-> total w = INR n). { unfold c. split; intro H; [|rewrite H; field; lra]. apply (f_equal (Rmult (INR n))) in H. field_simplify in H; lra. }
  assert (LC : 1 < c -> 0 < ln c) by (intro; rewrite <- ln_1; apply ln_increasing; lra).
  split; [|split].
  - rewrite <- C1. split; intro H; [nra|rewrite H; ring].
  - rewrite <- C1. split; intro H; [|rewrite H, ln_1; unfold Rdiv; ring]. apply Rmult_integral in H. destruct H as [H|H]; [lra|]. apply ln_zero; [assumption|]. apply (f_equal (Rmult (ln 2))) in H. field_simplify in H; lra.
  - intro H. assert (1 < c). { unfold c. apply Rmult_lt_reg_r with (INR n); [assumption|]. field_simplify; lra. } split; [nra|]. specialize (LC H0). assert (0 < ln c / ln 2) by now apply Rdiv_lt_0_compat. nra.
Qed.
Print Assumptions C43_weights_refuted.

Example C43_weights_case : exists g, gini Z.ltb [4; 4; 7]%Z [1/2; 1; 3/2] = Ok g /\ g = 1 / 2.
Proof.
  destruct (C43_weighted Z Z.ltb Z.eq_dec [4; 4; 7]%Z [4; 7]%Z [1/2; 1; 3/2]) as (g & e & H & Hg & _).
  - constructor; [intros a; apply Z.ltb_irrefl|intros a b c; rewrite !Z.ltb_lt; lia|intros a b; rewrite !Z.ltb_ge; lia].
  - discriminate.
  - split; [repeat constructor; simpl; lia|]. intros l. simpl. tauto.
  - reflexivity.
  - intros v [<-|[<-|[<-|[]]]]; lra.
  - cbn. lra.
  - exists g. split; [assumption|]. rewrite Hg. unfold weighted_gini, share. cbn. field.
Qed.

(** * C44: norms *)

(** [row_norms] and [norm2] give the Euclidean length (the distance from the origin) of each row or column;
    [row_norms] with [squared] gives its square. *)
Theorem C44_norms : forall nr nc x, shape nr nc x -> (0 < nr)%nat -> (0 < nc)%nat ->
  row_norms x false = map (fun r => d2 r (zeros nc)) x /\ row_norms x true = map (fun r => d2 r (zeros nc) ^ 2) x /\
  norm_axis nc x 1 = Ok (map (fun r => d2 r (zeros nc)) x) /\ norm_axis nc x 0 = Ok (map (fun c => d2 c (zeros nr)) (cols_of nc x)).
Proof.
  intros nr nc x (L & W) _ _.
  assert (D : forall r, d2 r (zeros (length r)) = sqrt (total (map (fun a => a ^ 2) r))).
  { intro r. unfold d2. f_equal. induction r as [|a r IH]; [reflexivity|]. unfold zeros, vsub, total in *. cbn [length repeat map2 map fold_right]. rewrite IH. ring. }
  assert (S2 : forall r, Rsum (map (fun a => a * a) r) = total (map (fun a => a ^ 2) r)) by (intro r; rewrite Rsum_total; apply total_ext; intros; ring).
  assert (N : forall r, 0 <= total (map (fun a => a ^ 2) r)) by (intro r; apply total_nonneg; intros; nra).
  assert (E : forall r, In r x -> sqrt (Rsum (map (fun a => a * a) r)) = d2 r (zeros nc)) by (intros r Hr; rewrite S2, <- (W r Hr), D; reflexivity).
  unfold row_norms. split; [|split; [|split]].
  - rewrite map_map. now apply map_ext_in.
  - apply map_ext_in. intros r Hr. rewrite <- (E r Hr), pow2_sqrt by (rewrite S2; apply N). reflexivity.
  - unfold norm_axis. cbn [Z.eqb Pos.eqb]. f_equal. apply map_ext_in. intros r Hr. rewrite <- (E r Hr). reflexivity.
  - unfold norm_axis. cbn [Z.eqb]. f_equal. rewrite col_sum_spec by (intros r Hr; apply in_map_iff in Hr; destruct Hr as (q & <- & Hq); rewrite map_length; auto).
    unfold cols_of. rewrite !map_map. apply map_ext. intro j. subst nr. replace (length x) with (length (col j x)) by (unfold col; apply map_length). rewrite D. f_equal. unfold col. rewrite !map_map. apply total_ext.
    intros r _. replace (nth j (map sq r) 0) with (nth j (map sq r) (sq 0)) by (f_equal; unfold sq; ring). rewrite map_nth. unfold sq. ring.
Qed.
Example C44_norms_case : row_norms [[3; 4]; [0; 2]] false = [5; 2].
Proof.
  destruct (C44_norms 2 2 [[3; 4]; [0; 2]]) as (E & _); [|lia|lia|].
  - split; [reflexivity|]. now intros r [<-|[<-|[]]].
  - rewrite E. unfold d2. cbn. f_equal; [|f_equal]; [replace (_ + _) with (5 * 5) by ring|replace (_ + _) with (2 * 2) by ring]; apply sqrt_square; lra.
Qed.
Print Assumptions C44_norms.

(** * C42: the Gaussian log density *)

(** For a positive variance, [gaussian_fn x u v] is the logarithm of the normal density with mean [u] and variance [v];
    it is largest just at the mean and symmetric around it. *)
Theorem C42_gaussian : forall x u v, 0 < v ->
  exp (gaussian_fn x u v) = / sqrt (2 * PI * v) * exp (- ((x - u) * (x - u)) / (2 * v)) /\
  (x <> u -> gaussian_fn x u v < gaussian_fn u u v) /\ gaussian_fn (u + x) u v = gaussian_fn (u - x) u v.
Proof.
  intros x u v Hv. pose proof PI_RGT_0. assert (P : 0 < sqrt (2 * PI * v)) by (apply sqrt_lt_R0; nra). unfold gaussian_fn. split; [|split].
  - unfold Rminus at 1. rewrite exp_plus, exp_Ropp, exp_ln by assumption. rewrite Rmult_comm. f_equal. f_equal. field. lra.
  - intro N. apply Rplus_lt_compat_r. replace (-1 * (u - u) ^ 2 / (2 * v)) with 0 by (field; lra). assert (0 < (x - u) ^ 2) by (assert (x - u <> 0) by lra; nra). assert (0 < (x - u) ^ 2 / (2 * v)) by (apply Rdiv_lt_0_compat; lra). replace (-1 * (x - u) ^ 2 / (2 * v)) with (- ((x - u) ^ 2 / (2 * v))) by (field; lra). lra.
  - f_equal. field. lra.
Qed.
Print Assumptions C42_gaussian.
Example C42_gaussian_case := C42_gaussian 1 3 2 ltac:(lra).
