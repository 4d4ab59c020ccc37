(** C50: sign fixing, principal components, pseudo-inverse, truncated SVD. *)
From Coq Require Import Reals Lra Lia String.
From Verif Require Import Base Common_Model RDR_Proofs KDReal_Proofs Tree_Model Impurity_Model Impurity_Spec Impurity_Proofs Vec LossSoftmax_Proofs MathFun_Model MathFun_Proofs
  Stats_Model Stats_Spec Stats_Proofs NB_Spec NB_Proofs Linear_Model LinSolve_Proofs Linear_Proofs Decomp_Model Decomp_Spec Decomp_Proofs DecompPca_Proofs.
Local Open Scope R_scope.

(** * svd_flip *)
Lemma flip_signs_nonzero U : (forall u, In u U -> exists a, In a u /\ a <> 0) ->
  exists c, mapM flip_sign U = Ok c /\ length c = length U /\ forall j, (j < length U)%nat -> sign_of_column (nth j U []) (nth j c 0).
Proof.
  intro H. induction U as [|u U IH]; [exists []; split; [auto|split; [auto|cbn; intros; lia]]|].
  destruct (H u (or_introl eq_refl)) as (a & Ha & Na). destruct (@flip_sign_spec u) as (k & E & F); [intros ->; inversion Ha|].
  assert (N : nth k u 0 <> 0) by (apply (@first_largest_nonzero u k F); eauto). destruct IH as (c & Ec & Lc & Sc); [intros; apply H; now right|].
  exists (sign1 (nth k u 0) :: c). cbn [mapM]. rewrite E. cbn [bind]. rewrite Ec. cbn [bind length]. split; [auto|]. split; [lia|]. intros [|j] Hj; cbn [nth]; [|apply Sc; lia].
  split; [now apply sign1_sq|]. exists k. split; [auto|]. rewrite sign1_abs. now apply Rabs_pos_lt.
Qed.
Lemma unit_abs c : c * c = 1 -> c = 1 \/ c = -1.
Proof. intro H. assert ((c - 1) * (c + 1) = 0) by (ring_simplify; lra). destruct (Rmult_integral _ _ H0); lra. Qed.
Lemma scaled_first_largest c u k : c * c = 1 -> first_largest (map Rabs u) k -> first_largest (map Rabs (vscale c u)) k.
Proof.
  intros H F. unfold vscale. rewrite map_map. rewrite (map_ext _ Rabs); [auto|]. intro a. rewrite Rabs_mult. destruct (unit_abs _ H) as [-> | ->]; [rewrite Rabs_R1|rewrite Rabs_left by lra]; lra.
Qed.
(** When no column of U (row of V^T, for the other mode) is zero, each column of U and the matching row of V^T are kept
    together or negated together, every product U diag(s) V^T is unchanged, and the first entry of largest absolute value
    of every column of U (row of V^T) is positive. *)
Theorem C50_flip : forall (b : bool) U Vt, length U = length Vt ->
  (forall u, In u (if b then U else Vt) -> exists a, In a u /\ a <> 0) ->
  exists U' Vt', svd_flip b U Vt = Ok (U', Vt') /\ length U' = length U /\ length Vt' = length Vt /\
  (forall j, (j < length U)%nat ->
    (nth j U' [] = nth j U [] /\ nth j Vt' [] = nth j Vt []) \/
    (nth j U' [] = map Ropp (nth j U []) /\ nth j Vt' [] = map Ropp (nth j Vt []))) /\
  (forall s i k, total (map (fun j => nth j s 0 * nth i (nth j U' []) 0 * nth k (nth j Vt' []) 0) (seq 0 (length U))) =
                 total (map (fun j => nth j s 0 * nth i (nth j U []) 0 * nth k (nth j Vt []) 0) (seq 0 (length U)))) /\
  (forall u, In u (if b then U' else Vt') -> exists i, first_largest (map Rabs u) i /\ 0 < nth i u 0).
Proof.
  intros b U Vt L H. destruct (flip_signs_nonzero _ H) as (c & E & Lc & S). assert (Lc1 : length c = length U) by (destruct b; congruence). assert (Lc2 : length c = length Vt) by congruence.
  exists (map2 vscale c U), (map2 vscale c Vt). unfold svd_flip. rewrite E. cbn [bind]. rewrite Lc1, L, Nat.eqb_refl. cbn [negb]. rewrite !scaled_length by auto.
  assert (S' : forall j, (j < length Vt)%nat -> nth j c 0 * nth j c 0 = 1) by (intros j Hj; apply S; destruct b; lia).
  split; [auto|]. split; [auto|]. split; [auto|]. split; [|split].
  - intros j Hj. rewrite !nth_scaled by auto. destruct (unit_abs _ (S' j ltac:(lia))) as [-> | ->]; [left|right]; split; unfold vscale; try (apply map_ext; intro; ring).
    + rewrite <- map_id. apply map_ext. intro; ring.
    + rewrite <- map_id. apply map_ext. intro; ring.
  - intros s i k. apply total_seq_ext. intros j Hj. rewrite !nth_scaled, !nth_vscale by auto. transitivity (nth j s 0 * (nth j c 0 * nth j c 0) * nth i (nth j U []) 0 * nth k (nth j Vt []) 0); [ring|]. rewrite S' by lia. ring.
  - intros u Hu. assert (Q : exists j, (j < length (if b then U else Vt))%nat /\ u = vscale (nth j c 0) (nth j (if b then U else Vt) [])).
    { destruct b; apply In_nth with (d := []) in Hu; destruct Hu as (j & Hj & <-); rewrite scaled_length in Hj by auto; exists j; (split; [lia|]); now rewrite nth_scaled by auto. }
    destruct Q as (j & Hj & ->). destruct (S j Hj) as (Q & i & Hi & P). exists i. rewrite nth_vscale. split; [now apply scaled_first_largest|auto].
Qed.
Print Assumptions C50_flip.
(** A different number of columns of U and rows of V^T is undefined behaviour. *)
Theorem C50_flip_shape_refuted : forall (b : bool) U Vt, length U <> length Vt -> (forall u, In u (if b then U else Vt) -> exists a, In a u /\ a <> 0) -> svd_flip b U Vt = UB.
Proof.
  intros b U Vt N H. destruct (flip_signs_nonzero _ H) as (c & E & Lc & _). unfold svd_flip. rewrite E. cbn [bind].
  destruct b; rewrite Lc; [rewrite Nat.eqb_refl; cbn [negb]; apply Nat.eqb_neq in N; now rewrite N|]. apply not_eq_sym, Nat.eqb_neq in N. now rewrite N.
Qed.
Print Assumptions C50_flip_shape_refuted.
(** A zero column of U wipes out the matching row of V^T. *)
Theorem C50_flip_zero_refuted : forall n v, (0 < n)%nat -> svd_flip true [zeros n] [v] = Ok ([zeros n], [zeros (length v)]).
Proof.
  intros n v Hn. destruct (@flip_sign_spec (zeros n)) as (k & E & F); [destruct n; [lia|discriminate]|]. unfold svd_flip. cbn [mapM]. rewrite E. cbn [bind mapM length negb Nat.eqb]. rewrite nth_zeros. cbn [map2].
  assert (Z : sign1 0 = 0) by (unfold sign1; destruct (Rltb 0 0) eqn:Q; [apply Rltb_true in Q; lra|auto]). rewrite Z. do 2 f_equal; f_equal.
  - rewrite <- (zeros_length n) at 2. rewrite <- (vscale_length 0). apply zeros_of. intros a Ha. apply in_map_iff in Ha. destruct Ha as (b & <- & _). ring.
  - rewrite <- (vscale_length 0). apply zeros_of. intros a Ha. apply in_map_iff in Ha. destruct Ha as (b & <- & _). ring.
Qed.
Print Assumptions C50_flip_zero_refuted.

(** * Principal components *)
Lemma nth_firstn {A} (d : A) k : forall (l : list A) j, (j < k)%nat -> nth j (firstn k l) d = nth j l d.
Proof. induction k as [|k IH]; intros [|a l] [|j] H; cbn; try lia; auto. apply IH. lia. Qed.
Lemma firstn_orthonormal d k V : orthonormal d V -> orthonormal d (firstn k V).
Proof.
  intros (W & O). split.
  - intros v Hv. apply W. rewrite <- (firstn_skipn k V). apply in_app_iff. auto.
  - rewrite firstn_length. intros i j Hi Hj. rewrite !nth_firstn by lia. apply O; lia.
Qed.
Lemma avg_dot d X v : width d X -> X <> [] -> length v = d -> avg (map (fun r => dot r v) X) = dot (map avg (cols_of d X)) v.
Proof.
  intros W N Lv. assert (P := INR_pos N). unfold avg at 1. rewrite map_length. rewrite (total_ext _ (fun r => total (map (fun j => nth j r 0 * nth j v 0) (seq 0 d)))) by (intros r Hr; apply dot_nths; auto).
  rewrite total_swap. rewrite (@dot_nths d) by (auto; unfold cols_of; now rewrite !map_length, seq_length). unfold Rdiv. rewrite <- total_scal_r. apply total_seq_ext. intros j Hj.
  unfold cols_of. rewrite map_map, nth_seq_map by auto. unfold avg, col. rewrite map_length. rewrite (total_scal_r (nth j v 0) (fun r => nth j r 0)). field. lra.
Qed.
Lemma dot_deviation d X r v : width d X -> In r X -> length v = d -> dot (vsub r (map avg (cols_of d X))) v = dot r v - avg (map (fun r => dot r v) X).
Proof.
  intros W Hr Lv. rewrite (@avg_dot d) by (auto; intros ->; inversion Hr). apply dot_vsub_l. unfold cols_of. rewrite !map_length, seq_length. auto.
Qed.
Lemma energy_variance d X v : width d X -> length v = d -> energy (deviations d X) v / (INR (length X) - 1) = sample_variance (map (fun r => dot r v) X).
Proof.
  intros W Lv. unfold sample_variance, energy, deviations. rewrite !map_length, !map_map. f_equal. apply total_ext. intros r Hr. now rewrite (@dot_deviation d).
Qed.
Lemma total_variance_sqn d X : width d X -> total_variance d X = total (map sqn (deviations d X)) / (INR (length X) - 1).
Proof.
  intro W. unfold total_variance, cols_of. rewrite map_map. destruct (deviations_shape W) as (LD & WD).
  rewrite (total_ext sqn (fun r => total (map (fun j => nth j r 0 ^ 2) (seq 0 d)))).
  2: { intros r Hr. unfold sqn. rewrite (@dot_nths d) by auto. apply total_seq_ext. intros; ring. }
  rewrite total_swap. unfold Rdiv. rewrite <- total_scal_r. apply total_seq_ext. intros j Hj. unfold sample_variance, Rdiv. f_equal; [|unfold col; now rewrite map_length].
  rewrite <- (map_map (fun r => nth j r 0) (fun a => a ^ 2)). change (map (fun r => nth j r 0) (deviations d X)) with (col j (deviations d X)). rewrite <- center_deviations by auto. rewrite col_center by auto. now rewrite map_map.
Qed.
Lemma dev_n {A} (X : list A) : (2 <= length X)%nat -> 0 < INR (length X) - 1.
Proof. intro H. apply le_INR in H. cbn [INR] in H. lra. Qed.
Lemma nth_ev n s j : nth j (map (fun a => a ^ 2 / n) s) 0 = nth j s 0 ^ 2 / n.
Proof. replace 0 with ((fun a => a ^ 2 / n) 0) at 1 by (cbv beta; unfold Rdiv; ring). apply (map_nth (fun a => a ^ 2 / n)). Qed.
Lemma total_firstn_split k (l : list R) : total l = total (firstn k l) + total (skipn k l).
Proof. rewrite <- total_app. now rewrite firstn_skipn. Qed.

(** For at most min(samples, features) components a fit succeeds.  There are k components, of length 1 and orthogonal to
    each other; the explained variance of a component is the variance of the training data projected on it, and these
    variances decrease. *)
Theorem C50_components : forall svd k d m X, (2 <= length X)%nat -> width d X -> (k <= Nat.min (length X) d)%nat ->
  is_svd false (length X) d (deviations d X) (svd false d (deviations d X)) ->
  exists m', pca_fit svd "svd" k d m X = Ok m' /\
    length (p_components m') = k /\ length (p_explained m') = k /\ orthonormal d (p_components m') /\
    (forall j, (j < k)%nat -> nth j (p_explained m') 0 = sample_variance (map (fun r => dot r (nth j (p_components m') [])) X)) /\
    (forall i j, (i <= j)%nat -> (j < k)%nat -> nth j (p_explained m') 0 <= nth i (p_explained m') 0) /\
    (forall j, (j < k)%nat -> 0 <= nth j (p_singular m') 0 /\ nth j (p_singular m') 0 ^ 2 = (INR (length X) - 1) * nth j (p_explained m') 0).
Proof.
  intros svd k d m X N W Lk H. destruct (@pca_fit_spec svd k d m X W Lk H) as (U & V & s & m' & E & HS & _ & F & _). exists m'. split; [auto|]. pose proof (dev_n X N) as P.
  assert (Ls : length s = Nat.min (length X) d) by apply HS. assert (LV : length V = Nat.min (length X) d) by apply HS. rewrite F. cbn [p_components p_explained p_singular].
  split; [rewrite firstn_length; lia|]. split; [rewrite firstn_length, map_length; lia|]. split; [apply firstn_orthonormal; apply HS|]. split; [|split].
  - intros j Hj. rewrite !nth_firstn by auto. rewrite nth_ev. rewrite <- (@energy_variance d) by solve [auto | apply nth_width; [apply HS|lia]].
    rewrite (svd_energy_member (deviations_shape W) HS) by lia. reflexivity.
  - intros i j Hij Hj. rewrite !nth_firstn by lia. rewrite !nth_ev. destruct HS as (_ & _ & _ & _ & _ & Pos & Dec & _).
    assert (D := Dec i j Hij ltac:(lia)). assert (Q := Pos j ltac:(lia)). apply Rmult_le_compat_r; [apply Rlt_le, Rinv_0_lt_compat; auto|]. nra.
  - intros j Hj. rewrite !nth_firstn by lia. rewrite nth_ev. split; [apply HS; lia|]. field. lra.
Qed.
Print Assumptions C50_components.
(** Together the k components explain at least as much variance as any other k orthonormal directions. *)
Theorem C50_optimal : forall svd k d m X m' ws, (2 <= length X)%nat -> width d X -> (k <= Nat.min (length X) d)%nat ->
  is_svd false (length X) d (deviations d X) (svd false d (deviations d X)) -> pca_fit svd "svd" k d m X = Ok m' ->
  orthonormal d ws -> length ws = k ->
  total (map (fun w => sample_variance (map (fun r => dot r w) X)) ws) <= total (map (fun c => sample_variance (map (fun r => dot r c) X)) (p_components m')).
Proof.
  intros svd k d m X m' ws N W Lk H Em OW LW. destruct (@pca_fit_spec svd k d m X W Lk H) as (U & V & s & m'' & E & HS & _ & F & _). rewrite E in Em. injection Em as <-. pose proof (dev_n X N) as P.
  assert (Ls : length s = Nat.min (length X) d) by apply HS. assert (LV : length V = Nat.min (length X) d) by apply HS. rewrite F. cbn [p_components].
  assert (G : forall vs, width d vs -> total (map (fun w => sample_variance (map (fun r => dot r w) X)) vs) = total (map (energy (deviations d X)) vs) / (INR (length X) - 1)).
  { intros vs WV. unfold Rdiv. rewrite <- total_scal_r. apply total_ext. intros w Hw. symmetry. apply energy_variance; auto. }
  destruct (firstn_orthonormal d k V) as (WF & _); [apply HS|]. rewrite !G by (auto; apply OW). apply Rmult_le_compat_r; [apply Rlt_le, Rinv_0_lt_compat; auto|].
  eapply Rle_trans; [apply (svd_optimal (deviations_shape W) HS); [auto|lia]|]. rewrite LW. right. rewrite (total_rows [] _ (firstn k V)), firstn_length. replace (Nat.min k (length V)) with k by lia.
  apply total_seq_ext. intros j Hj. rewrite nth_firstn by auto. symmetry. apply (svd_energy_member (deviations_shape W) HS). lia.
Qed.
Print Assumptions C50_optimal.
(** The ratios are the explained variances divided by the variance of the data; they are not negative, add up to at most
    1, and to 1 when all components are kept. *)
Theorem C50_ratio : forall svd k d m X m', (2 <= length X)%nat -> width d X -> (k <= Nat.min (length X) d)%nat ->
  is_svd false (length X) d (deviations d X) (svd false d (deviations d X)) -> pca_fit svd "svd" k d m X = Ok m' -> 0 < total_variance d X ->
  length (p_ratio m') = k /\
  (forall j, (j < k)%nat -> nth j (p_ratio m') 0 = nth j (p_explained m') 0 / total_variance d X /\ 0 <= nth j (p_ratio m') 0) /\
  total (p_ratio m') <= 1 /\ (k = Nat.min (length X) d -> total (p_ratio m') = 1).
Proof.
  intros svd k d m X m' N W Lk H Em TV. destruct (@pca_fit_spec svd k d m X W Lk H) as (U & V & s & m'' & E & HS & _ & F & _). rewrite E in Em. injection Em as <-. pose proof (dev_n X N) as P.
  assert (Ls : length s = Nat.min (length X) d) by apply HS. set (ev := map (fun a => a ^ 2 / (INR (length X) - 1)) s) in *.
  assert (T : total ev = total_variance d X).
  { rewrite total_variance_sqn by auto. rewrite (svd_total (deviations_shape W) HS). unfold ev, Rdiv. apply total_scal_r. }
  assert (PE : forall a, In a ev -> 0 <= a) by (intros a Ha; apply in_map_iff in Ha; destruct Ha as (b & <- & _); apply Rmult_le_pos; [apply pow2_ge_0|apply Rlt_le, Rinv_0_lt_compat; auto]).
  assert (Le : length ev = length s) by apply map_length. set (rt := map (fun a => a / total ev) ev). assert (TR : total rt = 1) by (unfold rt, Rdiv; rewrite total_scal_r, map_id; field; lra).
  assert (PR : forall a, In a rt -> 0 <= a) by (intros a Ha; apply in_map_iff in Ha; destruct Ha as (b & <- & Hb); apply Rmult_le_pos; [auto|apply Rlt_le, Rinv_0_lt_compat; lra]).
  assert (Lr : length rt = length ev) by apply map_length. rewrite F. cbn [p_ratio p_explained]. fold ev rt. split; [rewrite firstn_length; lia|]. split; [|split].
  - intros j Hj. rewrite !nth_firstn by auto. split; [|apply PR, nth_In; lia]. unfold rt. replace 0 with ((fun a => a / total ev) 0) at 1 by (cbv beta; unfold Rdiv; ring). rewrite (map_nth (fun a => a / total ev)). now rewrite T.
  - pose proof (total_firstn_split k rt). assert (0 <= total (skipn k rt)); [|lra]. rewrite <- (map_id (skipn k rt)). apply total_nonneg. intros a Ha. apply PR. rewrite <- (firstn_skipn k rt). apply in_app_iff. auto.
  - intros ->. rewrite firstn_all2 by lia. auto.
Qed.
Print Assumptions C50_ratio.
(** More components than min(samples, features), or a solver other than "svd", is undefined behaviour. *)
Theorem C50_too_many_refuted : forall svd k d m X, width d X -> (Nat.min (length X) d < k)%nat ->
  is_svd false (length X) d (deviations d X) (svd false d (deviations d X)) -> pca_fit svd "svd" k d m X = UB.
Proof.
  intros svd k d m X W Lk. unfold pca_fit. rewrite center_deviations by auto. destruct (svd false d (deviations d X)) as ((U, s), V). intro H.
  assert (LL : length U = length V) by (destruct H as (_ & L1 & L2 & _); congruence). assert (Ls : length s = Nat.min (length X) d) by apply H.
  destruct (@flip_signs_unit (length X) U) as (c & E & Lc & S); [apply H|]. change (String.eqb "svd" "svd") with true. cbn match. unfold svd_flip. rewrite E. cbn [bind]. rewrite <- LL, Lc, Nat.eqb_refl. cbn [negb bind].
  destruct (Nat.ltb_spec k (Nat.min (length X) d)); [lia|]. cbn [bind]. unfold top_rows at 1. destruct (Nat.leb_spec k (length s)); [lia|reflexivity].
Qed.
Print Assumptions C50_too_many_refuted.
Theorem C50_solver_refuted : forall svd solver k d m X, solver <> "svd"%string -> (0 < k \/ 0 < Nat.min (length X) d)%nat -> pca_fit svd solver k d m X = UB.
Proof.
  intros svd solver k d m X N P. unfold pca_fit. apply String.eqb_neq in N. rewrite N. cbn [bind]. destruct (Nat.ltb_spec k (Nat.min (length X) d)).
  - unfold bottom_rows. cbn [map length]. destruct (Nat.leb_spec (Nat.min (length X) d - k) 0); [lia|reflexivity].
  - cbn [bind]. unfold top_rows at 1. cbn [length]. destruct (Nat.leb_spec k 0); [lia|reflexivity].
Qed.
Print Assumptions C50_solver_refuted.

(** [transform] gives for each row, minus the mean of the rows passed in, the coordinates of the closest point of the
    span of the components.  For the training data this is the orthogonal projection of the centred data. *)
Theorem C50_transform : forall m d X, orthonormal d (p_components m) -> p_features m = d -> width d X ->
  exists T, pca_transform m d X = Ok T /\ length T = length X /\
  forall i, (i < length X)%nat -> closest_coordinates d (p_components m) (nth i (deviations d X) []) (nth i T []).
Proof.
  intros m d X O Ed W. unfold pca_transform. rewrite Ed, Nat.eqb_refl, center_deviations by auto. eexists. split; [reflexivity|]. destruct (deviations_shape W) as (LD & WD). split; [now rewrite map_length|].
  intros i Hi. apply closest; [auto|apply WD, nth_In; lia|]. rewrite (nth_indep _ [] (map (fun c => dot [] c) (p_components m))) by (now rewrite map_length, LD). now rewrite (map_nth (fun r => map (fun c => dot r c) (p_components m))).
Qed.
Print Assumptions C50_transform.
(** The mean is that of the data passed in, not of the training data: a single sample is always sent to the origin, and
    moving all new samples by the same vector changes nothing. *)
Theorem C50_transform_one_refuted : forall m x, pca_transform m (p_features m) [x] = Ok [zeros (length (p_components m))] \/ length x <> p_features m.
Proof.
  intros m x. destruct (Nat.eq_dec (length x) (p_features m)) as [L|]; [left|now right]. assert (W : width (p_features m) [x]) by (intros y [<-|[]]; auto).
  unfold pca_transform. rewrite Nat.eqb_refl, center_deviations by auto. cbn [deviations map]. do 2 f_equal. rewrite <- (map_length (fun c => dot (vsub x (map avg (cols_of (p_features m) [x]))) c)). apply zeros_of.
  intros a Ha. apply in_map_iff in Ha. destruct Ha as (c & <- & _). replace (vsub x (map avg (cols_of (p_features m) [x]))) with (zeros (length x)); [apply dot_zeros_l|]. symmetry.
  rewrite <- (vsub_length x (map avg (cols_of (p_features m) [x]))) at 1 by (unfold cols_of; now rewrite !map_length, seq_length). apply zeros_of. intros b Hb. apply In_nth with (d := 0) in Hb. destruct Hb as (j & Hj & <-).
  rewrite vsub_length in Hj by (unfold cols_of; now rewrite !map_length, seq_length). rewrite nth_vsub by (unfold cols_of; now rewrite !map_length, seq_length). unfold cols_of. rewrite map_map, nth_seq_map by lia. unfold avg, col. cbn. field.
Qed.
Print Assumptions C50_transform_one_refuted.
Lemma deviations_shift d X t : width d X -> X <> [] -> length t = d -> deviations d (map (fun r => vadd r t) X) = deviations d X.
Proof.
  intros W N Lt. unfold deviations. rewrite map_map. apply map_ext_in. intros r Hr. assert (Lc : forall Y, length (map avg (cols_of d Y)) = d) by (intro; unfold cols_of; now rewrite !map_length, seq_length).
  apply (@list_ext d); [rewrite vsub_length; rewrite vadd_length; rewrite ?Lc, ?(W r Hr); auto|rewrite vsub_length; rewrite ?Lc, ?(W r Hr); auto|]. intros j Hj.
  rewrite !nth_vsub by (rewrite ?vadd_length; rewrite ?Lc, ?(W r Hr); auto). rewrite nth_vadd by (rewrite (W r Hr); auto). unfold cols_of. rewrite !map_map, !nth_seq_map by auto.
  assert (E : col j (map (fun r => vadd r t) X) = map (fun r => nth j r 0 + nth j t 0) X) by (unfold col; rewrite map_map; apply map_ext_in; intros x Hx; apply nth_vadd; rewrite (W x Hx); auto).
  rewrite E. rewrite (avg_scal_plus (fun r => nth j r 0)) by auto. change (map (fun r => nth j r 0) X) with (col j X). lra.
Qed.
Theorem C50_transform_shift_refuted : forall m d X t, width d X -> X <> [] -> length t = d -> pca_transform m d (map (fun r => vadd r t) X) = pca_transform m d X.
Proof.
  intros m d X t W N Lt. unfold pca_transform. rewrite !center_deviations; auto.
  - now rewrite deviations_shift.
  - intros x Hx. apply in_map_iff in Hx. destruct Hx as (r & <- & Hr). rewrite vadd_length; rewrite (W r Hr); auto.
Qed.
Print Assumptions C50_transform_shift_refuted.

(** * Covariance *)
Lemma total_skipn_firstn k (l : list R) : total (skipn k l) = total l - total (firstn k l).
Proof. pose proof (total_firstn_split k l). lra. Qed.
Lemma avg_bounds (l : list R) lo hi : l <> [] -> (forall a, In a l -> lo <= a <= hi) -> lo <= avg l <= hi.
Proof.
  intros N H. pose proof (INR_pos N) as P. unfold avg. assert (lo * INR (length l) <= total l <= hi * INR (length l)).
  { rewrite <- (map_id l) at 2 3. replace (lo * INR (length l)) with (total (map (fun _ => lo) l)) by (rewrite total_const; ring). replace (hi * INR (length l)) with (total (map (fun _ => hi) l)) by (rewrite total_const; ring).
    split; apply total_le; intros a Ha; apply H; auto. }
  split; [apply Rmult_le_reg_r with (INR (length l))|apply Rmult_le_reg_r with (INR (length l))]; auto; unfold Rdiv; rewrite Rmult_assoc, Rinv_l by lra; lra.
Qed.
Lemma fitted_noise d k X U V s m m' : (2 <= length X)%nat -> width d X -> (k <= Nat.min (length X) d)%nat -> is_svd false (length X) d (deviations d X) (U, s, V) -> fitted d k X U V s m m' ->
  0 <= p_noise m' /\ (forall j, (j < k)%nat -> p_noise m' <= nth j (p_explained m') 0) /\
  INR (Nat.min (length X) d - k) * p_noise m' = total_variance d X - total (p_explained m').
Proof.
  intros N W Lk HS F. pose proof (dev_n X N) as P. assert (Ls : length s = Nat.min (length X) d) by apply HS. rewrite F. cbn [p_noise p_explained]. set (ev := map (fun a => a ^ 2 / (INR (length X) - 1)) s).
  assert (T : total ev = total_variance d X).
  { rewrite total_variance_sqn by auto. rewrite (svd_total (deviations_shape W) HS). unfold ev, Rdiv. apply total_scal_r. }
  assert (Le : length ev = length s) by apply map_length. assert (IP : 0 <= / (INR (length X) - 1)) by (apply Rlt_le, Rinv_0_lt_compat; auto).
  assert (PE : forall a, In a ev -> 0 <= a) by (intros a Ha; apply in_map_iff in Ha; destruct Ha as (b & <- & _); apply Rmult_le_pos; [apply pow2_ge_0|auto]).
  assert (DE : forall i j, (i <= j)%nat -> (j < length s)%nat -> nth j ev 0 <= nth i ev 0).
  { intros i j Hij Hj. unfold ev. rewrite !nth_ev. destruct HS as (_ & _ & _ & _ & _ & Pos & Dec & _). assert (D := Dec i j Hij Hj). assert (Q := Pos j Hj). apply Rmult_le_compat_r; [auto|nra]. }
  destruct (Nat.ltb_spec k (Nat.min (length X) d)).
  - assert (NE : skipn k ev <> []) by (intro Z; apply (f_equal (@length R)) in Z; rewrite skipn_length in Z; cbn in Z; lia).
    assert (B : forall hi, (forall a, In a (skipn k ev) -> 0 <= a <= hi) -> 0 <= avg (skipn k ev) <= hi) by (intros hi Hh; now apply avg_bounds).
    assert (I : forall a, In a (skipn k ev) -> In a ev) by (intros a Ha; rewrite <- (firstn_skipn k ev); apply in_app_iff; auto). split; [|split].
    + apply (B (total ev)). intros a Ha. split; [auto|]. apply total_member; auto.
    + intros j Hj. rewrite nth_firstn by auto. apply (B (nth j ev 0)). intros a Ha. split; [auto|]. apply In_nth with (d := 0) in Ha. destruct Ha as (i & Hi & <-). rewrite skipn_length in Hi. rewrite nth_skipn. apply DE; lia.
    + unfold avg. rewrite skipn_length, Le, Ls. rewrite total_skipn_firstn, T. field. apply not_0_INR. lia.
  - split; [lra|]. split.
    + intros j Hj. rewrite nth_firstn by auto. apply PE, nth_In. lia.
    + replace k with (length ev) by lia. rewrite firstn_all, T. replace (Nat.min (length X) d - length ev)%nat with 0%nat by lia. cbn. lra.
Qed.
Lemma get_cov_fields m : p_features (pca_get_covariance m) = p_features m /\ p_components (pca_get_covariance m) = p_components m /\ p_explained (pca_get_covariance m) = p_explained m /\ p_noise (pca_get_covariance m) = p_noise m.
Proof. repeat split. Qed.
(** After a fit, the noise variance is the average variance along the directions left out, and [get_covariance] is the
    symmetric matrix that multiplies each component by its explained variance and every vector orthogonal to the
    components by the noise variance.  Its quadratic form is at least the noise variance. *)
Theorem C50_covariance : forall svd k d m X m', (2 <= length X)%nat -> width d X -> (k <= Nat.min (length X) d)%nat ->
  is_svd false (length X) d (deviations d X) (svd false d (deviations d X)) -> pca_fit svd "svd" k d m X = Ok m' ->
  let C := p_covariance (pca_get_covariance m') in
  0 <= p_noise m' /\ INR (Nat.min (length X) d - k) * p_noise m' = total_variance d X - total (p_explained m') /\
  shape d d C /\
  (forall z z', length z = d -> length z' = d -> dot (apply C z) z' = dot z (apply C z')) /\
  (forall j, (j < k)%nat -> apply C (nth j (p_components m') []) = vscale (nth j (p_explained m') 0) (nth j (p_components m') [])) /\
  (forall z, length z = d -> (forall j, (j < k)%nat -> dot (nth j (p_components m') []) z = 0) -> apply C z = vscale (p_noise m') z) /\
  (forall z, length z = d -> p_noise m' * sqn z <= dot z (apply C z)).
Proof.
  intros svd k d m X m' N W Lk H Em. destruct (@pca_fit_spec svd k d m X W Lk H) as (U & V & s & m'' & E & HS & _ & F & _). rewrite E in Em. injection Em as <-.
  destruct (@fitted_noise d k X U V s m m'' N W Lk HS F) as (P0 & P1 & P2). assert (Ls : length s = Nat.min (length X) d) by apply HS. assert (LV : length V = Nat.min (length X) d) by apply HS.
  assert (Ed : p_features m'' = d) by (rewrite F; reflexivity). assert (O : orthonormal d (p_components m'')) by (rewrite F; apply firstn_orthonormal, HS).
  assert (LC : length (p_components m'') = k) by (rewrite F; cbn [p_components]; rewrite firstn_length; lia). assert (Lv : length (p_explained m'') = k) by (rewrite F; cbn [p_explained]; rewrite firstn_length, map_length; lia).
  assert (A : forall z, length z = d -> shape d d (p_covariance (pca_get_covariance m'')) /\ apply (p_covariance (pca_get_covariance m'')) z =
    vadd (comb d (fun j => Rmax (nth j (p_explained m'') 0 - p_noise m'') 0 * dot (nth j (p_components m'') []) z) (p_components m'')) (vscale (p_noise m'') z)).
  { intros z Lz. rewrite <- Ed. apply covariance_apply; auto; try congruence; rewrite Ed; auto; apply O. }
  clear F. set (C := p_covariance (pca_get_covariance m'')) in *. set (vs := p_components m'') in *. set (ev := p_explained m'') in *. set (t := p_noise m'') in *. cbv zeta. clearbody C vs ev t.
  assert (Q : forall z z', length z = d -> length z' = d -> dot (apply C z) z' = total (map (fun j => Rmax (nth j ev 0 - t) 0 * dot (nth j vs []) z * dot (nth j vs []) z') (seq 0 k)) + t * dot z z').
  { intros z z' Lz Lz'. destruct (A z Lz) as (_ & ->). rewrite dot_vadd_l by (rewrite comb_length, vscale_length; [auto|apply O]). rewrite dot_vscale_l, dot_comb by apply O. now rewrite LC. }
  split; [auto|]. split; [auto|]. split; [apply (A (zeros d)); apply zeros_length|]. split; [|split; [|split]].
  - intros z z' Lz Lz'. rewrite (dot_comm z), !Q by auto. rewrite (dot_comm z z'). f_equal. apply total_seq_ext. intros; ring.
  - intros j Hj. assert (Lj : length (nth j vs []) = d) by (apply nth_width; [apply O|lia]). destruct (A _ Lj) as (_ & ->). apply (@list_ext d).
    + rewrite vadd_length; rewrite comb_length; [auto|apply O|now rewrite vscale_length|apply O].
    + now rewrite vscale_length.
    + intros i Hi. rewrite nth_vadd by (rewrite comb_length, vscale_length; [auto|apply O]). rewrite !nth_vscale. rewrite nth_comb by apply O.
      rewrite (@total_seq_ext (length vs) _ (fun l => (Rmax (nth l ev 0 - t) 0 * nth i (nth l vs []) 0) * (if (j =? l)%nat then 1 else 0))).
      2: { intros l Hl. destruct O as (_ & O). rewrite O by lia. rewrite Nat.eqb_sym. ring. }
      rewrite total_kron by lia. rewrite Rmax_left by (specialize (P1 j Hj); lra). ring.
  - intros z Lz Hz. destruct (A z Lz) as (_ & ->). apply (@list_ext d).
    + rewrite vadd_length; rewrite comb_length; [auto|apply O|now rewrite vscale_length|apply O].
    + now rewrite vscale_length.
    + intros i Hi. rewrite nth_vadd by (rewrite comb_length, vscale_length; [auto|apply O]). rewrite nth_comb by apply O. rewrite (@total_seq_ext (length vs) _ (fun _ => 0)); [rewrite total_const; ring|].
      intros j Hj. rewrite Hz by lia. ring.
  - intros z Lz. rewrite dot_comm, Q by auto. change (dot z z) with (sqn z). assert (0 <= total (map (fun j => Rmax (nth j ev 0 - t) 0 * dot (nth j vs []) z * dot (nth j vs []) z) (seq 0 k))); [|lra].
    apply total_nonneg. intros j _. rewrite Rmult_assoc. apply Rmult_le_pos; [apply Rmax_r|]. pose proof (pow2_ge_0 (dot (nth j vs []) z)). lra.
Qed.
Print Assumptions C50_covariance.
(** With all components it is the sample covariance of the training data. *)
Theorem C50_covariance_full : forall svd d m X m', (2 <= length X)%nat -> width d X ->
  is_svd false (length X) d (deviations d X) (svd false d (deviations d X)) -> pca_fit svd "svd" (Nat.min (length X) d) d m X = Ok m' ->
  forall i j, (i < d)%nat -> (j < d)%nat -> entry (p_covariance (pca_get_covariance m')) i j = sample_cov X i j.
Proof.
  intros svd d m X m' N W H Em i j Hi Hj. destruct (@pca_fit_spec svd _ d m X W (Nat.le_refl _) H) as (U & V & s & m'' & E & HS & _ & F & _). rewrite E in Em. injection Em as <-. pose proof (dev_n X N) as P.
  assert (Ls : length s = Nat.min (length X) d) by apply HS. assert (LV : length V = Nat.min (length X) d) by apply HS.
  unfold fitted in F. rewrite !firstn_all2 in F by (rewrite ?map_length; lia). rewrite Nat.ltb_irrefl in F.
  assert (Wv : width d V) by apply HS.
  destruct (@covariance_apply m'' (basis d j)) as ((S1 & S2) & A); [rewrite F; exact Wv|rewrite F; cbn; rewrite map_length; congruence|rewrite F; cbn; lra|rewrite F; apply basis_length|].
  assert (Ed : p_features m'' = d) by (rewrite F; reflexivity). rewrite Ed in *. apply (f_equal (fun l => nth i l 0)) in A. rewrite nth_apply in A.
  assert (B : forall r, length r = d -> forall l, (l < d)%nat -> dot r (basis d l) = nth l r 0).
  { intros r Lr l Hl. rewrite (@dot_nths d) by (auto; apply basis_length). rewrite <- (@total_kron d (fun q => nth q r 0) l) by auto. apply total_seq_ext. intros q Hq. now rewrite nth_basis, (Nat.eqb_sym q) by auto. }
  unfold entry. rewrite B in A by (auto; apply S2, nth_In; lia). rewrite A. rewrite F. cbn [p_components p_explained p_noise]. rewrite nth_vadd by (rewrite comb_length, vscale_length, basis_length; auto).
  rewrite nth_vscale, nth_comb by auto. unfold sample_cov. destruct (deviations_shape W) as (LD & WD).
  transitivity (total (map (fun r => dot r (basis d i) * dot r (basis d j)) (deviations d X)) / (INR (length X) - 1)).
  - rewrite (svd_bilinear (deviations_shape W) HS) by apply basis_length. rewrite LV, <- Ls. unfold Rdiv. rewrite <- total_scal_r. rewrite Rmult_0_l, Rplus_0_r. apply total_seq_ext. intros l Hl.
    change (map (fun a => a ^ 2 * / (INR (length X) - 1)) s) with (map (fun a => a ^ 2 / (INR (length X) - 1)) s). rewrite nth_ev. rewrite !B by (auto; apply nth_width; auto; lia). rewrite Rmax_left; [unfold Rdiv; ring|]. assert (0 <= nth l s 0 ^ 2 / (INR (length X) - 1)); [|lra]. apply Rmult_le_pos; [apply pow2_ge_0|apply Rlt_le, Rinv_0_lt_compat; auto].
  - f_equal. unfold deviations. rewrite map_map. apply total_ext. intros r Hr. assert (L2 : length r = length (map avg (cols_of d X))) by (unfold cols_of; rewrite !map_length, seq_length; auto).
    rewrite !B by (auto; rewrite vsub_length; auto). rewrite !nth_vsub by auto. unfold cols_of. now rewrite map_map, !nth_seq_map by auto.
Qed.
Print Assumptions C50_covariance_full.

(** * Pseudo-inverse *)
Section Pinv.
  Variables (svd : bool -> nat -> matrix -> factors) (tol : R) (nr nc : nat) (A : list (list R)) (U V : list (list R)) (s : list R).
  Hypothesis E : svd true nc A = (U, s, V).
  Hypothesis HA : shape nr nc A.
  Hypothesis H : is_svd true nr nc A (U, s, V).
  Let P := pinv svd tol nr nc A.
  Lemma pinv_shape : shape nc nr P.
  Proof. apply (@pinv_apply svd tol nr nc A (zeros nr) U s V E H (zeros_length nr)). Qed.
  Lemma pinv_coef z j : length z = nr -> (j < length V)%nat -> dot (nth j V []) (apply P z) = if (j <? length s)%nat then inv_cut tol (nth j s 0) * dot (nth j U []) z else 0.
  Proof.
    intros Lz Hj. destruct (@pinv_apply svd tol nr nc A z U s V E H Lz) as (_ & Q). unfold P. rewrite Q. rewrite dot_comm. apply dot_comb_member; [apply H|auto].
  Qed.
  Lemma mat_coef w j : length w = nc -> (j < length U)%nat -> dot (nth j U []) (apply A w) = if (j <? length s)%nat then nth j s 0 * dot (nth j V []) w else 0.
  Proof. intros Lw Hj. rewrite (svd_apply HA H w Lw). rewrite dot_comm. apply dot_comb_member; [apply H|auto]. Qed.
  Lemma LsU : (length s <= length U)%nat /\ (length s <= length V)%nat.
  Proof. destruct H as (L & L1 & L2 & _). cbn match in *. lia. Qed.
  Lemma apply_A_len w : length (apply A w) = nr.
  Proof. rewrite apply_length. apply HA. Qed.
  Lemma apply_P_len z : length (apply P z) = nc.
  Proof. rewrite apply_length. apply pinv_shape. Qed.
  Lemma pinv_penrose : 0 <= tol -> (forall j, (j < length s)%nat -> nth j s 0 = 0 \/ tol < nth j s 0) -> pseudo_inverse nr nc A P.
  Proof.
    intros T C. destruct LsU as (L1 & L2). assert (I : forall j, (j < length s)%nat -> nth j s 0 * inv_cut tol (nth j s 0) * nth j s 0 = nth j s 0 /\ inv_cut tol (nth j s 0) * nth j s 0 * inv_cut tol (nth j s 0) = inv_cut tol (nth j s 0)).
    { intros j Hj. unfold inv_cut. destruct (Rltb tol (nth j s 0)) eqn:B; [apply Rltb_true in B; split; field; lra|]. apply Rltb_false in B. destruct (C j Hj) as [->|]; [split; ring|lra]. }
    split; [apply pinv_shape|]. split; [|split; [|split]].
    - intros w Lw. rewrite (svd_apply HA H (apply P (apply A w)) (apply_P_len _)). etransitivity; [|symmetry; exact (svd_apply HA H w Lw)]. apply comb_ext. intros j Hj. destruct (Nat.ltb_spec j (length s)); [|auto].
      rewrite pinv_coef by (auto; try apply apply_A_len; lia). destruct (Nat.ltb_spec j (length s)); [|lia]. rewrite mat_coef by auto. destruct (Nat.ltb_spec j (length s)); [|lia]. destruct (I j ltac:(lia)) as (Q & _). transitivity ((nth j s 0 * inv_cut tol (nth j s 0) * nth j s 0) * dot (nth j V []) w); [ring|now rewrite Q].
    - intros z Lz. pose proof (@pinv_apply svd tol nr nc A (apply A (apply P z)) U s V E H (apply_A_len _)) as (_ & Q). fold P in Q. rewrite Q. clear Q.
      pose proof (@pinv_apply svd tol nr nc A z U s V E H Lz) as (_ & Q). fold P in Q. etransitivity; [|symmetry; exact Q]. clear Q. apply comb_ext. intros j Hj. destruct (Nat.ltb_spec j (length s)); [|auto].
      rewrite mat_coef by (try apply apply_P_len; lia). destruct (Nat.ltb_spec j (length s)); [|lia]. rewrite pinv_coef by auto. destruct (Nat.ltb_spec j (length s)); [|lia]. destruct (I j ltac:(lia)) as (_ & Q). transitivity ((inv_cut tol (nth j s 0) * nth j s 0 * inv_cut tol (nth j s 0)) * dot (nth j U []) z); [ring|now rewrite Q].
    - intros z z' Lz Lz'. rewrite (dot_comm z). rewrite !(svd_apply HA H _ (apply_P_len _)). rewrite !dot_comb by apply H. apply total_seq_ext. intros j Hj. destruct (Nat.ltb_spec j (length s)); [|ring].
      rewrite !pinv_coef by (auto; lia). destruct (Nat.ltb_spec j (length s)); [|lia]. ring.
    - intros w w' Lw Lw'. rewrite (dot_comm w). pose proof (@pinv_apply svd tol nr nc A (apply A w) U s V E H (apply_A_len _)) as (_ & Q). fold P in Q. rewrite Q. clear Q.
      pose proof (@pinv_apply svd tol nr nc A (apply A w') U s V E H (apply_A_len _)) as (_ & Q). fold P in Q. rewrite Q. clear Q. rewrite !dot_comb by apply H. apply total_seq_ext. intros j Hj. destruct (Nat.ltb_spec j (length s)); [|ring].
      rewrite !mat_coef by (auto; lia). destruct (Nat.ltb_spec j (length s)); [|lia]. ring.
  Qed.
  Lemma pinv_vanishes z : length z = nr -> (forall j, (j < length s)%nat -> nth j s 0 <= tol) -> apply P z = zeros nc.
  Proof.
    intros Lz C. destruct (@pinv_apply svd tol nr nc A z U s V E H Lz) as (_ & Q). fold P in Q. rewrite Q. assert (WV : width nc V) by apply H.
    rewrite <- (comb_length (fun j => if (j <? length s)%nat then inv_cut tol (nth j s 0) * dot (nth j U []) z else 0) WV) at 2. apply zeros_of. intros a Ha. apply In_nth with (d := 0) in Ha. destruct Ha as (i & Hi & <-).
    rewrite nth_comb by auto. rewrite (@total_seq_ext (length V) _ (fun _ => 0)); [rewrite total_const; ring|]. intros j Hj. destruct (Nat.ltb_spec j (length s)); [|ring]. unfold inv_cut. destruct (Rltb tol (nth j s 0)) eqn:B; [|ring].
    apply Rltb_true in B. specialize (C j ltac:(lia)). lra.
  Qed.
End Pinv.
(** [pinv] is the Moore-Penrose inverse when every singular value is 0 or above the cut-off. *)
Theorem C50_pinv : forall svd tol nr nc A, shape nr nc A -> 0 <= tol -> is_svd true nr nc A (svd true nc A) ->
  (forall a, In a (snd (fst (svd true nc A))) -> a = 0 \/ tol < a) -> pseudo_inverse nr nc A (pinv svd tol nr nc A).
Proof.
  intros svd tol nr nc A HA T H C. destruct (svd true nc A) as ((U, s), V) eqn:E. eapply pinv_penrose; eauto. intros j Hj. apply C. cbn. now apply nth_In.
Qed.
Print Assumptions C50_pinv.
(** The cut-off is absolute: a matrix whose singular values are all at most [tol] (1e-6 by default), invertible or not,
    gets the pseudo-inverse 0. *)
Theorem C50_pinv_cut_refuted : forall svd tol nr nc A z, is_svd true nr nc A (svd true nc A) -> length z = nr ->
  (forall a, In a (snd (fst (svd true nc A))) -> a <= tol) -> apply (pinv svd tol nr nc A) z = zeros nc.
Proof.
  intros svd tol nr nc A z H Lz C. destruct (svd true nc A) as ((U, s), V) eqn:E. eapply pinv_vanishes; eauto. intros j Hj. apply C. cbn. now apply nth_In.
Qed.
Print Assumptions C50_pinv_cut_refuted.

(** * Precision and score *)
Lemma apply_sub A d u v : width d A -> length u = d -> length v = d -> apply A (vsub u v) = vsub (apply A u) (apply A v).
Proof.
  intros W L1 L2. unfold apply. rewrite vsub_maps. apply map_ext_in. intros r Hr. apply dot_vsub_r. congruence.
Qed.
Lemma cauchy_unit u v : dot u u = 1 -> dot v v = 1 -> length u = length v -> dot u v <= 1.
Proof. intros H1 H2 L. pose proof (sqn_nonneg (vsub u v)) as Q. rewrite sqn_vsub in Q by auto. unfold sqn in Q. lra. Qed.
(** A symmetric matrix whose quadratic form is at least c > 0 on unit vectors. *)
Lemma coercive_pinv svd tol d C c : shape d d C -> 0 <= tol -> tol < c -> is_svd true d d C (svd true d C) ->
  (forall z z', length z = d -> length z' = d -> dot (apply C z) z' = dot z (apply C z')) -> (forall z, length z = d -> c * sqn z <= dot z (apply C z)) ->
  forall z, length z = d -> apply C (apply (pinv svd tol d d C) z) = z /\ apply (pinv svd tol d d C) (apply C z) = z.
Proof.
  intros HC T Tc H Sy Co. destruct (svd true d C) as ((U, s), V) eqn:E. assert (Ls : length s = d /\ length U = d /\ length V = d) by (destruct H as (L & L1 & L2 & _); cbn match in *; rewrite Nat.min_id in L; auto). destruct Ls as (Ls & LU & LV).
  assert (PI : pseudo_inverse d d C (pinv svd tol d d C)).
  { eapply pinv_penrose; eauto. intros j Hj. right. assert (Lv : length (nth j V []) = d) by (apply nth_width; [apply H|lia]). assert (Lu : length (nth j U []) = d) by (apply nth_width; [apply H|lia]).
    assert (Ov : dot (nth j V []) (nth j V []) = 1) by (destruct H as (_ & _ & _ & _ & (_ & O) & _); rewrite O by lia; now rewrite Nat.eqb_refl).
    assert (Ou : dot (nth j U []) (nth j U []) = 1) by (destruct H as (_ & _ & _ & (_ & O) & _); rewrite O by lia; now rewrite Nat.eqb_refl).
    specialize (Co _ Lv). unfold sqn in Co. rewrite Ov in Co. assert (Q : apply C (nth j V []) = vscale (nth j s 0) (nth j U [])).
    { rewrite (svd_apply HC H _ Lv). apply (@list_ext d); [apply comb_length, H|now rewrite vscale_length|]. intros i Hi. rewrite nth_comb, nth_vscale by apply H. rewrite <- (@total_kron (length U) (fun l => nth l s 0 * nth i (nth l U []) 0) j) by lia.
      apply total_seq_ext. intros l Hl. destruct (Nat.ltb_spec l (length s)); [|lia]. destruct H as (_ & _ & _ & _ & (_ & O) & _). rewrite O by lia. rewrite Nat.eqb_sym. destruct (j =? l)%nat; ring. }
    rewrite Q, dot_vscale_r in Co. pose proof (cauchy_unit _ _ Ov Ou ltac:(congruence)) as B. assert (P0 : 0 <= nth j s 0) by (apply H; lia). nra. }
  destruct PI as (SP & P1 & P2 & P3 & P4). set (P := pinv svd tol d d C) in *.
  assert (LA : forall w, length (apply C w) = d) by (intro; rewrite apply_length; apply HC). assert (LP : forall w, length (apply P w) = d) by (intro; rewrite apply_length; apply SP).
  assert (Inj : forall y, length y = d -> apply C y = zeros d -> y = zeros d).
  { intros y Ly Hy. specialize (Co y Ly). rewrite Hy, dot_comm, dot_zeros_l in Co. pose proof (sqn_nonneg y). assert (Z : sqn y = 0) by nra. rewrite <- Ly. apply zeros_of. now apply sqn_zero. }
  assert (Eq : forall u v, length u = d -> length v = d -> vsub u v = zeros d -> u = v).
  { intros u v L1 L2 Q. apply (vsub_self_zero u v); [congruence|]. rewrite Q. unfold sqn. apply dot_zeros_l. }
  intros z Lz. split.
  - set (y := vsub (apply C (apply P z)) z). assert (Ly : length y = d) by (unfold y; rewrite vsub_length; rewrite LA; auto). apply Eq; auto. apply Inj; auto. rewrite <- (LA y). apply zeros_of. intros a Ha.
    apply (proj1 (sqn_zero (apply C y))); [|auto]. unfold sqn. assert (W : forall w, length w = d -> dot (apply C y) w = 0); [|apply W, LA].
    intros w Lw. rewrite Sy by auto. unfold y. rewrite dot_vsub_l by (rewrite LA; auto). rewrite P3 by auto. rewrite P1 by auto. lra.
  - apply Eq; auto. apply Inj; [rewrite vsub_length; rewrite LP; auto|]. rewrite (@apply_sub C d) by (auto; exact (shape_width HC)). rewrite P1 by auto. apply (@list_ext d); [rewrite vsub_length; auto|apply zeros_length|]. intros i Hi. rewrite nth_vsub, nth_zeros by auto. lra.
Qed.
(** After [get_covariance], [get_precision] is the inverse of the covariance when the noise variance exceeds the cut-off
    of [pinv]. *)
Theorem C50_precision : forall svd k d m X m', (2 <= length X)%nat -> width d X -> (k <= Nat.min (length X) d)%nat ->
  is_svd false (length X) d (deviations d X) (svd false d (deviations d X)) -> pca_fit svd "svd" k d m X = Ok m' -> 1 / 1000000 < p_noise m' ->
  let C := p_covariance (pca_get_covariance m') in is_svd true d d C (svd true d C) ->
  let P := p_precision (pca_get_precision svd (pca_get_covariance m')) in
  forall z, length z = d -> apply C (apply P z) = z /\ apply P (apply C z) = z.
Proof.
  intros svd k d m X m' N W Lk H Em T C HC P. destruct (@C50_covariance svd k d m X m' N W Lk H Em) as (_ & _ & SC & Sy & _ & _ & Co). fold C in SC, Sy, Co.
  assert (EP : P = pinv svd (1 / 1000000) d d C) by (unfold P, pca_get_precision; cbn [p_precision]; fold C; destruct SC as (-> & _); reflexivity). rewrite EP. eapply coercive_pinv; eauto. lra.
Qed.
Print Assumptions C50_precision.
(** [score] is the average over the rows x (minus the mean of the rows passed in) of
    -1/2 x.Px - 1/2 (d ln(2 pi) - ln det P), for the precision matrix P that was computed last. *)
Theorem C50_score : forall logdet m d X, shape d d (p_precision m) -> width d X ->
  pca_score logdet m d X = Ok (avg (map (fun x => - dot x (apply (p_precision m) x) / 2 - (INR d * ln (2 * PI) - logdet (p_precision m)) / 2) (deviations d X))).
Proof.
  intros ld m d X (L & WP) W. unfold pca_score, pca_score_samples. rewrite L, Nat.eqb_refl, center_deviations by auto. cbn [bind]. rewrite mean1_avg. f_equal. f_equal. apply map_ext_in. intros x Hx.
  destruct (deviations_shape W) as (_ & WD). rewrite Rsum_total. change (total (map2 Rmult x (vsum d (map2 vscale x (p_precision m))))) with (dot x (vsum d (map2 vscale x (p_precision m)))).
  rewrite dot_comm, vsum_map2_comb by (auto; rewrite L; auto). field.
Qed.
Print Assumptions C50_score.
(** A fit computes neither matrix: after a second fit [get_precision] and [score] still use the matrices of the first,
    and before they are asked for [score] is undefined behaviour. *)
Theorem C50_stale_refuted : forall svd solver k d m X m', pca_fit svd solver k d m X = Ok m' -> p_covariance m' = p_covariance m /\ p_precision m' = p_precision m.
Proof.
  intros svd solver k d m X m' H. unfold pca_fit in H. destruct (if String.eqb solver "svd" then _ else _) as [(s, (c, ev))| | |]; cbn [bind] in H; try discriminate. destruct (if (k <? Nat.min (length X) d)%nat then _ else _); cbn [bind] in H; try discriminate.
  unfold top_rows in H. destruct (k <=? length s)%nat; cbn [bind] in H; [|discriminate]. destruct (k <=? length c)%nat; cbn [bind] in H; [|discriminate]. destruct (k <=? length ev)%nat; cbn [bind] in H; [|discriminate].
  destruct (k <=? length (map (fun a0 : R => (a0 / Rsum ev)%R) ev))%nat; cbn [bind] in H; [|discriminate]. injection H as <-. split; reflexivity.
Qed.
Print Assumptions C50_stale_refuted.
Theorem C50_score_refuted : forall svd solver k d X m' logdet nc Y, pca_fit svd solver k d pca0 X = Ok m' -> (0 < nc)%nat -> pca_score logdet m' nc Y = UB.
Proof.
  intros svd solver k d X m' ld nc Y H P. assert (Q : p_precision m' = []).
  { destruct (C50_stale_refuted _ _ _ _ _ _ _ H) as (_ & ->). reflexivity. }
  unfold pca_score, pca_score_samples. rewrite Q. cbn [length]. destruct (Nat.eqb_spec nc 0); [lia|reflexivity].
Qed.
Print Assumptions C50_score_refuted.

(** * Randomized and truncated SVD *)
Theorem C50_randomized_rejects : forall svd lu qr draw k p iters normalizer flip nc X,
  ((Nat.min (length X) nc < k + p)%nat -> randomized_svd svd lu qr draw k p iters normalizer flip nc X = Throw InvalidArgument) /\
  ((0 < iters)%nat -> ~ In normalizer ["None"; "LU"; "QR"]%string -> randomized_svd svd lu qr draw k p iters normalizer flip nc X = Throw InvalidArgument).
Proof.
  intros svd lu qr draw k p iters nz flip nc X. split.
  - intro L. unfold randomized_svd. apply Nat.ltb_lt in L. now rewrite L.
  - intros P N. unfold randomized_svd. destruct (Nat.min (length X) nc <? k + p)%nat; [reflexivity|]. destruct iters as [|i]; [lia|]. cbn [power_steps]. unfold power_step.
    assert (Q : forall t, In t ["None"; "LU"; "QR"]%string -> String.eqb nz t = false) by (intros t Ht; apply String.eqb_neq; intros ->; auto). rewrite !Q by (cbn; auto). reflexivity.
Qed.
Print Assumptions C50_randomized_rejects.
Lemma vsum_map2_as_comb d (c : list R) Q : width d Q -> length c = length Q -> vsum d (map2 vscale c Q) = comb d (fun j => nth j c 0) Q.
Proof.
  intros W L. apply (@list_ext d); [apply vsum_length; now apply width_map2_vscale|now apply comb_length|]. intros i Hi. rewrite nth_comb by auto. rewrite nth_vsum by (now apply width_map2_vscale). clear Hi W.
  revert Q L. induction c as [|a c IH]; intros [|q Q] L; cbn in L; try lia; [reflexivity|]. cbn [map2 map length seq nth]. unfold total. cbn [fold_right]. rewrite nth_vscale. f_equal. rewrite <- seq_shift, map_map. apply IH. lia.
Qed.
Lemma rotated_orthonormal n Q W : orthonormal n Q -> orthonormal (length Q) W -> orthonormal n (map (fun c => vsum n (map2 vscale c Q)) W).
Proof.
  intros OQ (WW & OW). assert (E : forall j, (j < length W)%nat -> nth j (map (fun c => vsum n (map2 vscale c Q)) W) [] = comb n (fun l => nth l (nth j W []) 0) Q).
  { intros j Hj. rewrite (nth_indep _ [] (vsum n (map2 vscale [] Q))) by (now rewrite map_length). rewrite (map_nth (fun c => vsum n (map2 vscale c Q))). apply vsum_map2_as_comb; [apply OQ|]. apply nth_width; auto. }
  split.
  - intros x Hx. apply in_map_iff in Hx. destruct Hx as (c & <- & _). apply vsum_length. apply width_map2_vscale, OQ.
  - rewrite map_length. intros i j Hi Hj. rewrite !E by auto. rewrite dot_comb by apply OQ. rewrite <- OW by auto. rewrite (@dot_nths (length Q)) by (apply nth_width; auto). apply total_seq_ext. intros l Hl.
    f_equal. rewrite dot_comm. now apply dot_comb_member.
Qed.
Section Randomized.
  Variables (svd : bool -> nat -> matrix -> factors) (lu qr : matrix -> matrix) (draw : matrix) (k p iters : nat) (nz : string) (nc : nat) (X Q : matrix).
  Hypothesis Fit : (k + p <= Nat.min (length X) nc)%nat.
  Hypothesis Run : power_steps lu qr nz nc X iters draw = Ok Q.
  Let Q1 := qr (times X Q).
  Hypothesis HQ : orthonormal (length X) Q1.
  Hypothesis LQ : length Q1 = (k + p)%nat.
  Let B := times_t nc X Q1.
  Hypothesis HS : is_svd true (k + p) nc B (svd true nc B).
  Lemma randomized_mismatch : (k + p <> nc)%nat -> randomized_svd svd lu qr draw k p iters nz true nc X = UB.
  Proof.
    intro N. unfold randomized_svd. destruct (Nat.ltb_spec (Nat.min (length X) nc) (k + p)); [lia|]. rewrite Run. cbn [bind]. fold Q1. fold B. destruct (svd true nc B) as ((Uh, s), V).
    destruct HS as (Ls & LU & LV & OU & OV & _). cbn match in LU, LV. rewrite C50_flip_shape_refuted; [reflexivity|rewrite map_length; lia|]. rewrite <- LQ in OU. pose proof (rotated_orthonormal _ _ _ HQ OU) as (_ & O).
    intros u Hu. apply unit_nonzero. apply In_nth with (d := []) in Hu. destruct Hu as (j & Hj & <-). rewrite O by auto. now rewrite Nat.eqb_refl.
  Qed.
  Lemma randomized_result : (k + p = nc)%nat -> exists U s V, randomized_svd svd lu qr draw k p iters nz true nc X = Ok (U, s, V) /\ length U = k /\ length s = k /\ length V = k /\ orthonormal (length X) U /\ orthonormal nc V.
  Proof.
    intro N. unfold randomized_svd. destruct (Nat.ltb_spec (Nat.min (length X) nc) (k + p)); [lia|]. rewrite Run. cbn [bind]. fold Q1. fold B. destruct (svd true nc B) as ((Uh, s), V).
    destruct HS as (Ls & LU & LV & OU & OV & _). cbn match in LU, LV. rewrite <- LQ in OU. pose proof (rotated_orthonormal _ _ _ HQ OU) as O. set (U := map (fun c => vsum (length X) (map2 vscale c Q1)) Uh) in *.
    assert (LU' : length U = (k + p)%nat) by (unfold U; rewrite map_length; lia). destruct (flip_signs_unit O) as (c & E & Lc & S). unfold svd_flip. rewrite E. cbn [bind]. rewrite Lc, Nat.eqb_refl. cbn [negb].
    destruct (Nat.eqb_spec (length U) (length V)); [|lia]. cbn [negb bind]. rewrite !top_rows_Ok by (rewrite ?scaled_length; lia). cbn [bind]. eexists _, _, _. split; [reflexivity|]. rewrite !firstn_length, !scaled_length by lia.
    split; [lia|]. split; [lia|]. split; [lia|]. split; apply firstn_orthonormal; apply scaled_orthonormal; auto; try lia; intros j Hj; apply S; lia.
  Qed.
End Randomized.
(** With sign fixing, as in [TruncatedSVD], the call is undefined behaviour unless components + oversamples is exactly
    the number of features: the full V^T has one row per feature but there is one sign per column of U. *)
Theorem C50_randomized_refuted : forall svd lu qr draw k p iters normalizer nc X Q, (k + p <= Nat.min (length X) nc)%nat -> (k + p <> nc)%nat ->
  power_steps lu qr normalizer nc X iters draw = Ok Q -> orthonormal (length X) (qr (times X Q)) -> length (qr (times X Q)) = (k + p)%nat ->
  (let B := times_t nc X (qr (times X Q)) in is_svd true (k + p) nc B (svd true nc B)) ->
  randomized_svd svd lu qr draw k p iters normalizer true nc X = UB /\ tsvd_fit svd lu qr draw k p iters normalizer "randomized" nc X = UB.
Proof.
  intros svd lu qr draw k p iters nz nc X Q Fit N Run HQ LQ HS. assert (E := randomized_mismatch svd lu qr draw k p iters nz nc X Q Fit Run HQ LQ HS N). split; [auto|].
  unfold tsvd_fit. change (String.eqb "randomized" "randomized") with true. cbn match. rewrite E. reflexivity.
Qed.
Print Assumptions C50_randomized_refuted.
Lemma mean_sq_dev_dot d X v : width d X -> X <> [] -> length v = d -> mean_sq_dev (map (fun r => dot r v) X) = energy (deviations d X) v / INR (length X).
Proof.
  intros W N Lv. unfold mean_sq_dev at 1. unfold avg at 1. rewrite !map_length, !map_map. f_equal. unfold energy, deviations. rewrite map_map. apply total_ext. intros r Hr. now rewrite (@dot_deviation d).
Qed.
Lemma full_var_sqn d X : width d X -> total (map mean_sq_dev (cols_of d X)) = total (map sqn (deviations d X)) / INR (length X).
Proof.
  intro W. unfold cols_of. rewrite map_map. destruct (deviations_shape W) as (LD & WD).
  rewrite (total_ext sqn (fun r => total (map (fun j => nth j r 0 ^ 2) (seq 0 d)))).
  2: { intros r Hr. unfold sqn. rewrite (@dot_nths d) by auto. apply total_seq_ext. intros; ring. }
  rewrite total_swap. unfold Rdiv. rewrite <- total_scal_r. apply total_seq_ext. intros j Hj. unfold mean_sq_dev. unfold avg at 1. rewrite map_length. unfold Rdiv. f_equal; [|unfold col; now rewrite map_length].
  rewrite <- (map_map (fun r => nth j r 0) (fun a => a ^ 2)). change (map (fun r => nth j r 0) (deviations d X)) with (col j (deviations d X)). rewrite <- center_deviations by auto. rewrite col_center by auto. now rewrite map_map.
Qed.
(** Otherwise a fit yields k orthonormal components; the explained variances are those of the projections of the data,
    the ratios are their shares of the variance of the data, and these add up to at most 1; [transform] gives the
    coordinates of the closest points of the span of the components. *)
Theorem C50_truncated : forall svd lu qr draw k p iters normalizer nc X Q, (0 < k)%nat -> (k + p <= length X)%nat -> (k + p = nc)%nat -> width nc X ->
  power_steps lu qr normalizer nc X iters draw = Ok Q -> orthonormal (length X) (qr (times X Q)) -> length (qr (times X Q)) = (k + p)%nat ->
  (let B := times_t nc X (qr (times X Q)) in is_svd true (k + p) nc B (svd true nc B)) -> 0 < total (map mean_sq_dev (cols_of nc X)) ->
  exists m, tsvd_fit svd lu qr draw k p iters normalizer "randomized" nc X = Ok m /\ length (t_components m) = k /\ orthonormal nc (t_components m) /\ length (t_singular m) = k /\
    t_explained m = map (fun c => mean_sq_dev (map (fun r => dot r c) X)) (t_components m) /\
    t_ratio m = map (fun a => a / total (map mean_sq_dev (cols_of nc X))) (t_explained m) /\
    (forall a, In a (t_ratio m) -> 0 <= a) /\ total (t_ratio m) <= 1 /\
    (forall Y, width nc Y -> exists T, tsvd_transform m nc Y = Ok T /\ length T = length Y /\
      forall i, (i < length Y)%nat -> closest_coordinates nc (t_components m) (nth i Y []) (nth i T [])).
Proof.
  intros svd lu qr draw k p iters nz nc X Q Pk Fit Nc W Run HQ LQ HS TV. assert (Fit' : (k + p <= Nat.min (length X) nc)%nat) by lia.
  destruct (randomized_result svd lu qr draw k p iters nz nc X Q Fit' Run HQ LQ HS Nc) as (U & s & V & E & LU & Ls & LV & OU & OV).
  assert (NX : X <> []) by (intros ->; cbn in Fit; lia). pose proof (INR_pos NX) as PX. unfold tsvd_fit. change (String.eqb "randomized" "randomized") with true. cbn match. rewrite E. cbn [bind].
  set (XT := map (fun r => map (fun c => dot r c) V) X). unfold var. change (0 =? 0)%Z with true. cbn [bind first_row vget nth_error]. cbn match. rewrite (@var0_spec nc X) by auto.
  assert (NT : XT <> []) by (unfold XT; destruct X; [congruence|discriminate]). assert (WT : width (length V) XT) by (intros r Hr; apply in_map_iff in Hr; destruct Hr as (x & <- & _); apply map_length). rewrite (@var0_spec (length V) XT) by auto.
  cbn [concat]. rewrite app_nil_r, Rsum_total. set (full := total (map mean_sq_dev (cols_of nc X))) in *. eexists. split; [reflexivity|]. cbn [t_components t_singular t_explained t_ratio].
  assert (EX : map mean_sq_dev (cols_of (length V) XT) = map (fun c => mean_sq_dev (map (fun r => dot r c) X)) V).
  { unfold cols_of. rewrite map_map. rewrite (list_as_nths [] V) at 2. rewrite map_map. apply map_ext_in. intros j Hj. apply in_seq in Hj. f_equal. unfold col, XT. rewrite map_map. apply map_ext. intro r.
    rewrite (nth_indep _ 0 (dot r [])) by (rewrite map_length; lia). now rewrite (map_nth (fun c => dot r c)). }
  rewrite EX. assert (NN : forall c, 0 <= mean_sq_dev (map (fun r => dot r c) X)) by (intro c; apply mean_sq_dev_nonneg; destruct X; [congruence|discriminate]).
  split; [auto|]. split; [auto|]. split; [auto|]. split; [auto|]. split; [auto|]. split; [|split].
  - intros a Ha. apply in_map_iff in Ha. destruct Ha as (b & <- & Hb). apply in_map_iff in Hb. destruct Hb as (c & <- & _). apply Rmult_le_pos; [auto|apply Rlt_le, Rinv_0_lt_compat; auto].
  - unfold Rdiv. rewrite (total_scal_r (/ full) (fun a => a)), map_id. apply Rmult_le_reg_r with full; auto. rewrite Rmult_assoc, Rinv_l by lra. rewrite Rmult_1_r, Rmult_1_l. unfold full. rewrite full_var_sqn by auto.
    rewrite (total_ext _ (fun c => energy (deviations nc X) c * / INR (length X))) by (intros c Hc; rewrite (@mean_sq_dev_dot nc) by (auto; apply OV; auto); reflexivity).
    rewrite total_scal_r. apply Rmult_le_compat_r; [apply Rlt_le, Rinv_0_lt_compat; auto|]. unfold energy. rewrite total_swap. apply total_le. intros r Hr. destruct (deviations_shape W) as (_ & WD).
    pose proof (@bessel nc V r OV (WD r Hr)) as Bs. rewrite (total_rows [] _ V). erewrite total_seq_ext; [exact Bs|]. intros j Hj. cbv beta. now rewrite dot_comm.
  - intros Y WY. unfold tsvd_transform. cbn [t_features t_components]. rewrite Nat.eqb_refl. eexists. split; [reflexivity|]. split; [apply map_length|]. intros i Hi. apply closest; [auto|apply nth_width; auto|].
    rewrite (nth_indep _ [] (map (fun c => dot [] c) V)) by (now rewrite map_length). now rewrite (map_nth (fun r => map (fun c => dot r c) V)).
Qed.
Print Assumptions C50_truncated.

(** * A case *)
Definition case_X : matrix := [[2; 11]; [10; 5]; [-10; -5]; [-2; -11]].
Definition case_U : matrix := [[1/2; 1/2; -(1/2); -(1/2)]; [1/2; -(1/2); 1/2; -(1/2)]].
Definition case_V : matrix := [[3/5; 4/5]; [-(4/5); 3/5]].
Definition case_svd (full : bool) (nc : nat) (x : matrix) : factors := (case_U, [20; 10], case_V).
Ltac each_index := repeat match goal with H : (?i < S _)%nat |- _ => destruct i as [|i]; [|apply Nat.succ_lt_mono in H] | H : (_ < 0)%nat |- _ => exfalso; lia end.
Ltac numbers := cbn; unfold dot, total; cbn; lra.
Lemma case_deviations : deviations 2 case_X = case_X.
Proof.
  unfold deviations, cols_of, case_X, avg, col, total. cbn. replace ((2 + (10 + (-10 + (-2 + 0)))) / (1 + 1 + 1 + 1)) with 0 by field. replace ((11 + (5 + (-5 + (-11 + 0)))) / (1 + 1 + 1 + 1)) with 0 by field.
  rewrite !Rminus_0_r. reflexivity.
Qed.
(** Four points whose centred matrix has the singular values 20 and 10: the hypotheses of the theorems above hold, one
    component explains 4/5 of the variance, and the training mean would give a single new sample a non-zero coordinate. *)
Example C50_case : is_svd false 4 2 (deviations 2 case_X) (case_svd false 2 (deviations 2 case_X)) /\ width 2 case_X /\
  exists m, pca_fit case_svd "svd" 1 2 pca0 case_X = Ok m /\ p_components m = [[3/5; 4/5]] /\ p_ratio m = [4/5] /\
    pca_transform m 2 [[2; 11]] = Ok [[0]] /\ dot [2; 11] [3/5; 4/5] = 10.
Proof.
  assert (W : width 2 case_X) by (intros r Hr; cbn in Hr; repeat destruct Hr as [<-|Hr]; auto; destruct Hr).
  assert (H : is_svd false 4 2 (deviations 2 case_X) (case_svd false 2 (deviations 2 case_X))).
  { rewrite case_deviations. unfold is_svd, case_svd. split; [reflexivity|]. split; [reflexivity|]. split; [reflexivity|]. split; [|split; [|split; [|split]]].
    - split; [intros r Hr; cbn in Hr; repeat destruct Hr as [<-|Hr]; auto; destruct Hr|]. intros i j Hi Hj. cbn [length case_U] in *. each_index; numbers.
    - split; [intros r Hr; cbn in Hr; repeat destruct Hr as [<-|Hr]; auto; destruct Hr|]. intros i j Hi Hj. cbn [length case_V] in *. each_index; numbers.
    - intros j Hj. cbn [length] in *. each_index; cbn; lra.
    - intros i j Hij Hj. cbn [length] in *. destruct j as [|[|j]]; [|destruct i as [|[|i]]|]; try lia; [destruct i; [cbn; lra|lia]|cbn; lra|cbn; lra].
    - intros i k Hi Hk. unfold entry, case_X, case_U, case_V. each_index; numbers. }
  split; [exact H|]. split; [exact W|]. pose proof (@pca_fit_spec case_svd 1 2 pca0 case_X W ltac:(cbn; lia) H) as (U & V & s & m & E & HS & Es & F & Pos). exists m. split; [exact E|].
  assert (C : p_components m = [[3/5; 4/5]] /\ p_ratio m = [4/5] /\ p_features m = 2%nat).
  { unfold pca_fit in E. rewrite center_deviations, case_deviations in E by auto. cbn -[flip_sign INR Rsum case_U] in E. unfold case_U in E.
    assert (F1 : flip_sign [1/2; 1/2; -(1/2); -(1/2)] = Ok 1).
    { destruct (@flip_sign_spec [1/2; 1/2; -(1/2); -(1/2)]) as (i & -> & (L & _ & Fi)); [discriminate|]. destruct i as [|i]; [cbn; unfold sign1; destruct (Rltb 0 (1/2)) eqn:Q; [auto|apply Rltb_false in Q; lra]|].
      exfalso. specialize (Fi 0%nat ltac:(lia)). cbn [map length] in L. rewrite !nth_map_abs in Fi. destruct i as [|[|[|i]]]; cbn [nth] in Fi; try (cbn in L; lia); rewrite ?Rabs_Ropp in Fi; lra. }
    assert (F2 : flip_sign [1/2; -(1/2); 1/2; -(1/2)] = Ok 1).
    { destruct (@flip_sign_spec [1/2; -(1/2); 1/2; -(1/2)]) as (i & -> & (L & _ & Fi)); [discriminate|]. destruct i as [|i]; [cbn; unfold sign1; destruct (Rltb 0 (1/2)) eqn:Q; [auto|apply Rltb_false in Q; lra]|].
      exfalso. specialize (Fi 0%nat ltac:(lia)). cbn [map length] in L. rewrite !nth_map_abs in Fi. destruct i as [|[|[|i]]]; cbn [nth] in Fi; try (cbn in L; lia); rewrite ?Rabs_Ropp in Fi; lra. }
    assert (SF : svd_flip true [[1/2; 1/2; -(1/2); -(1/2)]; [1/2; -(1/2); 1/2; -(1/2)]] case_V = Ok (map2 vscale [1; 1] case_U, map2 vscale [1; 1] case_V)).
    { unfold svd_flip. cbn [mapM]. rewrite F1. cbn [bind]. rewrite F2. reflexivity. }
    rewrite SF in E. cbn [bind] in E. cbn -[INR Rsum] in E. injection E as <-. cbn [p_components p_ratio p_features]. split; [|split; [|auto]].
    - f_equal. f_equal; [lra|]. f_equal. lra.
    - f_equal. rewrite Rsum_total. unfold total, sq. cbn. field. }
  destruct C as (C1 & C2 & C3). split; [auto|]. split; [auto|]. split; [|numbers].
  destruct (C50_transform_one_refuted m [2; 11]) as [T|T]; [|rewrite C3 in T; cbn in T; lia]. rewrite C3, C1 in T. exact T.
Qed.
(** A 2 x 2 matrix for which TruncatedSVD is defined: one component, one oversample. *)
Definition case_I : matrix := [[1; 0]; [0; 1]].
Example C50_truncated_case : let X := [[3; 0]; [0; 2]] in let svd := fun (_ : bool) (_ : nat) (_ : matrix) => (case_I, [3; 2], case_I) in let qr := fun _ : matrix => case_I in
  power_steps (fun m => m) qr "LU" 2 X 0 case_I = Ok case_I /\ orthonormal 2 (qr (times X case_I)) /\ (let B := times_t 2 X (qr (times X case_I)) in is_svd true 2 2 B (svd true 2%nat B)) /\ 0 < total (map mean_sq_dev (cols_of 2 X)).
Proof.
  assert (O : orthonormal 2 case_I) by (split; [intros r Hr; cbn in Hr; repeat destruct Hr as [<-|Hr]; auto; destruct Hr|]; intros i j Hi Hj; cbn [length case_I] in *; each_index; numbers).
  cbv zeta. split; [reflexivity|]. split; [exact O|]. split.
  - split; [reflexivity|]. split; [reflexivity|]. split; [reflexivity|]. split; [exact O|]. split; [exact O|]. split; [|split].
    + intros j Hj. cbn [length] in *. each_index; cbn; lra.
    + intros i j Hij Hj. cbn [length] in *. destruct j as [|[|j]]; [|destruct i as [|[|i]]|]; try lia; [destruct i; [cbn; lra|lia]|cbn; lra|cbn; lra].
    + intros i k Hi Hk. unfold entry, case_I. each_index; numbers.
  - unfold cols_of, mean_sq_dev, avg, col, total. cbn. lra.
Qed.

(** of [C50_flip]: the sign of a column with a negative largest entry *)
Example C50_flip_case : exists U' Vt', svd_flip true [[-1; 0]; [0; 1]] [[1; 2]; [3; 4]] = Ok (U', Vt') /\
  (forall u, In u U' -> exists i, first_largest (map Rabs u) i /\ 0 < nth i u 0).
Proof.
  destruct (C50_flip true [[-1; 0]; [0; 1]] [[1; 2]; [3; 4]] eq_refl) as (U' & Vt' & E & _ & _ & _ & _ & H).
  - intros u [<-|[<-|[]]]; [exists (-1)|exists 1]; cbn; split; auto; lra.
  - exists U', Vt'. split; [exact E|exact H].
Qed.
(** of [C50_covariance_full], [C50_pinv] and [C50_precision]: the model with one component has the covariance whose
    eigenvalues are 400/3 and 100/3. *)
Definition case_svd2 (full : bool) (nc : nat) (x : matrix) : factors := if full then (case_V, [400 / 3; 100 / 3], case_V) else (case_U, [20; 10], case_V).
Example C50_precision_case : exists m, pca_fit case_svd2 "svd" 1 2 pca0 case_X = Ok m /\ p_noise m = 100 / 3 /\
  (let C := p_covariance (pca_get_covariance m) in is_svd true 2 2 C (case_svd2 true 2 C)) /\
  let C := p_covariance (pca_get_covariance m) in let P := p_precision (pca_get_precision case_svd2 (pca_get_covariance m)) in
  forall z, length z = 2%nat -> apply C (apply P z) = z /\ apply P (apply C z) = z.
Proof.
  destruct C50_case as (S & W & m & E & EC & _). change (is_svd false (length case_X) 2 (deviations 2 case_X) (case_svd2 false 2 (deviations 2 case_X))) in S. change (pca_fit case_svd2 "svd" 1 2 pca0 case_X = Ok m) in E.
  assert (H2 : (2 <= length case_X)%nat) by (cbn; lia). assert (Hk : (1 <= Nat.min (length case_X) 2)%nat) by (cbn; lia).
  destruct (C50_components case_svd2 1 2 pca0 case_X H2 W Hk S) as (m1 & E1 & _ & L1 & _ & V1 & _). assert (m1 = m) by congruence. subst m1.
  destruct (C50_covariance case_svd2 1 2 pca0 case_X m H2 W Hk S E) as (_ & N & Sh & _ & A1 & A2 & _).
  assert (V : nth 0 (p_explained m) 0 = 400 / 3).
  { rewrite (V1 0%nat) by lia. rewrite EC. unfold sample_variance, avg, case_X, dot, total. cbn. field. }
  assert (T : total (p_explained m) = 400 / 3) by (destruct (p_explained m) as [|a [|b r]]; try discriminate; unfold total; cbn in *; lra).
  assert (TV : total_variance 2 case_X = 500 / 3) by (unfold total_variance, sample_variance, cols_of, col, avg, case_X, total; cbn; field).
  rewrite T, TV in N. cbn in N. assert (EN : p_noise m = 100 / 3) by lra. exists m. split; [exact E|]. split; [exact EN|].
  specialize (A1 0%nat ltac:(lia)). specialize (A2 [-(4/5); 3/5] eq_refl). rewrite V in A1. rewrite EN in A2. rewrite EC in *. cbn [nth] in A1.
  specialize (A2 ltac:(intros j Hj; destruct j; [|lia]; numbers)).
  set (C := p_covariance (pca_get_covariance m)) in *. assert (SC : is_svd true 2 2 C (case_svd2 true 2 C)).
  { clearbody C. destruct Sh as (LC & WC). destruct C as [|r1 [|r2 [|]]]; try discriminate. pose proof (WC r1 ltac:(now left)) as Lr1. pose proof (WC r2 ltac:(right; now left)) as Lr2.
    destruct r1 as [|a [|b [|]]]; try discriminate. destruct r2 as [|c [|d [|]]]; try discriminate. unfold apply, dot, total, vscale in A1, A2. cbn in A1, A2.
    injection A1 as P1 P2. injection A2 as P3 P4. unfold is_svd, case_svd2. split; [reflexivity|]. split; [reflexivity|]. split; [reflexivity|].
    assert (O : orthonormal 2 case_V) by (split; [intros r Hr; cbn in Hr; repeat destruct Hr as [<-|Hr]; auto; destruct Hr|]; intros i j Hi Hj; cbn [length case_V] in *; each_index; numbers).
    split; [exact O|]. split; [exact O|]. split; [|split].
    - intros j Hj. cbn [length] in *. each_index; cbn; lra.
    - intros i j Hij Hj. cbn [length] in *. destruct j as [|[|j]]; [|destruct i as [|[|i]]|]; try lia; [destruct i; [cbn; lra|lia]|cbn; lra|cbn; lra].
    - intros i k Hi Hk'. unfold entry, case_V. each_index; numbers. }
  split; [exact SC|]. apply (C50_precision case_svd2 1 2 pca0 case_X m H2 W Hk S E); [rewrite EN; lra|exact SC].
Qed.
Example C50_pinv_case : pseudo_inverse 2 2 [[3; 0]; [0; 0]] (pinv (fun _ _ _ => (case_I, [3; 0], case_I)) (1 / 10) 2 2 [[3; 0]; [0; 0]]).
Proof.
  assert (O : orthonormal 2 case_I) by (split; [intros r Hr; cbn in Hr; repeat destruct Hr as [<-|Hr]; auto; destruct Hr|]; intros i j Hi Hj; cbn [length case_I] in *; each_index; numbers).
  apply C50_pinv; [split; [reflexivity|intros r Hr; cbn in Hr; repeat destruct Hr as [<-|Hr]; auto; destruct Hr]|lra| |].
  - split; [reflexivity|]. split; [reflexivity|]. split; [reflexivity|]. split; [exact O|]. split; [exact O|]. split; [|split].
    + intros j Hj. cbn [length] in *. each_index; cbn; lra.
    + intros i j Hij Hj. cbn [length] in *. destruct j as [|[|j]]; [|destruct i as [|[|i]]|]; try lia; [destruct i; [cbn; lra|lia]|cbn; lra|cbn; lra].
    + intros i k Hi Hk'. unfold entry, case_I. each_index; numbers.
  - intros a [<-|[<-|[]]]; [right|left]; lra.
Qed.
