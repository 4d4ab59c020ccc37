From Coq Require Import Reals Lra Lia String.
From Verif Require Import Base Common_Model RDR_Proofs KDReal_Proofs Tree_Model Impurity_Model Impurity_Spec Impurity_Proofs Vec LossSoftmax_Proofs MathFun_Model
  Stats_Model Stats_Spec Stats_Proofs NB_Spec NB_Proofs Linear_Model LinSolve_Proofs Linear_Proofs Decomp_Model Decomp_Spec Decomp_Proofs.
Local Open Scope R_scope.
Set Implicit Arguments.

(** * Signs *)
Lemma sign1_sq a : a <> 0 -> sign1 a * sign1 a = 1.
Proof. intro N. unfold sign1. destruct (Rltb 0 a) eqn:E; [lra|]. destruct (Rltb a 0) eqn:F; [lra|]. apply Rltb_false in E, F. lra. Qed.
Lemma sign1_abs a : sign1 a * a = Rabs a.
Proof.
  unfold sign1. destruct (Rltb 0 a) eqn:E; [apply Rltb_true in E; rewrite Rabs_right; lra|]. destruct (Rltb a 0) eqn:F; [apply Rltb_true in F; rewrite Rabs_left; lra|].
  apply Rltb_false in E, F. assert (a = 0) by lra. subst. rewrite Rabs_R0. lra.
Qed.
Lemma nth_map_abs u k : nth k (map Rabs u) 0 = Rabs (nth k u 0).
Proof. rewrite <- Rabs_R0 at 1. apply map_nth. Qed.
(** [k] is the first position of largest absolute value. *)
Lemma flip_sign_spec u : u <> [] -> exists k, flip_sign u = Ok (sign1 (nth k u 0)) /\ first_largest (map Rabs u) k.
Proof.
  intro N. destruct (@arg_bestR (map Rabs u)) as (k & E & F); [destruct u; [congruence|discriminate]|]. exists k. split; [|auto].
  unfold flip_sign. rewrite E. cbn [bind]. destruct F as (L & _). rewrite map_length in L. unfold vget. rewrite (nth_error_nth' u 0) by auto. reflexivity.
Qed.
Lemma first_largest_nonzero u k : first_largest (map Rabs u) k -> (exists a, In a u /\ a <> 0) -> nth k u 0 <> 0.
Proof.
  intros (L & M & _) (a & Ha & N) Z. apply In_nth with (d := 0) in Ha. destruct Ha as (j & Lj & <-). rewrite map_length in *. specialize (M j Lj).
  rewrite !nth_map_abs, Z, Rabs_R0 in M. pose proof (Rabs_pos_lt _ N). lra.
Qed.
Lemma first_largest_zero u k : first_largest (map Rabs u) k -> nth k u 0 = 0 -> forall a, In a u -> a = 0.
Proof.
  intros H Z a Ha. destruct (Req_dec a 0) as [|N]; auto. exfalso. exact (@first_largest_nonzero u k H (ex_intro _ a (conj Ha N)) Z).
Qed.
Lemma unit_nonzero u : dot u u = 1 -> exists a, In a u /\ a <> 0.
Proof.
  intro H. induction u as [|a u IH]; [rewrite dot_nil_l in H; lra|]. destruct (Req_dec a 0) as [->|N]; [|exists a; split; [now left|auto]].
  rewrite dot_cons in H. destruct IH as (b & Hb & Nb); [lra|]. exists b. split; [now right|auto].
Qed.
Definition sign_of_column (u : list R) (c : R) : Prop := c * c = 1 /\ exists k, first_largest (map Rabs u) k /\ 0 < c * nth k u 0.
Lemma flip_sign_unit u : dot u u = 1 -> exists c, flip_sign u = Ok c /\ sign_of_column u c.
Proof.
  intro H. destruct (unit_nonzero u H) as (a & Ha & Na). destruct (@flip_sign_spec u) as (k & E & F); [intros ->; inversion Ha|].
  assert (N : nth k u 0 <> 0) by (apply (@first_largest_nonzero u k F); eauto). exists (sign1 (nth k u 0)). split; [auto|]. split; [now apply sign1_sq|].
  exists k. split; [auto|]. rewrite sign1_abs. now apply Rabs_pos_lt.
Qed.
Lemma flip_signs_unit d U : orthonormal d U -> exists c, mapM flip_sign U = Ok c /\ length c = length U /\ forall j, (j < length U)%nat -> sign_of_column (nth j U []) (nth j c 0).
Proof.
  intros (W & O). assert (H : forall u, In u U -> dot u u = 1).
  { intros u Hu. apply In_nth with (d := []) in Hu. destruct Hu as (j & L & <-). rewrite O by auto. now rewrite Nat.eqb_refl. }
  clear W O. induction U as [|u U IH]; [exists []; split; [auto|split; [auto|cbn; intros; lia]]|].
  destruct (flip_sign_unit u) as (a & E & S); [apply H; now left|]. destruct IH as (c & Ec & Lc & Sc); [intros; apply H; now right|].
  exists (a :: c). cbn [mapM]. rewrite E. cbn [bind]. rewrite Ec. cbn [bind length]. split; [auto|]. split; [lia|]. intros [|j] Hj; cbn [nth]; [exact S|apply Sc; lia].
Qed.

(** * Scaling the vectors of a family *)
Lemma scaled_length (c : list R) vs : length c = length vs -> length (map2 vscale c vs) = length vs.
Proof. intro L. rewrite map2_length by auto. auto. Qed.
Lemma nth_scaled (c : list R) : forall vs j, length c = length vs -> nth j (map2 vscale c vs) [] = vscale (nth j c 0) (nth j vs []).
Proof. induction c as [|a c IH]; intros [|v vs] [|j] L; cbn in *; try lia; auto. Qed.
Lemma scaled_orthonormal d c vs : orthonormal d vs -> length c = length vs -> (forall j, (j < length vs)%nat -> nth j c 0 * nth j c 0 = 1) -> orthonormal d (map2 vscale c vs).
Proof.
  intros (W & O) L S. split; [now apply width_map2_vscale|]. rewrite scaled_length by auto. intros i j Hi Hj. rewrite !nth_scaled by auto. rewrite dot_vscale_l, dot_vscale_r, O by auto.
  destruct (Nat.eqb_spec i j) as [->|N]; [|ring]. rewrite Rmult_1_r. now apply S.
Qed.
Lemma scaled_svd full nr nc A U s V c : is_svd full nr nc A (U, s, V) -> length U = length V -> length c = length U -> (forall j, (j < length U)%nat -> nth j c 0 * nth j c 0 = 1) ->
  is_svd full nr nc A (map2 vscale c U, s, map2 vscale c V).
Proof.
  intros (L & LU & LV & OU & OV & P & D & E) LUV Lc S. unfold is_svd. rewrite !scaled_length by congruence. repeat (split; [solve [auto | apply scaled_orthonormal; auto; try congruence; intros; apply S; congruence]|]).
  intros i k Hi Hk. rewrite (E i k Hi Hk). apply total_seq_ext. intros j Hj. rewrite !nth_scaled, !nth_vscale by congruence.
  assert (Q : nth j c 0 * nth j c 0 = 1) by (apply S; destruct full; lia). transitivity (nth j s 0 * (nth j c 0 * nth j c 0) * nth i (nth j U []) 0 * nth k (nth j V []) 0); [rewrite Q|]; ring.
Qed.

(** * The fit *)
Lemma center_deviations d X : width d X -> center d X = deviations d X.
Proof. intro W. unfold center, deviations. now rewrite col_means_spec. Qed.
Lemma deviations_shape d X : width d X -> shape (length X) d (deviations d X).
Proof. intro W. split; [unfold deviations; now rewrite map_length|]. rewrite <- center_deviations by auto. exact (width_center W). Qed.
Lemma top_rows_Ok {A} k (l : list A) : (k <= length l)%nat -> top_rows k l = Ok (firstn k l).
Proof. intro L. unfold top_rows. apply Nat.leb_le in L. now rewrite L. Qed.
Lemma bottom_rows_Ok {A} k (l : list A) : (k <= length l)%nat -> bottom_rows k l = Ok (skipn (length l - k) l).
Proof. intro L. unfold bottom_rows. apply Nat.leb_le in L. now rewrite L. Qed.

(** What a fit yields, in terms of a decomposition (U, s, V) of the centred data whose signs are already fixed. *)
Definition fitted (d k : nat) (X : list (list R)) (U V : list (list R)) (s : list R) (m m' : pca) : Prop :=
  let ev := map (fun a => a ^ 2 / (INR (length X) - 1)) s in
  m' = Pca d (firstn k V) (firstn k s) (firstn k ev) (firstn k (map (fun a => a / total ev) ev))
         (if (k <? Nat.min (length X) d)%nat then avg (skipn k ev) else 0) (p_covariance m) (p_precision m).
Lemma pca_fit_spec svd k d m X : width d X -> (k <= Nat.min (length X) d)%nat -> is_svd false (length X) d (deviations d X) (svd false d (deviations d X)) ->
  exists U V s m', pca_fit svd "svd" k d m X = Ok m' /\ is_svd false (length X) d (deviations d X) (U, s, V) /\ s = snd (fst (svd false d (deviations d X))) /\ fitted d k X U V s m m' /\
    (forall j, (j < length U)%nat -> exists i, first_largest (map Rabs (nth j U [])) i /\ 0 < nth i (nth j U []) 0).
Proof.
  intros W Lk. unfold pca_fit. rewrite center_deviations by auto. destruct (svd false d (deviations d X)) as ((U, s), V). intro H.
  assert (LL : length U = length V) by (destruct H as (_ & L1 & L2 & _); congruence). assert (Ls : length s = Nat.min (length X) d) by apply H. assert (LV : length V = Nat.min (length X) d) by apply H.
  destruct (@flip_signs_unit (length X) U) as (c & E & Lc & S); [apply H|].
  assert (SQ : forall j, (j < length U)%nat -> nth j c 0 * nth j c 0 = 1) by (intros j Hj; apply S; auto).
  assert (HS := scaled_svd c H LL Lc SQ). exists (map2 vscale c U), (map2 vscale c V), s. eexists. split; [|split; [exact HS|split; [reflexivity|split; [reflexivity|]]]].
  - change (String.eqb "svd" "svd") with true. cbn match. unfold svd_flip. rewrite E. cbn [bind]. rewrite <- LL, Lc, Nat.eqb_refl. cbn [negb bind]. unfold sq.
    set (ev := map (fun a => a ^ 2 / (INR (length X) - 1)) s). replace (map (fun a => a * a / (INR (length X) - 1)) s) with ev by (apply map_ext; intro; unfold Rdiv; ring).
    assert (Le : length ev = length s) by apply map_length. rewrite Rsum_total.
    rewrite !top_rows_Ok by (rewrite ?scaled_length, ?map_length, ?Le; lia). destruct (Nat.ltb_spec k (Nat.min (length X) d)).
    + rewrite bottom_rows_Ok by lia. cbn [bind]. rewrite mean1_avg. replace (length ev - (Nat.min (length X) d - k))%nat with k by lia. reflexivity.
    + cbn [bind]. reflexivity.
  - rewrite scaled_length by congruence. intros j Hj. destruct (S j Hj) as (Q & i & Hi & P). exists i. rewrite nth_scaled by auto. rewrite nth_vscale. split; [|auto].
    unfold vscale. rewrite map_map. rewrite (map_ext _ Rabs); [auto|]. intro a. rewrite Rabs_mult. assert (QQ : Rabs (nth j c 0) = 1); [|rewrite QQ; ring].
    destruct (Rcase_abs (nth j c 0)); [rewrite Rabs_left by auto|rewrite Rabs_right by auto]; nra.
Qed.

(** * Products of matrices as maps *)
Lemma vsum_map2_comb d (r : list R) : forall b z, width d b -> length r = length b -> dot (vsum d (map2 vscale r b)) z = dot r (apply b z).
Proof.
  intros b z W L. rewrite dot_vsum by (now apply width_map2_vscale). clear W. revert b L. induction r as [|a r IH]; intros [|v b] L; cbn in L; try lia; [reflexivity|].
  cbn [map2 map apply]. rewrite dot_cons. cbn [total fold_right]. fold (total (map (fun x => dot x z) (map2 vscale r b))). rewrite IH by lia. now rewrite dot_vscale_l.
Qed.
Lemma apply_mul d a b z : width (length b) a -> width d b -> apply (mat_mul d a b) z = apply a (apply b z).
Proof.
  intros Wa Wb. unfold apply, mat_mul. rewrite map_map. apply map_ext_in. intros r Hr. apply vsum_map2_comb; auto.
Qed.
Lemma mul_width d a b : width d b -> width d (mat_mul d a b).
Proof. intros Wb r Hr. unfold mat_mul in Hr. apply in_map_iff in Hr. destruct Hr as (x & <- & _). apply vsum_length. now apply width_map2_vscale. Qed.
Lemma mul_length d a b : length (mat_mul d a b) = length a.
Proof. apply map_length. Qed.
Lemma transpose_width d a : width (length a) (transpose d a).
Proof. intros r Hr. unfold transpose in Hr. apply in_map_iff in Hr. destruct Hr as (j & <- & _). apply map_length. Qed.
Lemma transpose_length d a : length (transpose d a) = d.
Proof. unfold transpose. now rewrite map_length, seq_length. Qed.
Lemma list_ext d (u v : list R) : length u = d -> length v = d -> (forall i, (i < d)%nat -> nth i u 0 = nth i v 0) -> u = v.
Proof. intros L1 L2 H. apply nth_ext with (d := 0) (d' := 0); [congruence|]. intros i Hi. apply H. lia. Qed.
Lemma apply_transpose d a c : width d a -> length c = length a -> apply (transpose d a) c = comb d (fun j => nth j c 0) a.
Proof.
  intros W L. apply (@list_ext d); [unfold apply; now rewrite map_length, transpose_length|now apply comb_length|]. intros i Hi.
  unfold apply, transpose. rewrite map_map. rewrite nth_seq_map by auto. rewrite nth_comb by auto. rewrite (@dot_nths (length a)) by (rewrite ?map_length; auto).
  apply total_seq_ext. intros j Hj. rewrite (nth_indep _ 0 (nth i [] 0)) by (now rewrite map_length). rewrite (map_nth (fun r => nth i r 0)). ring.
Qed.
Lemma apply_length A w : length (apply A w) = length A.
Proof. apply map_length. Qed.
Lemma nth_apply A w i : nth i (apply A w) 0 = dot (nth i A []) w.
Proof. apply nth_dots. Qed.
Lemma comb_ext d c c' vs : (forall j, (j < length vs)%nat -> c j = c' j) -> comb d c vs = comb d c' vs.
Proof. intro H. unfold comb. f_equal. apply map_ext_in. intros j Hj. apply in_seq in Hj. rewrite H by lia. reflexivity. Qed.
Lemma apply_vadd d A : forall B z, width d A -> width d B -> length A = length B -> apply (map2 vadd A B) z = vadd (apply A z) (apply B z).
Proof.
  induction A as [|a A IH]; intros [|b B] z WA WB L; cbn in L; try lia; [reflexivity|]. apply width_cons in WA, WB. destruct WA, WB. cbn [map2 apply map]. change (map (fun r => dot r z)) with (fun X => apply X z). cbv beta.
  rewrite IH by (auto; lia). rewrite dot_vadd_l by congruence. reflexivity.
Qed.
Lemma apply_scaled_identity d a z : length z = d -> apply (map (fun i => vscale a (basis d i)) (seq 0 d)) z = vscale a z.
Proof.
  intro L. apply (@list_ext d); [now rewrite apply_length, map_length, seq_length|now rewrite vscale_length|]. intros i Hi. rewrite nth_apply, nth_seq_map by auto. rewrite dot_vscale_l, nth_vscale. f_equal.
  rewrite (@dot_nths d) by (auto; apply basis_length). rewrite <- (@total_kron d (fun j => nth j z 0) i) by auto. apply total_seq_ext. intros j Hj. rewrite nth_basis, (Nat.eqb_sym j) by auto. ring.
Qed.
Lemma diagmat_length v : length (diagmat v) = length v.
Proof. unfold diagmat. rewrite map2_length; rewrite seq_length; auto. Qed.
Lemma diagmat_row v i : (i < length v)%nat -> nth i (diagmat v) [] = map (fun j => if (i =? j)%nat then nth i v 0 else 0) (seq 0 (length v)).
Proof.
  intro L. unfold diagmat. assert (G : forall (w : list R) a n, (i < length w)%nat -> nth i (map2 (fun i b => set_nth (zeros n) i b) (seq a (length w)) w) [] = set_nth (zeros n) (a + i) (nth i w 0)).
  { clear. intro w. revert i. induction w as [|b w IH]; intros i a n L; cbn in L; [lia|]. destruct i as [|i]; cbn; [now rewrite Nat.add_0_r|]. rewrite IH by lia. f_equal. lia. }
  rewrite G by auto. cbn [plus]. apply (@list_ext (length v)); [now rewrite set_nth_length, zeros_length|now rewrite map_length, seq_length|]. intros j Hj. rewrite nth_seq_map by auto.
  rewrite set_nth_nth, zeros_length, nth_zeros. rewrite Nat.eqb_sym. destruct (Nat.eqb_spec i j); [|auto]. apply Nat.ltb_lt in L. now rewrite L.
Qed.
Lemma clipped_diag noise v z : 0 <= noise -> length z = length v ->
  width (length v) (map (map (fun a => Rmax (a - noise) 0)) (diagmat v)) /\
  apply (map (map (fun a => Rmax (a - noise) 0)) (diagmat v)) z = map (fun j => Rmax (nth j v 0 - noise) 0 * nth j z 0) (seq 0 (length v)).
Proof.
  intros P L. set (D := map (map (fun a => Rmax (a - noise) 0)) (diagmat v)).
  assert (RW : forall i, (i < length v)%nat -> nth i D [] = map (fun j => if (i =? j)%nat then Rmax (nth i v 0 - noise) 0 else 0) (seq 0 (length v))).
  { intros i Hi. unfold D. change [] with (map (fun a => Rmax (a - noise) 0) []) at 1. rewrite map_nth, diagmat_row by auto. rewrite map_map. apply map_ext. intro j. destruct (i =? j)%nat; [auto|]. apply Rmax_right. lra. }
  assert (LD : length D = length v) by (unfold D; rewrite map_length; apply diagmat_length). split.
  - intros r Hr. apply In_nth with (d := []) in Hr. destruct Hr as (i & Hi & <-). rewrite RW by lia. now rewrite map_length, seq_length.
  - apply (@list_ext (length v)); [now rewrite apply_length|now rewrite map_length, seq_length|]. intros i Hi. rewrite nth_apply, RW by auto. rewrite nth_seq_map by auto.
    rewrite (@dot_nths (length v)) by (auto; now rewrite map_length, seq_length). rewrite <- (@total_kron (length v) (fun j => Rmax (nth j v 0 - noise) 0 * nth j z 0) i) by auto. apply total_seq_ext. intros j Hj. rewrite nth_seq_map by auto.
    destruct (Nat.eqb_spec i j) as [->|]; ring.
Qed.

(** The covariance of the fitted model as a map *)
Lemma covariance_apply m z : width (p_features m) (p_components m) -> length (p_components m) = length (p_explained m) -> 0 <= p_noise m -> length z = p_features m ->
  shape (p_features m) (p_features m) (p_covariance (pca_get_covariance m)) /\
  apply (p_covariance (pca_get_covariance m)) z =
  vadd (comb (p_features m) (fun j => Rmax (nth j (p_explained m) 0 - p_noise m) 0 * dot (nth j (p_components m) []) z) (p_components m)) (vscale (p_noise m) z).
Proof.
  intros W L P Lz. set (d := p_features m) in *. set (C := p_components m) in *. set (ev := p_explained m) in *. unfold pca_get_covariance. cbn [p_covariance]. fold d C ev.
  set (D := map (map (fun a => Rmax (a - p_noise m) 0)) (diagmat ev)). destruct (@clipped_diag (p_noise m) ev (apply C z)) as (WD & AD); [auto|now rewrite apply_length|]. fold D in WD, AD.
  set (M := mat_mul d (mat_mul (length ev) (transpose d C) D) C).
  assert (LD : length D = length ev) by (unfold D; rewrite map_length; apply diagmat_length).
  assert (WM : width d M) by (now apply mul_width). assert (LM : length M = d) by (unfold M; now rewrite !mul_length, transpose_length).
  set (I := map (fun i => vscale (p_noise m) (basis d i)) (seq 0 d)). assert (WI : width d I) by (intros r Hr; apply in_map_iff in Hr; destruct Hr as (i & <- & _); rewrite vscale_length; apply basis_length).
  assert (LI : length I = d) by (unfold I; now rewrite map_length, seq_length). split.
  - split; [rewrite map2_length; congruence|]. intros r Hr. apply In_nth with (d := []) in Hr. destruct Hr as (i & Hi & <-). rewrite map2_length in Hi by congruence.
    assert (E : nth_error (map2 vadd M I) i = Some (vadd (nth i M []) (nth i I []))) by (rewrite nth_error_map2; rewrite (nth_error_nth' M []), (nth_error_nth' I []) by congruence; reflexivity).
    rewrite (nth_error_nth _ _ _ E). rewrite vadd_length; [apply nth_width; auto|]. rewrite !(@nth_width d) by (auto; congruence). auto.
  - rewrite (@apply_vadd d) by (auto; congruence). unfold I. rewrite apply_scaled_identity by auto. f_equal. unfold M. rewrite apply_mul by (auto; rewrite L; apply mul_width; auto).
    rewrite apply_mul by (auto; rewrite LD, <- L; apply transpose_width). rewrite AD. rewrite apply_transpose by (auto; now rewrite map_length, seq_length). apply comb_ext. intros j Hj. rewrite nth_seq_map by lia. now rewrite nth_apply.
Qed.

(** The pseudo-inverse as a map *)
Lemma pinv_apply svd tol nr nc A z U s V : svd true nc A = (U, s, V) -> is_svd true nr nc A (U, s, V) -> length z = nr ->
  shape nc nr (pinv svd tol nr nc A) /\
  apply (pinv svd tol nr nc A) z = comb nc (fun j => if (j <? length s)%nat then inv_cut tol (nth j s 0) * dot (nth j U []) z else 0) V.
Proof.
  intros E H Lz. unfold pinv. rewrite E. destruct H as (Ls & LU & LV & (WU & OU) & (WV & OV) & _). cbn match in LU, LV.
  set (D := map (fun i => map (fun j => if ((i =? j) && (i <? length s))%nat then inv_cut tol (nth i s 0) else 0) (seq 0 nr)) (seq 0 nc)).
  assert (LD : length D = nc) by (unfold D; now rewrite map_length, seq_length). assert (WD : width nr D) by (intros r Hr; apply in_map_iff in Hr; destruct Hr as (i & <- & _); now rewrite map_length, seq_length). split.
  - split; [now rewrite !mul_length, transpose_length|]. exact (mul_width _ WU).
  - rewrite apply_mul by (auto; rewrite LU; apply mul_width; auto). rewrite apply_mul by (auto; rewrite LD, <- LV; apply transpose_width). rewrite apply_transpose by (auto; now rewrite apply_length, LD).
    apply comb_ext. intros j Hj. rewrite nth_apply. unfold D. rewrite nth_seq_map by lia. rewrite (@dot_nths nr) by (rewrite ?map_length, ?seq_length; auto; now rewrite apply_length).
    destruct (Nat.ltb_spec j (length s)) as [Lj|Lj].
    + rewrite <- (@total_kron nr (fun i => inv_cut tol (nth j s 0) * dot (nth i U []) z) j) by lia. apply total_seq_ext. intros i Hi. rewrite nth_seq_map by auto. rewrite nth_apply.
      rewrite andb_true_r. destruct (j =? i)%nat; ring.
    + rewrite (@total_seq_ext nr _ (fun _ => 0)); [rewrite total_const; ring|]. intros i Hi. rewrite nth_seq_map by auto. rewrite andb_false_r. ring.
Qed.
