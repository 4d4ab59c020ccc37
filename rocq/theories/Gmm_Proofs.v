(** Gaussian mixtures: the covariances, the densities, and one step of expectation maximisation. *)
From Coq Require Import Reals Lra String.
From Verif Require Import Base Common_Model KDReal_Proofs Impurity_Model Impurity_Spec Impurity_Proofs Vec MathFun_Model MathFun_Proofs Stats_Model Stats_Spec Stats_Proofs LossSoftmax_Proofs
  Linear_Model LinSolve_Proofs Linear_Proofs NB_Model NB_Spec NB_Proofs Decomp_Model Decomp_Spec Decomp_Proofs DecompPca_Proofs Gmm_Model Det_Spec Det_Proofs Gmm_Spec Chol_Proofs.
Local Open Scope R_scope.
Set Implicit Arguments.

(** * Determinants *)
Lemma det_factor d : forall A U, square d A -> bsym d A -> chol d A = Some U -> 0 < det d A /\ ln (det d A) = 2 * total (map (fun j => ln (udiag U j)) (seq 0 d)).
Proof.
  induction d as [|d IH]; intros A U Q B E.
  - unfold det. cbn [laplace]. split; [lra|]. rewrite ln_1. unfold total. cbn. ring.
  - cbn [chol] in E. destruct A as [|[|a r0] rows]; try discriminate. destruct (Rltb 0 a) eqn:Pa; [|discriminate]. apply Rltb_true in Pa. cbv zeta in E. fold (schur rows (sqrt a)) in E.
    destruct (chol d (schur rows (sqrt a))) as [L|] eqn:EL; [|discriminate]. injection E as <-. assert (Q' := Q). destruct Q' as (LA & W). cbn in LA. apply width_cons in W. destruct W as (L0 & W). cbn in L0.
    destruct (IH _ _ (@schur_width d rows (sqrt a) W ltac:(lia)) (schur_bsym Q B Pa) EL) as (D & LD).
    assert (Pl : 0 < sqrt a) by (now apply sqrt_lt_R0). assert (Ll : sqrt a * sqrt a = a) by (apply sqrt_sqrt; lra).
    assert (R0 : r0 = vscale (sqrt a) (map (fun r => hd 0 r / sqrt a) rows)).
    { apply (@list_ext d); [lia|rewrite vscale_length, map_length; lia|]. intros i Hi.
      pose proof (@form_split d a r0 rows 1 (zeros d) 0 (basis d i) Q B Pa (zeros_length d) (basis_length d i)) as F. cbv zeta in F. cbn [apply map] in F. rewrite !dot_cons in F. rewrite !dot_zeros_l in F.
      rewrite (dot_comm _ (zeros d)), dot_zeros_l in F. rewrite (dot_comm r0), (dot_comm (map _ rows)) in F. rewrite !dot_basis in F by (rewrite ?map_length; lia). rewrite nth_vscale. lra. }
    assert (HS : map (fun r => vsub (tl r) (vscale (hd 0 r / a) r0)) rows = schur rows (sqrt a)).
    { unfold schur. rewrite map2_map_r. rewrite R0. generalize (map (fun r => hd 0 r / sqrt a) rows) as below. intro below. clear -Pl Ll. assert (Na : a <> 0) by nra. induction rows as [|r rows IH]; [reflexivity|]. cbn [map map2]. f_equal; [|exact IH].
      f_equal. unfold vscale. rewrite map_map. apply map_ext. intro b. rewrite <- Ll at 1. field. lra. }
    rewrite det_step by (auto; lra). rewrite HS. split; [apply Rmult_lt_0_compat; auto|]. rewrite ln_mult by auto. rewrite LD. cbn [seq map]. unfold total at 2. cbn [fold_right]. rewrite <- seq_shift, map_map.
    change (fold_right Rplus 0 (map (fun x => ln (udiag ((sqrt a :: map (fun r => hd 0 r / sqrt a) rows) :: L) (S x))) (seq 0 d))) with (total (map (fun j => ln (udiag L j)) (seq 0 d))).
    unfold udiag at 2. cbn [nth hd]. rewrite <- Ll at 1. rewrite ln_mult by auto. ring.
Qed.
Lemma log_det_factor d A U : square d A -> bsym d A -> chol d A = Some U ->
  log_det_chol (map (fun j => back_solve U (basis d j)) (seq 0 d)) = - total (map (fun j => ln (udiag U j)) (seq 0 d)).
Proof.
  intros Q B E. unfold log_det_chol. rewrite Rsum_total, map_length, seq_length. pose proof (factor_packed Q B E) as PU.
  replace (- total (map (fun j => ln (udiag U j)) (seq 0 d))) with (-1 * total (map (fun j => ln (udiag U j)) (seq 0 d))) by ring. rewrite <- total_scal. apply total_seq_ext. intros j Hj. rewrite nth_seq_map by auto.
  destruct (@back_solve_tail d U (basis d j) j PU (basis_length d j)) as (_ & T); [intros i Hi; rewrite nth_basis by auto; destruct (Nat.eqb_spec i j); [lia|auto]|]. rewrite T by auto. rewrite nth_basis, Nat.eqb_refl by auto.
  pose proof (@udiag_pos d U j PU Hj). unfold Rdiv. rewrite Rmult_1_l, ln_Rinv by auto. ring.
Qed.
Lemma symmetric_bsym d A : shape d d A -> symmetric d A -> bsym d A.
Proof.
  intros (LA & W) S z w Lz Lw. assert (F : forall u v, length u = d -> length v = d -> dot u (apply A v) = total (map (fun i => total (map (fun j => nth i u 0 * entry A i j * nth j v 0) (seq 0 d))) (seq 0 d))).
  { intros u v Lu Lv. rewrite (@dot_nths d) by (auto; unfold apply; now rewrite map_length). apply total_seq_ext. intros i Hi. rewrite nth_apply. rewrite (@dot_nths d) by (auto; apply nth_width; auto; lia).
    rewrite <- total_scal. apply total_seq_ext. intros j Hj. unfold entry. ring. }
  rewrite !F by auto. rewrite total_swap. apply total_seq_ext. intros i Hi. apply total_seq_ext. intros j Hj. rewrite S by auto. ring.
Qed.
Lemma bsym_symmetric d A : square d A -> bsym d A -> symmetric d A.
Proof.
  intros (LA & W) S i j Hi Hj. specialize (S (basis d i) (basis d j) (basis_length d i) (basis_length d j)). rewrite !dot_basis in S by (auto; unfold apply; now rewrite map_length).
  rewrite !nth_apply in S. rewrite !(dot_comm _ (basis _ _)) in S. rewrite !dot_basis in S by (auto; apply nth_width; auto; lia). exact S.
Qed.

(** * Scatter matrices *)
Lemma map2_nths {A B C} (a0 : A) (b0 : B) (f : A -> B -> C) : forall u v, length u = length v -> map2 f u v = map (fun i => f (nth i u a0) (nth i v b0)) (seq 0 (length v)).
Proof.
  induction u as [|a u IH]; intros [|b v] L; cbn in L; try lia; [reflexivity|]. cbn [map2 length seq map nth]. f_equal. rewrite <- seq_shift, map_map. apply IH. lia.
Qed.
Lemma scatter_square d r D : square d (weighted_scatter d r D) \/ ~ width d D.
Proof.
  destruct (Forall_dec (fun x => length x = d) (fun x => Nat.eq_dec (length x) d) D) as [H|H]; [left|right].
  - rewrite Forall_forall in H. unfold weighted_scatter. split; [now rewrite map_length, seq_length|]. intros x Hx. apply in_map_iff in Hx. destruct Hx as (a & <- & _). apply vsum_length.
    revert D H. induction r as [|c r IH]; intros [|y D] H z Hz; cbn in Hz; try easy. destruct Hz as [<-|Hz]; [rewrite vscale_length; apply H; now left|]. apply (IH D); [intros; apply H; now right|auto].
  - intro W. apply H. apply Forall_forall. exact W.
Qed.
Lemma scatter_form d r D z w : width d D -> length r = length D -> length z = d ->
  dot z (apply (weighted_scatter d r D) w) = total (map (fun i => nth i r 0 * dot z (nth i D []) * dot w (nth i D [])) (seq 0 (length D))).
Proof.
  intros W L Lz. rewrite (@dot_nths d) by (auto; unfold apply, weighted_scatter; now rewrite !map_length, seq_length).
  rewrite (total_seq_ext _ (fun a => total (map (fun i => nth a z 0 * (nth i r 0 * nth a (nth i D []) 0 * dot w (nth i D []))) (seq 0 (length D))))).
  2: { intros a Ha. rewrite total_scal. f_equal. unfold apply, weighted_scatter. rewrite map_map, nth_seq_map by auto. rewrite (map2_nths 0 []) by auto.
    rewrite dot_vsum. 2: { intros x Hx. apply in_map_iff in Hx. destruct Hx as (i & <- & Hi). apply in_seq in Hi. rewrite vscale_length. apply nth_width; [auto|lia]. }
    rewrite map_map. apply total_seq_ext. intros i Hi. rewrite dot_vscale_l, (dot_comm w). reflexivity. }
  rewrite total_swap. apply total_seq_ext. intros i Hi. rewrite (@dot_nths d z) by (auto; apply nth_width; auto).
  rewrite (total_seq_ext _ (fun a => (nth a z 0 * nth a (nth i D []) 0) * (nth i r 0 * dot w (nth i D [])))) by (intros; ring). rewrite total_scal_r. ring.
Qed.
Lemma scaled_form (A : list (list R)) n z w : dot z (apply (map (map (fun a => a / n)) A) w) = dot z (apply A w) / n.
Proof.
  assert (E : forall v, map (fun a => a / n) v = vscale (/ n) v) by (intro v; apply map_ext; intro; unfold Rdiv; ring). unfold apply. rewrite map_map.
  rewrite (map_ext _ (fun r => / n * dot r w)) by (intro r; rewrite E; apply dot_vscale_l). rewrite <- (map_map (fun r => dot r w) (Rmult (/ n))). fold (vscale (/ n)). rewrite dot_vscale_r. unfold Rdiv. ring.
Qed.
Lemma diag_form reg d A z w : square d A -> length z = d -> length w = d -> dot z (apply (add_diag reg d A) w) = dot z (apply A w) + reg * dot z w.
Proof.
  intros (L & W) Lz Lw. unfold apply. rewrite add_diag_dots by auto. rewrite dot_vadd_r by (rewrite vscale_length, map_length; congruence). now rewrite dot_vscale_r.
Qed.
Lemma map_square n d A : square d A -> square d (map (map (fun a : R => a / n)) A).
Proof. intros (L & W). split; [now rewrite map_length|]. intros x Hx. apply in_map_iff in Hx. destruct Hx as (y & <- & Hy). rewrite map_length. auto. Qed.
Lemma diag_square reg d A : square d A -> square d (add_diag reg d A).
Proof. intros (L & W). split; [now apply add_diag_length|now apply add_diag_width]. Qed.
Lemma diffs_width d X m : width d X -> length m = d -> width d (map (fun x => vsub x m) X).
Proof. intros W L x Hx. apply in_map_iff in Hx. destruct Hx as (y & <- & Hy). rewrite vsub_length; rewrite (W y Hy); auto. Qed.
Section Full.
  Variables (d : nat) (X : list (list R)) (r m : list R) (nk reg : R).
  Hypothesis W : width d X.
  Hypothesis Lr : length r = length X.
  Hypothesis Lm : length m = d.
  Lemma full_square : square d (covariance_full d X r m nk reg).
  Proof. unfold covariance_full. apply diag_square, map_square. destruct (scatter_square d r (map (fun x => vsub x m) X)) as [H|H]; [auto|]. exfalso. apply H. now apply diffs_width. Qed.
  Lemma full_form z w : length z = d -> length w = d -> dot z (apply (covariance_full d X r m nk reg) w) =
    total (map (fun i => nth i r 0 * (dot z (nth i X []) - dot z m) * (dot w (nth i X []) - dot w m)) (seq 0 (length X))) / nk + reg * dot z w.
  Proof.
    intros Lz Lw. pose proof (@diffs_width d X m W Lm) as WD. unfold covariance_full. destruct (scatter_square d r (map (fun x => vsub x m) X)) as [SQ|H]; [|contradiction]. rewrite diag_form by (auto using map_square).
    rewrite scaled_form. rewrite scatter_form by (auto; now rewrite map_length). rewrite map_length. do 2 f_equal. apply total_seq_ext. intros i Hi.
    rewrite (nth_indep _ [] (vsub [] m)) by (rewrite map_length; auto). rewrite (map_nth (fun x => vsub x m)). rewrite !dot_vsub_r by (rewrite (@nth_width d X i W Hi); auto). reflexivity.
  Qed.
  Lemma full_bsym : bsym d (covariance_full d X r m nk reg).
  Proof. intros z w Lz Lw. rewrite !full_form by auto. rewrite (dot_comm w z). do 2 f_equal. apply total_seq_ext. intros; ring. Qed.
  Lemma full_bpos : (forall a, In a r -> 0 <= a) -> 0 < nk -> 0 < reg -> bpos d (covariance_full d X r m nk reg).
  Proof.
    intros Pr Pn Pg z Lz (a & Ha & Na). rewrite full_form by auto. fold (sqn z). assert (0 < sqn z). { destruct (sqn_nonneg z) as [H|H]; [auto|]. exfalso. symmetry in H. apply Na. exact (proj1 (sqn_zero z) H a Ha). }
    assert (0 <= total (map (fun i => nth i r 0 * (dot z (nth i X []) - dot z m) * (dot z (nth i X []) - dot z m)) (seq 0 (length X))) / nk).
    { apply Rmult_le_pos; [|apply Rlt_le, Rinv_0_lt_compat; auto]. apply total_nonneg. intros i Hi. apply in_seq in Hi. assert (0 <= nth i r 0) by (apply Pr, nth_In; lia). rewrite Rmult_assoc. apply Rmult_le_pos; [auto|apply Rle_0_sqr]. }
    assert (0 < reg * sqn z) by (now apply Rmult_lt_0_compat). lra.
  Qed.
End Full.
Lemma tied_square d X means nk reg : width d X -> width d means -> square d (covariance_tied d X means nk reg).
Proof.
  intros W WM. unfold covariance_tied. apply diag_square, map_square. destruct (scatter_square d (map (fun _ => 1) X) X) as [(L1 & W1)|H]; [|contradiction]. destruct (scatter_square d nk means) as [(L2 & W2)|H]; [|contradiction].
  split; [rewrite map2_length; lia|]. revert W1 W2. generalize (weighted_scatter d (map (fun _ => 1) X) X) as A1. generalize (weighted_scatter d nk means) as A2. clear.
  intros A2 A1. revert A2. induction A1 as [|a A1 IH]; intros [|b A2] W1 W2 x Hx; cbn in Hx; try easy. apply width_cons in W1. apply width_cons in W2. destruct W1 as (La & W1), W2 as (Lb & W2).
  destruct Hx as [<-|Hx]; [rewrite vsub_length; lia|]. exact (IH A2 W1 W2 x Hx).
Qed.
Lemma sub_apply d : forall (A1 A2 : list (list R)) w, width d A1 -> width d A2 -> length A1 = length A2 -> apply (map2 vsub A1 A2) w = vsub (apply A1 w) (apply A2 w).
Proof.
  induction A1 as [|a A1 IH]; intros [|b A2] w W1 W2 L; cbn in L; try lia; [reflexivity|]. apply width_cons in W1. apply width_cons in W2. destruct W1 as (La & W1), W2 as (Lb & W2). cbn [map2 apply map].
  change (vsub (?x :: ?u) (?y :: ?v)) with (x - y :: vsub u v). f_equal; [apply dot_vsub_l; lia|]. apply IH; auto.
Qed.
Lemma tied_form d X means nk reg z w : width d X -> width d means -> length nk = length means -> length z = d -> length w = d ->
  dot z (apply (covariance_tied d X means nk reg) w) =
    (total (map (fun x => dot z x * dot w x) X) - total (map (fun k => nth k nk 0 * dot z (nth k means []) * dot w (nth k means [])) (seq 0 (length means)))) / total nk + reg * dot z w.
Proof.
  intros W WM Ln Lz Lw. unfold covariance_tied.
  destruct (scatter_square d (map (fun _ => 1) X) X) as [(L1 & W1)|H]; [|contradiction]. destruct (scatter_square d nk means) as [(L2 & W2)|H]; [|contradiction].
  assert (SQ : square d (map2 vsub (weighted_scatter d (map (fun _ => 1) X) X) (weighted_scatter d nk means))).
  { split; [rewrite map2_length; lia|]. revert W1 W2. generalize (weighted_scatter d (map (fun _ => 1) X) X) as A1. generalize (weighted_scatter d nk means) as A2. clear.
    intros A2 A1. revert A2. induction A1 as [|a A1 IH]; intros [|b A2] W1 W2 x Hx; cbn in Hx; try easy. apply width_cons in W1. apply width_cons in W2. destruct W1 as (La & W1), W2 as (Lb & W2).
    destruct Hx as [<-|Hx]; [rewrite vsub_length; lia|]. exact (IH A2 W1 W2 x Hx). }
  rewrite diag_form by (auto using map_square). rewrite scaled_form, Rsum_total. rewrite (@sub_apply d) by (auto; lia). rewrite dot_vsub_r by (unfold apply; rewrite !map_length; lia).
  rewrite !scatter_form by (auto; now rewrite map_length). rewrite (total_rows [] (fun x => dot z x * dot w x) X).
  rewrite (@total_seq_ext (length X) (fun i => nth i (map (fun _ => 1) X) 0 * dot z (nth i X []) * dot w (nth i X [])) (fun i => dot z (nth i X []) * dot w (nth i X []))); [reflexivity|]. intros i Hi.
  rewrite (nth_indep _ 0 1) by (rewrite map_length; auto). rewrite (map_nth (fun _ : list R => 1) X []). ring.
Qed.

(** * Components *)
Definition component (d : nat) (mu : list R) (cov P : list (list R)) : Prop :=
  length mu = d /\ square d cov /\ bsym d cov /\ exists U, chol d cov = Some U /\ P = map (fun j => back_solve U (basis d j)) (seq 0 d).
Definition valid (K d : nat) (p : params) : Prop :=
  length (g_means p) = K /\ length (g_weights p) = K /\ length (g_covariances p) = K /\ length (g_precisions_chol p) = K /\
  forall k, (k < K)%nat -> 0 < nth k (g_weights p) 0 /\ component d (nth k (g_means p) []) (nth k (g_covariances p) []) (nth k (g_precisions_chol p) []).
Definition usable (ct : string) (K : nat) : Prop := ct = "full"%string \/ ct = "tied"%string /\ K = 1%nat.
Definition term (d : nat) (p : params) (x : list R) (k : nat) : R :=
  nth k (g_weights p) 0 * gaussian d (nth k (g_means p) []) (nth k (g_covariances p) []) (outer d (nth k (g_precisions_chol p) [])) x.
Definition terms (K d : nat) (p : params) (x : list R) : list R := map (term d p x) (seq 0 K).

Lemma sq_whiten d A U x mu : square d A -> bsym d A -> chol d A = Some U -> length x = d -> length mu = d ->
  let P := map (fun j => back_solve U (basis d j)) (seq 0 d) in Rsum (map (fun c => sq (dot x c - dot mu c)) P) = sqn (whiten d U (vsub x mu)).
Proof.
  intros Q B E Lx Lmu P. rewrite Rsum_total, sqn_sum. unfold whiten. fold P. rewrite map_map. apply total_ext. intros c Hc. unfold sq. now rewrite dot_vsub_l by congruence.
Qed.
Lemma gaussian_pos d mu cov P x : component d mu cov P -> 0 < gaussian d mu cov (outer d P) x.
Proof.
  intros (Lm & Q & B & U & E & _). destruct (det_factor Q B E) as (D & _). unfold gaussian. apply Rdiv_lt_0_compat; [apply exp_pos|]. apply sqrt_lt_R0. apply Rmult_lt_0_compat; [|auto]. apply pow_lt. pose proof PI_RGT_0. lra.
Qed.
Lemma ln_exp_div a s : 0 < s -> ln (exp a / s) = a - ln s.
Proof. intro H. unfold Rdiv. rewrite ln_mult by (try apply exp_pos; now apply Rinv_0_lt_compat). rewrite ln_exp, ln_Rinv by auto. ring. Qed.
Lemma component_log d mu cov P x : component d mu cov P -> length x = d ->
  Rsum (map (fun c => sq (dot x c - dot mu c)) P) * (- (1 / 2)) + INR d * ln (2 * PI) * (- (1 / 2)) + log_det_chol P = ln (gaussian d mu cov (outer d P) x).
Proof.
  intros (Lm & Q & B & U & E & ->) Lx. rewrite (@sq_whiten d cov U x mu Q B E) by auto. rewrite (@whiten_sqn d cov U Q B E) by (rewrite vsub_length; congruence). rewrite (log_det_factor Q B E). destruct (det_factor Q B E) as (D & LD).
  unfold gaussian. pose proof PI_RGT_0 as HP. assert (P2 : 0 < (2 * PI) ^ d) by (apply pow_lt; lra). assert (PP : 0 < (2 * PI) ^ d * det d cov) by (now apply Rmult_lt_0_compat).
  rewrite ln_exp_div by (now apply sqrt_lt_R0). rewrite ln_sqrt by auto. rewrite (ln_mult ((2 * PI) ^ d)) by auto.
  rewrite LD. rewrite ln_pow by lra. lra.
Qed.
Lemma term_pos K d p x k : valid K d p -> (k < K)%nat -> 0 < term d p x k.
Proof. intros (_ & _ & _ & _ & V) Hk. destruct (V k Hk) as (Pw & C). unfold term. apply Rmult_lt_0_compat; [auto|]. now apply gaussian_pos. Qed.
Lemma terms_pos K d p x a : valid K d p -> In a (terms K d p x) -> 0 < a.
Proof. intros V H. unfold terms in H. apply in_map_iff in H. destruct H as (k & <- & Hk). apply in_seq in Hk. apply (@term_pos K); [auto|lia]. Qed.
Lemma factor_lengths K d p : valid K d p -> forall P, In P (g_precisions_chol p) -> length P = d.
Proof.
  intros (_ & _ & _ & LP & V) P HP. apply In_nth with (d := []) in HP. destruct HP as (k & Hk & <-). rewrite LP in Hk. destruct (V k Hk) as (_ & _ & _ & _ & U & _ & ->). now rewrite map_length, seq_length.
Qed.
Lemma wlp_spec ct K d p X : usable ct K -> valid K d p -> width d X ->
  estimate_weighted_log_prob ct p d X = Ok (map (fun x => map ln (terms K d p x)) X).
Proof.
  intros Us V W. assert (V' := V). destruct V' as (LM & LW & LC & LP & VK). unfold estimate_weighted_log_prob.
  assert (EX : existsb (fun P => negb (length P =? d)%nat) (g_precisions_chol p) = false).
  { apply not_true_is_false. intro H. apply existsb_exists in H. destruct H as (P & HP & N). rewrite (factor_lengths V P HP), Nat.eqb_refl in N. discriminate. }
  rewrite EX. unfold estimate_log_prob.
  rewrite (mapM_Ok _ (fun x => map (fun k => Rsum (map (fun c => sq (dot x c - dot (nth k (g_means p) []) c)) (nth k (g_precisions_chol p) []))) (seq 0 K))).
  2: { intros x Hx. rewrite LM. apply mapM_Ok. intros k Hk. apply in_seq in Hk. rewrite (@vget_Ok _ _ _ []) by lia. cbn [bind]. unfold component_distance.
    assert (E : (if String.eqb ct "tied" then vget (g_precisions_chol p) 0 else vget (g_precisions_chol p) k) = Ok (nth k (g_precisions_chol p) [])).
    { destruct Us as [->|(-> & ->)]; cbn [String.eqb Ascii.eqb Bool.eqb]; [apply vget_Ok; lia|]. replace k with 0%nat by lia. apply vget_Ok. lia. }
    rewrite E. reflexivity. }
  cbn [bind]. rewrite map_length, LP, LM, Nat.eqb_refl. cbn [negb bind]. rewrite map_length, LW, Nat.eqb_refl. cbn [negb]. f_equal. rewrite !map_map. apply map_ext_in. intros x Hx. pose proof (W x Hx) as Lx.
  apply (@list_ext K).
  - rewrite vadd_length; rewrite map2_length; rewrite ?map_length, ?seq_length; lia.
  - unfold terms. now rewrite !map_length, seq_length.
  - intros k Hk. destruct (VK k Hk) as (Pw & C). rewrite nth_vadd by (rewrite map2_length; rewrite !map_length, ?seq_length; lia). rewrite (map2_nths 0 0) by (rewrite !map_length, seq_length; lia).
    rewrite map_length, LP, nth_seq_map by auto. unfold terms. rewrite map_map, !nth_seq_map by auto. rewrite (nth_map log_det_chol (g_precisions_chol p) 0 []) by lia. rewrite (nth_map ln (g_weights p) 0 0) by lia.
    rewrite (component_log x C Lx). unfold term. rewrite ln_mult by (auto; now apply gaussian_pos). ring.
Qed.
Lemma terms_ne K d p x : (0 < K)%nat -> terms K d p x <> [].
Proof. intros H E. apply (f_equal (@length R)) in E. unfold terms in E. rewrite map_length, seq_length in E. cbn in E. lia. Qed.
Lemma lse_terms K d p x : valid K d p -> lse_of (map ln (terms K d p x)) = ln (total (terms K d p x)).
Proof.
  intro V. unfold lse_of. rewrite map_map. do 2 f_equal. rewrite <- (map_id (terms K d p x)) at 2. apply map_ext_in. intros a Ha. apply exp_ln. exact (@terms_pos K d p x a V Ha).
Qed.
(** The posterior probabilities of the components, by Bayes' rule. *)
Definition posterior (K d : nat) (p : params) (x : list R) : list R := normalise (terms K d p x).
Lemma e_step_spec ct K d p X : usable ct K -> (0 < K)%nat -> valid K d p -> width d X ->
  exists log_resp, e_step ct p K d X = Ok (avg (map (fun x => ln (total (terms K d p x))) X), log_resp) /\ map (map exp) log_resp = map (posterior K d p) X.
Proof.
  intros Us PK V W. unfold e_step. rewrite (wlp_spec Us V W). cbn [bind].
  assert (NE : forall r, In r (map (fun x => map ln (terms K d p x)) X) -> r <> []) by (intros r Hr; apply in_map_iff in Hr; destruct Hr as (x & <- & _); intro E; apply map_eq_nil in E; exact (terms_ne d p x PK E)).
  pose proof (prob_of_spec K _ NE) as PS. unfold prob_of, log_prob_of in PS. unfold logsumexp in *. cbn [Z.eqb Pos.eqb] in *. destruct (max_coeff_rows _ NE) as (c & Ec & Lc). rewrite Ec in *. cbn [bind] in *.
  rewrite lse_rows in * by auto. eexists. split.
  - apply f_equal, f_equal2; [|reflexivity]. rewrite mean1_avg, map_map. f_equal. apply map_ext. intro x. now apply lse_terms.
  - injection PS as PS. rewrite PS, map_map. apply map_ext. intro x. unfold posterior. rewrite <- (@softmax_of_ln _ 0) by (intros a; now apply terms_pos). f_equal. apply map_ext. intro a. ring.
Qed.

(** * Parameters from responsibilities *)
Definition resp_ok (n K : nat) (resp : list (list R)) : Prop := shape n K resp /\ (forall r a, In r resp -> In a r -> 0 <= a) /\ forall r, In r resp -> total r = 1.
Section Params.
  Variables (eps reg : R) (K d : nat) (X resp : list (list R)).
  Hypothesis Pe : 0 < eps.
  Hypothesis Pg : 0 < reg.
  Hypothesis PK : (0 < K)%nat.
  Hypothesis PX : X <> [].
  Hypothesis W : width d X.
  Hypothesis HR : resp_ok (length X) K resp.
  Definition nk (k : nat) : R := mass resp k + eps.
  Definition mean_of (k : nat) : list R := map (fun a => a / nk k) (weighted_sum d (resp_col k resp) X).
  Definition cov_of (k : nat) : list (list R) := covariance_full d X (resp_col k resp) (mean_of k) (nk k) reg.
  Lemma resp_col_length k : length (resp_col k resp) = length X.
  Proof. unfold resp_col. rewrite map_length. apply HR. Qed.
  Lemma nth_resp_col k i : (i < length X)%nat -> nth i (resp_col k resp) 0 = entry resp i k.
  Proof. intro H. unfold resp_col, entry. rewrite (nth_map (fun r => nth k r 0) resp 0 []); [reflexivity|]. destruct HR as ((L & _) & _). lia. Qed.
  Lemma resp_nonneg i k : 0 <= entry resp i k.
  Proof.
    unfold entry. destruct (Nat.lt_ge_cases i (length resp)) as [Hi|Hi]; [|rewrite (nth_overflow resp) by auto; destruct k; cbn; lra]. destruct (Nat.lt_ge_cases k (length (nth i resp []))) as [Hk|Hk]; [|rewrite nth_overflow by auto; lra].
    destruct HR as (_ & N & _). apply (N (nth i resp [])); apply nth_In; auto.
  Qed.
  Lemma mass_sum k : Rsum (resp_col k resp) = mass resp k.
  Proof. rewrite Rsum_total. unfold resp_col, mass. rewrite (total_rows [] (fun r => nth k r 0) resp). reflexivity. Qed.
  Lemma mass_nonneg k : 0 <= mass resp k.
  Proof. apply total_nonneg. intros i _. apply resp_nonneg. Qed.
  Lemma nk_pos k : 0 < nk k.
  Proof. unfold nk. pose proof (mass_nonneg k). lra. Qed.
  Lemma wsum_width k : width d (map2 vscale (resp_col k resp) X).
  Proof. now apply width_map2_vscale. Qed.
  Lemma mean_length k : length (mean_of k) = d.
  Proof. unfold mean_of. rewrite map_length. apply vsum_length, wsum_width. Qed.
  Lemma dot_mean k c : dot c (mean_of k) = total (map (fun i => entry resp i k * dot c (nth i X [])) (seq 0 (length X))) / nk k.
  Proof.
    unfold mean_of. replace (map (fun a => a / nk k) (weighted_sum d (resp_col k resp) X)) with (vscale (/ nk k) (weighted_sum d (resp_col k resp) X)) by (apply map_ext; intro; unfold Rdiv; ring).
    rewrite dot_vscale_r, dot_comm. unfold weighted_sum. rewrite dot_vsum by apply wsum_width. rewrite (map2_nths 0 []) by apply resp_col_length. rewrite map_map. unfold Rdiv. rewrite Rmult_comm. f_equal.
    apply total_seq_ext. intros i Hi. rewrite dot_vscale_l, nth_resp_col by auto. now rewrite (dot_comm c).
  Qed.
  Lemma cov_component k : exists U, component d (mean_of k) (cov_of k) (map (fun j => back_solve U (basis d j)) (seq 0 d)) /\ chol d (cov_of k) = Some U.
  Proof.
    assert (Q : square d (cov_of k)) by (apply full_square; auto using resp_col_length, mean_length). assert (B : bsym d (cov_of k)) by (apply full_bsym; auto using resp_col_length, mean_length).
    destruct (@chol_complete d (cov_of k) Q B) as (U & E).
    - apply full_bpos; auto using resp_col_length, mean_length, nk_pos. intros a Ha. unfold resp_col in Ha. apply in_map_iff in Ha. destruct Ha as (r & <- & Hr). apply In_nth with (d := []) in Hr. destruct Hr as (i & _ & <-). apply resp_nonneg.
    - exists U. split; [|auto]. split; [apply mean_length|]. split; [auto|]. split; [auto|]. eauto.
  Qed.
  Lemma cov_form k z w : length z = d -> length w = d -> dot z (apply (cov_of k) w) =
    total (map (fun i => entry resp i k * (dot z (nth i X []) - dot z (mean_of k)) * (dot w (nth i X []) - dot w (mean_of k))) (seq 0 (length X))) / nk k + reg * dot z w.
  Proof.
    intros Lz Lw. unfold cov_of. rewrite full_form by (auto using resp_col_length, mean_length). do 2 f_equal. apply total_seq_ext. intros i Hi. now rewrite nth_resp_col by auto.
  Qed.
  Definition prec_of (c : list (list R)) : list (list R) := match chol d c with Some U => map (fun j => back_solve U (basis d j)) (seq 0 d) | None => [] end.
  Definition full_params : params :=
    Params (map mean_of (seq 0 K)) (map (fun k => nk k / INR (length X)) (seq 0 K)) (map cov_of (seq 0 K)) (map (fun k => prec_of (cov_of k)) (seq 0 K)).
  Lemma full_params_valid : valid K d full_params.
  Proof.
    unfold valid, full_params. cbn [g_means g_weights g_covariances g_precisions_chol]. rewrite !map_length, !seq_length. split; [auto|]. split; [auto|]. split; [auto|]. split; [auto|]. intros k Hk. rewrite !nth_seq_map by auto.
    split; [apply Rdiv_lt_0_compat; [apply nk_pos|now apply INR_pos]|]. destruct (cov_component k) as (U & C & E). unfold prec_of. now rewrite E.
  Qed.
  Lemma estimate_means ct : snd (fst (estimate_parameters eps reg ct K d X resp)) = map mean_of (seq 0 K) /\ snd (estimate_parameters eps reg ct K d X resp) = map nk (seq 0 K).
  Proof.
    unfold estimate_parameters. cbn [fst snd]. assert (N : map (fun k => Rsum (resp_col k resp) + eps) (seq 0 K) = map nk (seq 0 K)) by (apply map_ext; intro k; now rewrite mass_sum). rewrite N. split; [|auto].
    rewrite map2_map_r. generalize (seq 0 K) as l. induction l as [|k l IH]; [reflexivity|]. cbn [map map2]. f_equal. exact IH.
  Qed.
  Lemma precision_chol_ok k : precision_chol d (cov_of k) = Ok (prec_of (cov_of k)).
  Proof. destruct (cov_component k) as (U & _ & E). unfold precision_chol, prec_of. now rewrite E. Qed.
  Lemma new_params_full : new_params eps reg "full" K d X resp = Ok full_params.
  Proof.
    unfold new_params. destruct (estimate_parameters eps reg "full" K d X resp) as ((cs, ms), ns) eqn:E. pose proof (estimate_means "full") as (E1 & E2). rewrite E in E1, E2. cbn [fst snd] in E1, E2. subst ms ns.
    assert (C : cs = map cov_of (seq 0 K)).
    { unfold estimate_parameters in E. cbn [String.eqb Ascii.eqb Bool.eqb] in E. injection E as <- Em En. rewrite Em, En. apply map_ext_in. intros k Hk. apply in_seq in Hk. unfold cov_of. rewrite !nth_seq_map by lia. reflexivity. }
    subst cs. unfold compute_precision_cholesky. rewrite (@vget_Ok matrix _ _ []) by (rewrite map_length, seq_length; auto). cbn [bind]. rewrite nth_seq_map by auto.
    assert (L : length (cov_of 0) = d) by (apply (@full_square d); auto using resp_col_length, mean_length). rewrite L, mapM_compose.
    rewrite (mapM_Ok _ (fun k => prec_of (cov_of k))) by (intros k _; apply precision_chol_ok). cbn [bind]. unfold full_params. now rewrite map_map.
  Qed.
  (** tied *)
  Definition tied_of : list (list R) := covariance_tied d X (map mean_of (seq 0 K)) (map nk (seq 0 K)) reg.
  Lemma means_width : width d (map mean_of (seq 0 K)).
  Proof. intros m Hm. apply in_map_iff in Hm. destruct Hm as (k & <- & _). apply mean_length. Qed.
  Lemma resp_row_total i : (i < length X)%nat -> total (map (fun k => entry resp i k) (seq 0 K)) = 1.
  Proof.
    intro Hi. destruct HR as ((L & WR) & _ & T). rewrite <- (T (nth i resp [])) by (apply nth_In; lia). unfold entry. rewrite <- (WR (nth i resp [])) by (apply nth_In; lia). now rewrite <- list_as_nths.
  Qed.
  Lemma total_nk : total (map nk (seq 0 K)) = INR (length X) + INR K * eps.
  Proof.
    unfold nk. rewrite total_plus, total_const, seq_length. f_equal. unfold mass. rewrite total_swap. destruct HR as ((L & _) & _). rewrite L. rewrite (total_seq_ext _ (fun _ => 1)) by (intros i Hi; now apply resp_row_total).
    rewrite total_const, seq_length. ring.
  Qed.
  Lemma direction_bound k c : nk k * dot c (mean_of k) ^ 2 <= total (map (fun i => entry resp i k * dot c (nth i X []) ^ 2) (seq 0 (length X))).
  Proof.
    set (m := dot c (mean_of k)). assert (E : total (map (fun i => entry resp i k * dot c (nth i X [])) (seq 0 (length X))) = nk k * m). { unfold m. rewrite dot_mean. pose proof (nk_pos k). field. lra. }
    assert (H : 0 <= total (map (fun i => entry resp i k * (dot c (nth i X []) - m) ^ 2) (seq 0 (length X)))).
    { apply total_nonneg. intros i _. apply Rmult_le_pos; [apply resp_nonneg|apply pow2_ge_0]. }
    rewrite (total_ext _ (fun i => (entry resp i k * dot c (nth i X []) ^ 2 + - (2 * m) * (entry resp i k * dot c (nth i X []))) + m ^ 2 * entry resp i k)) in H by (intros; ring).
    rewrite !total_plus, !total_scal, E in H. assert (M : total (map (fun i => entry resp i k) (seq 0 (length X))) = mass resp k) by (unfold mass; destruct HR as ((-> & _) & _); reflexivity). rewrite M in H.
    unfold nk in *. pose proof (pow2_ge_0 m). nra.
  Qed.
  Lemma tied_ok : square d tied_of /\ bsym d tied_of /\ bpos d tied_of.
  Proof.
    assert (Q : square d tied_of) by (apply tied_square; auto using means_width). assert (F : forall z w, length z = d -> length w = d -> dot z (apply tied_of w) =
      (total (map (fun x => dot z x * dot w x) X) - total (map (fun k => nk k * dot z (mean_of k) * dot w (mean_of k)) (seq 0 K))) / total (map nk (seq 0 K)) + reg * dot z w).
    { intros z w Lz Lw. unfold tied_of. rewrite tied_form by (auto using means_width; now rewrite !map_length). rewrite map_length, seq_length. do 3 f_equal. apply total_seq_ext. intros k Hk. now rewrite !nth_seq_map by auto. }
    split; [auto|]. split.
    - intros z w Lz Lw. rewrite !F by auto. rewrite (dot_comm w z). do 2 f_equal. f_equal; apply total_ext; intros; ring.
    - intros z Lz (a & Ha & Na). rewrite F by auto. fold (sqn z). assert (P0 : 0 < sqn z). { destruct (sqn_nonneg z) as [H|H]; [auto|]. exfalso. symmetry in H. apply Na. exact (proj1 (sqn_zero z) H a Ha). }
      assert (P1 : 0 < total (map nk (seq 0 K))). { rewrite total_nk. pose proof (INR_pos PX). assert (0 < INR K) by (now apply lt_0_INR). nra. }
      assert (H : total (map (fun k => nk k * dot z (mean_of k) * dot z (mean_of k)) (seq 0 K)) <= total (map (fun x => dot z x * dot z x) X)).
      { rewrite (total_rows [] (fun x => dot z x * dot z x) X). rewrite (@total_seq_ext (length X) (fun i => dot z (nth i X []) * dot z (nth i X [])) (fun i => total (map (fun k => entry resp i k * dot z (nth i X []) ^ 2) (seq 0 K)))).
        2: { intros i Hi. rewrite total_scal_r, resp_row_total by auto. ring. }
        rewrite total_swap. apply total_seq_le. intros k Hk. pose proof (direction_bound k z). lra. }
      assert (0 <= (total (map (fun x => dot z x * dot z x) X) - total (map (fun k => nk k * dot z (mean_of k) * dot z (mean_of k)) (seq 0 K))) / total (map nk (seq 0 K))) by (apply Rmult_le_pos; [lra|apply Rlt_le, Rinv_0_lt_compat; auto]).
      assert (0 < reg * sqn z) by (now apply Rmult_lt_0_compat). lra.
  Qed.
  Definition tied_params : params := Params (map mean_of (seq 0 K)) (map (fun k => nk k / INR (length X)) (seq 0 K)) [tied_of] [prec_of tied_of].
  Lemma new_params_tied : new_params eps reg "tied" K d X resp = Ok tied_params.
  Proof.
    unfold new_params. destruct (estimate_parameters eps reg "tied" K d X resp) as ((cs, ms), ns) eqn:E. pose proof (estimate_means "tied") as (E1 & E2). rewrite E in E1, E2. cbn [fst snd] in E1, E2. subst ms ns.
    assert (C : cs = [tied_of]).
    { unfold estimate_parameters in E. cbn [String.eqb Ascii.eqb Bool.eqb] in E. injection E as <- Em En. rewrite Em, En. reflexivity. }
    subst cs. unfold compute_precision_cholesky. cbn [vget nth_error]. cbn [bind]. destruct tied_ok as (Q & B & P). rewrite (proj1 Q). cbn [mapM]. unfold precision_chol. destruct (chol_complete Q B P) as (U & EU). rewrite EU. cbn [bind].
    unfold tied_params, prec_of. rewrite EU, map_map. reflexivity.
  Qed.
  Lemma tied_params_valid : K = 1%nat -> valid K d tied_params.
  Proof.
    intro K1. unfold valid, tied_params. cbn [g_means g_weights g_covariances g_precisions_chol]. rewrite !map_length, !seq_length. rewrite K1. split; [auto|]. split; [auto|]. split; [auto|]. split; [auto|]. intros k Hk. assert (k = 0%nat) as -> by lia.
    cbn [seq map nth]. split; [apply Rdiv_lt_0_compat; [apply nk_pos|now apply INR_pos]|]. destruct tied_ok as (Q & B & P). destruct (chol_complete Q B P) as (U & EU). unfold prec_of. rewrite EU. split; [apply mean_length|]. split; [auto|]. split; [auto|]. eauto.
  Qed.
End Params.
