From Coq Require Import Reals Lra Lia.
From Verif Require Import Base Common_Model RDR_Proofs KDReal_Proofs Tree_Model Impurity_Model Impurity_Spec Impurity_Proofs Vec LossSoftmax_Proofs MathFun_Model
  Stats_Model Stats_Spec Stats_Proofs NB_Spec NB_Proofs Linear_Model LinSolve_Proofs Linear_Proofs Decomp_Model Decomp_Spec.
Local Open Scope R_scope.
Set Implicit Arguments.

(** * Sums over indices *)
Lemma total_kron K (g : nat -> R) j : (j < K)%nat -> total (map (fun l => g l * (if (j =? l)%nat then 1 else 0)) (seq 0 K)) = g j.
Proof.
  intro L. assert (H : forall a n, (a <= j)%nat -> (j < a + n)%nat -> total (map (fun l => g l * (if (j =? l)%nat then 1 else 0)) (seq a n)) = g j).
  2: { apply H; lia. }
  intros a n. revert a. induction n as [|n IH]; intros a H1 H2; [lia|]. cbn [seq map]. unfold total. cbn [fold_right]. fold (total (map (fun l => g l * (if (j =? l)%nat then 1 else 0)) (seq (S a) n))).
  destruct (Nat.eqb_spec j a) as [->|N].
  - rewrite (total_ext _ (fun _ => 0)); [rewrite total_const; lra|]. intros l Hl. apply in_seq in Hl. destruct (Nat.eqb_spec a l); [lia|lra].
  - rewrite IH by lia. lra.
Qed.
Lemma total_scal_r {A} (c : R) (f : A -> R) l : total (map (fun x => f x * c) l) = total (map f l) * c.
Proof. rewrite (total_ext _ (fun x => c * f x)) by (intros; ring). rewrite total_scal. ring. Qed.
Lemma total_seq_ext K (f g : nat -> R) : (forall j, (j < K)%nat -> f j = g j) -> total (map f (seq 0 K)) = total (map g (seq 0 K)).
Proof. intro H. apply total_ext. intros j Hj. apply in_seq in Hj. apply H. lia. Qed.
Lemma total_seq_le K (f g : nat -> R) : (forall j, (j < K)%nat -> f j <= g j) -> total (map f (seq 0 K)) <= total (map g (seq 0 K)).
Proof. intro H. apply total_le. intros j Hj. apply in_seq in Hj. apply H. lia. Qed.
Lemma total_rows {A} (d : A) (f : A -> R) l : total (map f l) = total (map (fun i => f (nth i l d)) (seq 0 (length l))).
Proof.
  f_equal. rewrite (list_as_nths d l) at 1. rewrite map_map. reflexivity.
Qed.
Lemma nth_width d (vs : list (list R)) j : width d vs -> (j < length vs)%nat -> length (nth j vs []) = d.
Proof. intros W L. apply W. now apply nth_In. Qed.

(** * Combinations of vectors *)
Lemma comb_length d c vs : width d vs -> length (comb d c vs) = d.
Proof.
  intro W. apply vsum_length. intros x Hx. apply in_map_iff in Hx. destruct Hx as (j & <- & Hj). apply in_seq in Hj. rewrite vscale_length. apply nth_width; [auto|lia].
Qed.
Lemma dot_comb d c vs z : width d vs -> dot (comb d c vs) z = total (map (fun j => c j * dot (nth j vs []) z) (seq 0 (length vs))).
Proof.
  intro W. unfold comb. rewrite dot_vsum.
  - rewrite map_map. apply total_seq_ext. intros j _. apply dot_vscale_l.
  - intros x Hx. apply in_map_iff in Hx. destruct Hx as (j & <- & Hj). apply in_seq in Hj. rewrite vscale_length. apply nth_width; [auto|lia].
Qed.
Lemma dot_comb_member d c vs j : orthonormal d vs -> (j < length vs)%nat -> dot (comb d c vs) (nth j vs []) = c j.
Proof.
  intros (W & O) L. rewrite dot_comb by auto. rewrite <- (@total_kron (length vs) c j) by auto. apply total_seq_ext. intros l Hl. rewrite O by auto. now rewrite Nat.eqb_sym.
Qed.
Lemma comb_sqn d c vs : orthonormal d vs -> sqn (comb d c vs) = total (map (fun j => c j ^ 2) (seq 0 (length vs))).
Proof.
  intros O. unfold sqn. rewrite dot_comb by apply O. apply total_seq_ext. intros j Hj. rewrite dot_comm, dot_comb_member by auto. ring.
Qed.
Lemma nth_vsum d xs i : width d xs -> nth i (vsum d xs) 0 = total (map (fun x => nth i x 0) xs).
Proof.
  induction xs as [|x xs IH]; intros W; [apply nth_zeros|]. apply width_cons in W. destruct W as (W1 & W2). cbn [vsum fold_right map]. fold (vsum d xs).
  rewrite nth_vadd by (rewrite vsum_length; auto). rewrite IH by auto. reflexivity.
Qed.
Lemma nth_comb d c vs i : width d vs -> nth i (comb d c vs) 0 = total (map (fun j => c j * nth i (nth j vs []) 0) (seq 0 (length vs))).
Proof.
  intro W. unfold comb. rewrite nth_vsum.
  - rewrite map_map. apply total_seq_ext. intros j _. apply nth_vscale.
  - intros x Hx. apply in_map_iff in Hx. destruct Hx as (j & <- & Hj). apply in_seq in Hj. rewrite vscale_length. apply nth_width; [auto|lia].
Qed.
Lemma sqn_residual d vs x c : orthonormal d vs -> length x = d ->
  sqn (vsub x (comb d c vs)) = sqn x - total (map (fun j => dot (nth j vs []) x ^ 2) (seq 0 (length vs))) + total (map (fun j => (c j - dot (nth j vs []) x) ^ 2) (seq 0 (length vs))).
Proof.
  intros O Lx. rewrite sqn_vsub by (rewrite comb_length; [auto|apply O]). rewrite comb_sqn by auto. rewrite (dot_comm x), dot_comb by apply O.
  assert (E : forall (f g h k : nat -> R) l, (forall j, f j - 2 * g j = k j - h j) -> total (map f l) - 2 * total (map g l) = total (map k l) - total (map h l)).
  { intros f g h k l E. induction l as [|a l IH]; cbn; [lra|]. specialize (E a). unfold total in IH. lra. }
  pose proof (E (fun j => c j ^ 2) (fun j => c j * dot (nth j vs []) x) (fun j => dot (nth j vs []) x ^ 2) (fun j => (c j - dot (nth j vs []) x) ^ 2) (seq 0 (length vs)) ltac:(intros; cbv beta; ring)). lra.
Qed.
Lemma bessel d vs x : orthonormal d vs -> length x = d -> total (map (fun j => dot (nth j vs []) x ^ 2) (seq 0 (length vs))) <= sqn x.
Proof.
  intros O Lx. pose proof (sqn_nonneg (vsub x (comb d (fun j => dot (nth j vs []) x) vs))) as H. rewrite sqn_residual in H by auto.
  rewrite (total_ext (fun j => (dot (nth j vs []) x - dot (nth j vs []) x) ^ 2) (fun _ => 0)) in H by (intros; ring). rewrite total_const in H. lra.
Qed.
Lemma closest d vs x t : orthonormal d vs -> length x = d -> t = map (fun v => dot x v) vs -> closest_coordinates d vs x t.
Proof.
  intros O Lx ->. split; [now rewrite map_length|]. intros c Lc. rewrite !sqn_residual by auto.
  assert (E : forall j, (j < length vs)%nat -> nth j (map (fun v => dot x v) vs) 0 = dot (nth j vs []) x).
  { intros j Hj. rewrite (nth_indep _ 0 (dot x [])) by (now rewrite map_length). rewrite (map_nth (fun v => dot x v)). apply dot_comm. }
  rewrite (@total_seq_ext _ (fun j => (nth j (map (fun v => dot x v) vs) 0 - dot (nth j vs []) x) ^ 2) (fun _ => 0)) by (intros j Hj; rewrite E by auto; ring).
  rewrite total_const. set (S := total (map (fun j => (nth j c 0 - dot (nth j vs []) x) ^ 2) (seq 0 (length vs)))).
  assert (P : 0 <= S) by (apply total_nonneg; intros; apply pow2_ge_0). split; [lra|]. intro H. assert (Z : S = 0) by lra.
  assert (Q := total_zero _ _ (fun j _ => pow2_ge_0 (nth j c 0 - dot (nth j vs []) x)) Z). rewrite (list_as_nths 0 c), Lc. rewrite (list_as_nths 0 (map (fun v => dot x v) vs)), map_length.
  apply map_ext_in. intros j Hj. specialize (Q j Hj). apply in_seq in Hj. rewrite E by lia. assert (Q' : nth j c 0 - dot (nth j vs []) x = 0) by nra. lra.
Qed.

(** * Singular value decompositions *)
Section Svd.
  Variables (full : bool) (nr nc : nat) (A : list (list R)) (U V : list (list R)) (s : list R).
  Hypothesis HA : shape nr nc A.
  Hypothesis HS : is_svd full nr nc A (U, s, V).
  Let K := length s.
  Lemma svd_bounds : (K <= length U)%nat /\ (K <= length V)%nat /\ (K <= nr)%nat /\ (K <= nc)%nat.
  Proof. destruct HS as (L & LU & LV & _). unfold K. destruct full; lia. Qed.
  Lemma svd_row i w : (i < nr)%nat -> length w = nc -> dot (nth i A []) w = total (map (fun j => nth j s 0 * dot (nth j V []) w * nth i (nth j U []) 0) (seq 0 K)).
  Proof.
    intros Hi Lw. pose proof svd_bounds as (B1 & B2 & _). destruct HA as (LA & WA). destruct HS as (L & LU & LV & OU & OV & _ & _ & E).
    rewrite (@dot_nths nc) by (auto; apply WA, nth_In; lia).
    rewrite (@total_seq_ext nc _ (fun k => total (map (fun j => nth j s 0 * nth i (nth j U []) 0 * nth k (nth j V []) 0 * nth k w 0) (seq 0 K)))).
    2: { intros k Hk. specialize (E i k Hi Hk). unfold entry in E. rewrite E. symmetry. apply total_scal_r. }
    rewrite total_swap. apply total_seq_ext. intros j Hj. rewrite (@dot_nths nc) by solve [auto | apply nth_width; [apply OV|lia]].
    rewrite (total_ext _ (fun k => (nth j s 0 * nth i (nth j U []) 0) * (nth k (nth j V []) 0 * nth k w 0))) by (intros; ring). rewrite total_scal. ring.
  Qed.
  (** A w = sum s_j (v_j . w) u_j *)
  Lemma svd_apply w : length w = nc -> apply A w = comb nr (fun j => if (j <? K)%nat then nth j s 0 * dot (nth j V []) w else 0) U.
  Proof.
    intros Lw. pose proof svd_bounds as (B1 & B2 & _). destruct HA as (LA & WA). assert (OU : orthonormal nr U) by apply HS.
    rewrite (list_as_nths 0 (apply A w)), (list_as_nths 0 (comb nr _ U)). unfold apply at 2. rewrite map_length, comb_length, LA by apply OU.
    apply map_ext_in. intros i Hi. apply in_seq in Hi. unfold apply. rewrite nth_dots, svd_row by (auto; lia). rewrite nth_comb by apply OU.
    replace (length U) with (K + (length U - K))%nat by lia. rewrite seq_app, map_app, total_app. cbn [plus].
    rewrite (total_ext _ (fun _ : nat => 0) (seq K _)).
    2: { intros j Hj. apply in_seq in Hj. destruct (Nat.ltb_spec j K); [lia|ring]. }
    rewrite total_const. rewrite (@total_seq_ext K (fun x => (if (x <? K)%nat then nth x s 0 * dot (nth x V []) w else 0) * nth i (nth x U []) 0) (fun j => nth j s 0 * dot (nth j V []) w * nth i (nth j U []) 0)); [lra|].
    intros j Hj. destruct (Nat.ltb_spec j K); [auto|lia].
  Qed.
  Lemma total_cut (f : nat -> R) N : (K <= N)%nat -> total (map (fun j => if (j <? K)%nat then f j else 0) (seq 0 N)) = total (map f (seq 0 K)).
  Proof.
    intro L. replace N with (K + (N - K))%nat by lia. rewrite seq_app, map_app, total_app. cbn [plus]. rewrite (total_ext _ (fun _ : nat => 0) (seq K _)).
    2: { intros j Hj. apply in_seq in Hj. destruct (Nat.ltb_spec j K); [lia|auto]. }
    rewrite total_const. rewrite (@total_seq_ext K _ f); [lra|]. intros j Hj. destruct (Nat.ltb_spec j K); [auto|lia].
  Qed.
  Lemma svd_bilinear w z : length w = nc -> length z = nc ->
    total (map (fun r => dot r w * dot r z) A) = total (map (fun j => nth j s 0 ^ 2 * dot (nth j V []) w * dot (nth j V []) z) (seq 0 K)).
  Proof.
    intros Lw Lz. pose proof svd_bounds as (B1 & _). assert (OU : orthonormal nr U) by apply HS.
    transitivity (dot (apply A w) (apply A z)).
    { unfold apply, dot. rewrite map2_map_l, map2_map_r. f_equal. clear. induction A as [|r l IH]; cbn; [auto|now rewrite IH]. }
    rewrite (svd_apply w Lw). rewrite dot_comb by apply OU. rewrite <- (total_cut (fun j => nth j s 0 ^ 2 * dot (nth j V []) w * dot (nth j V []) z)) with (N := length U) by auto.
    apply total_seq_ext. intros j Hj. destruct (Nat.ltb_spec j K); [|ring]. rewrite (svd_apply z Lz), (dot_comm (nth j U [])), dot_comb_member by auto.
    destruct (Nat.ltb_spec j K); [ring|lia].
  Qed.
  Lemma svd_energy w : length w = nc -> energy A w = total (map (fun j => nth j s 0 ^ 2 * dot (nth j V []) w ^ 2) (seq 0 K)).
  Proof.
    intro Lw. unfold energy. rewrite (total_ext _ (fun r => dot r w * dot r w)) by (intros; ring). rewrite svd_bilinear by auto. apply total_seq_ext. intros; ring.
  Qed.
  Lemma svd_energy_member j : (j < K)%nat -> energy A (nth j V []) = nth j s 0 ^ 2.
  Proof.
    intro Hj. pose proof svd_bounds as (_ & B2 & _). assert (OV : orthonormal nc V) by apply HS. rewrite svd_energy by (apply nth_width; [apply OV|lia]).
    rewrite <- (@total_kron K (fun j => nth j s 0 ^ 2) j) by auto. apply total_seq_ext. intros l Hl. destruct OV as (_ & O). rewrite O by lia. rewrite Nat.eqb_sym. destruct (j =? l)%nat; ring.
  Qed.
  Lemma svd_total : total (map sqn A) = total (map (fun a => a ^ 2) s).
  Proof.
    pose proof svd_bounds as (_ & B2 & _). destruct HA as (LA & WA). assert (OV : orthonormal nc V) by apply HS.
    rewrite (total_ext sqn (fun r => total (map (fun k => dot r (basis nc k) ^ 2) (seq 0 nc)))).
    2: { intros r Hr. unfold sqn. rewrite (@dot_nths nc) by auto. apply total_seq_ext. intros k Hk. rewrite (@dot_nths nc r) by (auto; apply basis_length).
      rewrite (@total_seq_ext nc (fun j => nth j r 0 * nth j (basis nc k) 0) (fun j => nth j r 0 * (if (k =? j)%nat then 1 else 0))) by (intros j Hj; rewrite nth_basis, Nat.eqb_sym by auto; auto).
      rewrite total_kron by auto. ring. }
    rewrite total_swap. rewrite (@total_seq_ext nc _ (fun k => total (map (fun j => nth j s 0 ^ 2 * dot (nth j V []) (basis nc k) ^ 2) (seq 0 K)))) by (intros k Hk; apply (svd_energy _ (basis_length nc k))).
    rewrite total_swap. rewrite (total_rows 0 _ s). apply total_seq_ext. intros j Hj. fold K in Hj. rewrite total_scal.
    assert (Lv : length (nth j V []) = nc) by (apply nth_width; [apply OV|lia]).
    rewrite (@total_seq_ext nc _ (fun k => nth k (nth j V []) 0 * nth k (nth j V []) 0)).
    2: { intros k Hk. rewrite (@dot_nths nc) by (auto; apply basis_length).
      rewrite (@total_seq_ext nc (fun l => nth l (nth j V []) 0 * nth l (basis nc k) 0) (fun l => nth l (nth j V []) 0 * (if (k =? l)%nat then 1 else 0))) by (intros l Hl; rewrite nth_basis, Nat.eqb_sym by auto; auto).
      rewrite total_kron by auto. ring. }
    rewrite <- dot_nths by auto. destruct OV as (_ & O). rewrite O by lia. rewrite Nat.eqb_refl. ring.
  Qed.
  (** The first right singular vectors have the most energy (Ky Fan). *)
  Lemma svd_optimal ws : orthonormal nc ws -> (length ws <= K)%nat -> total (map (energy A) ws) <= total (map (fun j => nth j s 0 ^ 2) (seq 0 (length ws))).
  Proof.
    intros OW Lk. pose proof svd_bounds as (_ & B2 & _). assert (OV : orthonormal nc V) by apply HS. set (k := length ws) in *.
    destruct HS as (_ & _ & _ & _ & _ & Pos & Dec & _). fold K in Pos, Dec.
    destruct (Nat.eq_dec k 0) as [Z|NZ]. { rewrite Z. destruct ws; [cbn; lra|discriminate]. }
    rewrite (total_rows [] _ ws). fold k. rewrite (@total_seq_ext k _ (fun l => total (map (fun j => nth j s 0 ^ 2 * dot (nth j V []) (nth l ws []) ^ 2) (seq 0 K)))).
    2: { intros l Hl. apply svd_energy. apply nth_width; [apply OW|auto]. }
    rewrite total_swap. set (b := fun j => total (map (fun l => dot (nth j V []) (nth l ws []) ^ 2) (seq 0 k))).
    rewrite (@total_seq_ext K _ (fun j => nth j s 0 ^ 2 * b j)) by (intros; apply total_scal).
    assert (B0 : forall j, 0 <= b j) by (intro j; apply total_nonneg; intros; apply pow2_ge_0).
    assert (B1 : forall j, (j < K)%nat -> b j <= 1).
    { intros j Hj. assert (Lv : length (nth j V []) = nc) by (apply nth_width; [apply OV|lia]). pose proof (@bessel nc ws _ OW Lv) as B. fold k in B. unfold sqn in B. destruct OV as (_ & O). rewrite O in B by lia.
      rewrite Nat.eqb_refl in B. unfold b. rewrite (total_ext _ (fun l => dot (nth l ws []) (nth j V []) ^ 2)); [exact B|]. intros; now rewrite dot_comm. }
    assert (BS : total (map b (seq 0 K)) <= INR k).
    { unfold b. rewrite total_swap. apply Rle_trans with (total (map (fun _ : nat => 1) (seq 0 k))); [|rewrite total_const, seq_length; lra].
      apply total_seq_le. intros l Hl. assert (Lw : length (nth l ws []) = nc) by (apply nth_width; [apply OW|auto]). pose proof (@bessel nc V _ OV Lw) as B. unfold sqn in B. destruct OW as (_ & O). rewrite O in B by auto.
      rewrite Nat.eqb_refl in B. eapply Rle_trans; [|exact B]. replace (length V) with (K + (length V - K))%nat by lia. rewrite seq_app, map_app, total_app.
      assert (0 <= total (map (fun j => dot (nth j V []) (nth l ws []) ^ 2) (seq (0 + K) (length V - K)))) by (apply total_nonneg; intros; apply pow2_ge_0). lra. }
    set (t := nth (k - 1) s 0 ^ 2). assert (T0 : 0 <= t) by apply pow2_ge_0.
    assert (G : total (map (fun j => nth j s 0 ^ 2 * b j) (seq 0 K)) - t * total (map b (seq 0 K)) <= total (map (fun j => nth j s 0 ^ 2) (seq 0 k)) - t * INR k).
    { assert (E1 : total (map (fun j => nth j s 0 ^ 2 * b j) (seq 0 K)) - t * total (map b (seq 0 K)) = total (map (fun j => (nth j s 0 ^ 2 - t) * b j) (seq 0 K))).
      { rewrite <- total_scal. rewrite (total_ext (fun j => (nth j s 0 ^ 2 - t) * b j) (fun j => nth j s 0 ^ 2 * b j + (-1) * (t * b j))) by (intros; ring). rewrite total_plus, (total_scal (-1)). ring. }
      assert (E2 : total (map (fun j => nth j s 0 ^ 2) (seq 0 k)) - t * INR k = total (map (fun j => nth j s 0 ^ 2 - t) (seq 0 k))).
      { rewrite (total_ext (fun j => nth j s 0 ^ 2 - t) (fun j => nth j s 0 ^ 2 + (- t))) by (intros; ring). rewrite total_plus, total_const, seq_length. ring. }
      rewrite E1, E2. replace K with (k + (K - k))%nat by lia. rewrite seq_app, map_app, total_app. cbn [plus].
      assert (L1 : total (map (fun j => (nth j s 0 ^ 2 - t) * b j) (seq 0 k)) <= total (map (fun j => nth j s 0 ^ 2 - t) (seq 0 k))).
      { apply total_seq_le. intros j Hj. cbv beta. assert (D := Dec j (k - 1)%nat ltac:(lia) ltac:(lia)). assert (P := Pos (k - 1)%nat ltac:(lia)).
        assert (Q : 0 <= nth j s 0 ^ 2 - t) by (unfold t; nra). specialize (B1 j ltac:(lia)). assert (0 <= (nth j s 0 ^ 2 - t) * (1 - b j)) by (apply Rmult_le_pos; lra). lra. }
      assert (L2 : total (map (fun j => (nth j s 0 ^ 2 - t) * b j) (seq k (K - k))) <= 0).
      { apply Rle_trans with (total (map (fun _ : nat => 0) (seq k (K - k)))); [|rewrite total_const; lra]. apply total_le. intros j Hj. apply in_seq in Hj. cbv beta.
        assert (D := Dec (k - 1)%nat j ltac:(lia) ltac:(lia)). assert (P := Pos j ltac:(lia)). assert (Q : nth j s 0 ^ 2 - t <= 0) by (unfold t; nra). specialize (B0 j). assert (0 <= - (nth j s 0 ^ 2 - t) * b j) by (apply Rmult_le_pos; lra). lra. }
      lra. }
    assert (t * total (map b (seq 0 K)) <= t * INR k) by (apply Rmult_le_compat_l; auto). lra.
  Qed.
End Svd.
