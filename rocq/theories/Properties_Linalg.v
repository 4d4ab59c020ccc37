(** C54: Cholesky factors, LU and the logarithm of the determinant.  C56: QR.  (core/math/linalg.hpp; the specification is
    in Linalg_Spec and Det_Spec.) *)
From Coq Require Import Reals Lra.
From Verif Require Import Base Common_Model KDReal_Proofs Impurity_Model Impurity_Spec Impurity_Proofs Vec Stats_Spec Stats_Proofs LossSoftmax_Proofs Linear_Model LinSolve_Proofs Linear_Proofs NB_Model NB_Spec NB_Proofs
  Decomp_Model Decomp_Spec Decomp_Proofs DecompPca_Proofs Det_Spec Det_Proofs Gmm_Model Gmm_Spec Chol_Proofs Gmm_Proofs Linalg_Model Linalg_Spec Linalg_Proofs Lu_Proofs Qr_Proofs Properties_Decomp.
Local Open Scope R_scope.
Set Implicit Arguments.

(** * The logarithm of the determinant *)
(** For every square matrix: log(det(A)) when the determinant is positive, and -inf when it is negative or 0. *)
Theorem C54_logdet : forall d x, shape d d x -> logdet d d x = Ok (if Rlt_dec 0 (det d x) then Fin (ln (det d x)) else NegInf).
Proof.
  intros d x H. rewrite logdet_spec by auto. destruct (Rlt_dec 0 (det d x)) as [L|G]; [apply Rltb_true in L; now rewrite L|]. destruct (Rltb 0 (det d x)) eqn:E; [apply Rltb_true in E; contradiction|reflexivity].
Qed.
Print Assumptions C54_logdet.
(** A matrix that is not square violates an assertion. *)
Theorem C54_logdet_square_refuted : forall nr nc x, nr <> nc -> logdet nr nc x = UB.
Proof. intros nr nc x N. unfold logdet. apply Nat.eqb_neq in N. now rewrite N. Qed.
Print Assumptions C54_logdet_square_refuted.

(** For a positive definite precision matrix, [score] of PCA (C50) with this [logdet] is the average logarithm of the normal density
    sqrt(det P / (2 pi)^d) exp(- x.Px / 2) at the rows, minus their mean. *)
Theorem C54_pca_score : forall m d X, positive_definite d (p_precision m) -> width d X ->
  pca_score (fun P => match logdet d d P with Ok (Fin a) => a | _ => 0 end) m d X =
  Ok (avg (map (fun x => ln (sqrt (det d (p_precision m) / (2 * PI) ^ d) * exp (- dot x (apply (p_precision m) x) / 2))) (deviations d X))).
Proof.
  intros m d X PD W. assert (PD' := PD). destruct PD' as (H & Sy & P). rewrite C50_score by auto. pose proof (symmetric_bsym H Sy) as B. destruct (chol_complete H B P) as (U & E). destruct (det_factor H B E) as (D & _).
  rewrite C54_logdet by auto. destruct (Rlt_dec 0 (det d (p_precision m))) as [_|]; [|contradiction]. do 2 f_equal. apply map_ext. intro x. pose proof PI_RGT_0 as HP. assert (P2 : 0 < (2 * PI) ^ d) by (apply pow_lt; lra).
  assert (Q : 0 < det d (p_precision m) / (2 * PI) ^ d) by (now apply Rdiv_lt_0_compat).
  rewrite (ln_mult (sqrt (det d (p_precision m) / (2 * PI) ^ d))) by (solve [now apply sqrt_lt_R0|apply exp_pos]). rewrite ln_exp, ln_sqrt by auto.
  assert (E2 : ln (det d (p_precision m) / (2 * PI) ^ d) = ln (det d (p_precision m)) - INR d * ln (2 * PI)) by (unfold Rdiv; rewrite (ln_mult (det d (p_precision m))) by (auto; now apply Rinv_0_lt_compat); rewrite ln_Rinv, ln_pow by (auto; lra); ring).
  rewrite E2. field.
Qed.
Print Assumptions C54_pca_score.

(** * Cholesky *)
Lemma unpack_entry d : forall U k i j, packed d U -> (i < d)%nat -> (j < k + d)%nat -> entry (unpack k U) i j = if (k + i <=? j)%nat then nth (j - (k + i)) (nth i U []) 0 else 0.
Proof.
  induction d as [|d IH]; intros [|[|l t] U] k i j P Hi Hj; cbn in P; try easy; try lia. destruct P as (_ & Lt & P). cbn [unpack]. destruct i as [|i].
  - unfold entry. cbn [nth]. rewrite nth_app_zeros, Nat.add_0_r. destruct (Nat.ltb_spec j k), (Nat.leb_spec k j); try lia; reflexivity.
  - rewrite entry_S, IH by (auto; lia). replace (S k + i)%nat with (k + S i)%nat by lia. reflexivity.
Qed.
Lemma unpack_shape d : forall U k, packed d U -> shape d (k + d) (unpack k U).
Proof.
  induction d as [|d IH]; intros [|[|l t] U] k P; cbn in P; try easy. destruct P as (_ & Lt & P). destruct (IH U (S k) P) as (L & W). cbn [unpack]. split; [cbn; now rewrite L|]. intros r [<-|Hr]; [rewrite app_length, zeros_length; cbn; lia|]. rewrite (W r Hr). lia.
Qed.
Lemma umul_unpack d : forall U k i z, packed d U -> length z = (k + d)%nat -> (i < d)%nat -> nth i (umul U (skipn k z)) 0 = dot (nth i (unpack k U) []) z.
Proof.
  induction d as [|d IH]; intros [|[|l t] U] k i z P Lz Hi; cbn in P; try easy; try lia. destruct P as (_ & Lt & P). cbn [umul unpack]. destruct i as [|i]; cbn [nth]; [now rewrite dot_zeros_app|].
  rewrite <- (IH U (S k) i z P ltac:(lia) ltac:(lia)). f_equal. f_equal. clear. revert z. induction k as [|k IH]; intros [|a z]; try reflexivity. cbn [skipn]. rewrite IH. now destruct z.
Qed.
Lemma entry_transpose_ nr nc A i j : shape nr nc A -> (i < nc)%nat -> (j < nr)%nat -> entry (transpose nc A) i j = entry A j i.
Proof.
  intros (L & W) Hi Hj. unfold entry, transpose. rewrite (nth_seq_map (fun j => map (fun r => nth j r 0) A) [] Hi). rewrite (nth_indep _ 0 (nth i [] 0)) by (rewrite map_length; lia). now rewrite (map_nth (fun r => nth i r 0)).
Qed.
Lemma transpose_shape_ nr nc (A : list (list R)) : length A = nr -> shape nc nr (transpose nc A).
Proof. intro L. split; [unfold transpose; now rewrite map_length, seq_length|]. intros r Hr. unfold transpose in Hr. apply in_map_iff in Hr. destruct Hr as (j & <- & _). now rewrite map_length. Qed.
Lemma entry_basis d A i j : shape d d A -> (i < d)%nat -> (j < d)%nat -> entry A i j = dot (basis d i) (apply A (basis d j)).
Proof.
  intros (L & W) Hi Hj. rewrite dot_basis by (auto; unfold apply; now rewrite map_length). unfold apply. rewrite nth_dots, dot_comm. rewrite dot_basis; [reflexivity|auto|]. apply W, nth_In. lia.
Qed.
Lemma chol_entries d A U i j : shape d d A -> bsym d A -> chol d A = Some U -> (i < d)%nat -> (j < d)%nat ->
  entry A i j = total (map (fun t => entry (unpack 0 U) t i * entry (unpack 0 U) t j) (seq 0 d)).
Proof.
  intros H B E Hi Hj. destruct (chol_sound (proj1 H, proj2 H : width d A) B E) as (P & F) || destruct (@chol_sound d A U H B E) as (P & F).
  rewrite (entry_basis H Hi Hj). rewrite F by apply basis_length. rewrite (@dot_nths d) by (rewrite umul_length; now apply packed_length). apply total_seq_ext. intros t Ht.
  pose proof (@umul_unpack d U 0 t (basis d i) P (basis_length d i) Ht) as E1. pose proof (@umul_unpack d U 0 t (basis d j) P (basis_length d j) Ht) as E2. cbn [skipn] in E1, E2. rewrite E1, E2.
  destruct (@unpack_shape d U 0 P) as (Lu & Wu). assert (Lr : length (nth t (unpack 0 U) []) = d) by (apply Wu, nth_In; lia). now rewrite !(dot_comm (nth t (unpack 0 U) [])), !dot_basis.
Qed.
(** For every symmetric matrix: the lower triangular factor L with a positive diagonal and L L^T = x, or its transpose, when the
    matrix is positive definite; an exception when it is not. *)
Theorem C54_cholesky : forall d x, shape d d x -> symmetric d x ->
  (positive_definite d x -> exists L U, cholesky d x true = Ok L /\ cholesky d x false = Ok U /\
    lower_triangular d d L /\ upper_triangular d d U /\ (forall i, (i < d)%nat -> 0 < entry L i i) /\
    (forall i j, (i < d)%nat -> (j < d)%nat -> entry U i j = entry L j i) /\ is_product d d d x L U) /\
  (~ positive_definite d x -> forall lower, cholesky d x lower = Throw RuntimeError).
Proof.
  intros d x H S. pose proof (symmetric_bsym H S) as B. split.
  - intros (_ & _ & P). destruct (chol_complete H B P) as (V & E). destruct (@chol_sound d x V H B E) as (PV & _). destruct (@unpack_shape d V 0 PV) as (LV & WV). assert (HV : shape d d (unpack 0 V)) by (split; auto).
    exists (transpose d (unpack 0 V)), (unpack 0 V). unfold cholesky. rewrite E. split; [reflexivity|]. split; [reflexivity|].
    assert (T : forall i j, (i < d)%nat -> (j < d)%nat -> entry (transpose d (unpack 0 V)) i j = entry (unpack 0 V) j i) by (intros; now apply (@entry_transpose_ d d)).
    assert (Z : forall i j, (i < d)%nat -> (j < i)%nat -> entry (unpack 0 V) i j = 0) by (intros i j Hi Hj; rewrite (@unpack_entry d) by (auto; lia); destruct (Nat.leb_spec (0 + i) j); [lia|reflexivity]).
    split; [|split; [|split; [|split]]].
    + split; [apply transpose_shape_; auto|]. intros i j Hi Hj L. rewrite T by auto. apply Z; auto.
    + split; [auto|]. intros i j Hi Hj L. now apply Z.
    + intros i Hi. rewrite T by auto. rewrite (@unpack_entry d) by (auto; lia). rewrite Nat.leb_refl, Nat.sub_diag. pose proof (@udiag_pos d V i PV Hi) as U. unfold udiag in U. destruct (nth i V []); exact U.
    + intros i j Hi Hj. now rewrite T.
    + intros i j Hi Hj. rewrite (@chol_entries d x V i j H B E Hi Hj). apply total_seq_ext. intros t Ht. now rewrite T.
  - intros N lower. unfold cholesky. destruct (chol d x) as [V|] eqn:E; [|reflexivity]. exfalso. apply N. split; [auto|]. split; [auto|]. exact (chol_posdef H B E).
Qed.
Print Assumptions C54_cholesky.
(** Only the lower triangle is read. *)
Definition lower_half (d : nat) (x : list (list R)) : list (list R) := map (fun i => map (fun j => entry x (Nat.max i j) (Nat.min i j)) (seq 0 d)) (seq 0 d).
Lemma nth_map2_ (f : list R -> R -> list R) : forall rs bs i, (i < length rs)%nat -> (i < length bs)%nat -> nth i (map2 f rs bs) [] = f (nth i rs []) (nth i bs 0).
Proof. induction rs as [|r rs IH]; intros [|b bs] i H1 H2; cbn in *; try lia. destruct i as [|i]; [reflexivity|]. apply IH; lia. Qed.
Lemma chol_lower d : forall A B, shape d d A -> shape d d B -> (forall i j, (j <= i < d)%nat -> entry A i j = entry B i j) -> chol d A = chol d B.
Proof.
  induction d as [|d IH]; intros A B HA HB E; [reflexivity|]. cbn [chol]. destruct HA as (LA & WA), HB as (LB & WB). destruct A as [|[|a r0] rows]; [discriminate|specialize (WA [] (or_introl eq_refl)); discriminate|].
  destruct B as [|[|b s0] rows']; [discriminate|specialize (WB [] (or_introl eq_refl)); discriminate|]. pose proof (E 0%nat 0%nat ltac:(lia)) as E0. change (a = b) in E0. subst b. destruct (Rltb 0 a); [|reflexivity].
  assert (W1 : width (S d) rows) by (intros r Hr; apply WA; now right). assert (W2 : width (S d) rows') by (intros r Hr; apply WB; now right). cbn in LA, LB.
  assert (Eb : map (fun r => hd 0 r / sqrt a) rows = map (fun r => hd 0 r / sqrt a) rows').
  { apply (@list_ext d); [rewrite map_length; lia|rewrite map_length; lia|]. intros i Hi. rewrite (nth_indep _ 0 (hd 0 [] / sqrt a)) by (rewrite map_length; lia). rewrite (nth_indep (map _ rows') 0 (hd 0 [] / sqrt a)) by (rewrite map_length; lia). rewrite !(map_nth (fun r => hd 0 r / sqrt a)). f_equal.
    pose proof (E (S i) 0%nat ltac:(lia)) as X. rewrite !entry_S in X. unfold entry in X. destruct (nth i rows []), (nth i rows' []); exact X. }
  assert (Es : chol d (schur rows (sqrt a)) = chol d (schur rows' (sqrt a))).
  { pose proof (@schur_width d rows (sqrt a) W1 ltac:(lia)) as S1. pose proof (@schur_width d rows' (sqrt a) W2 ltac:(lia)) as S2. apply IH; [exact S1|exact S2|]. intros i j Hij. unfold schur. cbv zeta. rewrite <- Eb. set (below := map (fun r => hd 0 r / sqrt a) rows).
    assert (Lb : length below = d) by (unfold below; rewrite map_length; lia).
    assert (X : forall rs, length rs = d -> width (S d) rs -> entry (map2 (fun r b => vsub (tl r) (vscale b below)) rs below) i j = entry rs i (S j) - nth i below 0 * nth j below 0).
    { intros rs Lr Wr. unfold entry. assert (Li : length (nth i rs []) = S d) by (apply Wr, nth_In; lia). assert (Q : nth i (map2 (fun r b => vsub (tl r) (vscale b below)) rs below) [] = vsub (tl (nth i rs [])) (vscale (nth i below 0) below)).
      { now rewrite (@nth_map2_ (fun r b => vsub (tl r) (vscale b below))) by lia. }
      rewrite Q. destruct (nth i rs []) as [|c r]; [discriminate|]. cbn [tl]. cbn in Li. rewrite nth_vsub by (rewrite vscale_length; lia). rewrite nth_vscale. reflexivity. }
    rewrite !X by (auto; lia). f_equal. pose proof (E (S i) (S j) ltac:(lia)) as Y. rewrite !entry_S in Y. exact Y. }
  cbv zeta. fold (schur rows (sqrt a)). fold (schur rows' (sqrt a)). rewrite Es, Eb. reflexivity.
Qed.
Theorem C54_cholesky_lower_half : forall d x lower, shape d d x -> cholesky d x lower = cholesky d (lower_half d x) lower.
Proof.
  intros d x lower H. unfold cholesky. rewrite (@chol_lower d x (lower_half d x)); auto; [apply table_shape|]. intros i j Hij. unfold lower_half. rewrite (@entry_table d d (fun i j => entry x (Nat.max i j) (Nat.min i j))) by lia. now rewrite Nat.max_l, Nat.min_r by lia.
Qed.
Print Assumptions C54_cholesky_lower_half.
(** So a matrix that is not symmetric gets no exception, but a factor of another matrix, whenever its lower half is
    that of a positive definite one. *)
Theorem C54_cholesky_symmetry_refuted : forall d x, shape d d x -> ~ symmetric d x -> positive_definite d (lower_half d x) ->
  exists L U, cholesky d x true = Ok L /\ cholesky d x false = Ok U /\ ~ is_product d d d x L U.
Proof.
  intros d x H N P. assert (P' := P). destruct P' as (HS & S & _). destruct (proj1 (C54_cholesky HS S) P) as (L & U & E1 & E2 & _ & _ & _ & T & F). exists L, U. rewrite (@C54_cholesky_lower_half d x true), (@C54_cholesky_lower_half d x false) by auto. split; [auto|]. split; [auto|].
  intro X. apply N. intros i j Hi Hj. rewrite (X i j Hi Hj), (X j i Hj Hi). rewrite <- (F i j Hi Hj), <- (F j i Hj Hi). now apply S.
Qed.
Print Assumptions C54_cholesky_symmetry_refuted.

(** * LU *)
Lemma mat_mul_entry nr K nc A B i j : shape nr K A -> shape K nc B -> (i < nr)%nat -> (j < nc)%nat -> entry (mat_mul nc A B) i j = product K A B i j.
Proof.
  intros (LA & WA) (LB & WB) Hi Hj. unfold entry at 1, mat_mul. set (g := fun r : list R => vsum nc (map2 vscale r B)). rewrite (nth_indep _ [] (g [])) by (rewrite map_length; lia). rewrite (map_nth g). unfold g. assert (Lr : length (nth i A []) = K) by (apply WA, nth_In; lia).
  rewrite nth_vsum by (now apply width_map2_vscale). unfold product, entry. set (r := nth i A []) in *. clearbody r. clear -Lr LB.
  revert B K Lr LB. induction r as [|a r IH]; intros [|b B] K Lr LB; cbn in Lr, LB; subst K; try discriminate; [reflexivity|]. cbn [map2 map seq]. unfold total. cbn [fold_right]. rewrite nth_vscale. cbn [nth]. f_equal. fold (total (map (fun x => nth j x 0) (map2 vscale r B))).
  rewrite (IH B (length r) eq_refl ltac:(lia)). rewrite <- seq_shift, map_map. reflexivity.
Qed.
(** What [lu] returns of a matrix x of any shape: a permutation matrix P, a unit lower triangular L with entries at most
    1, an upper triangular U whose rows have their largest entry on the diagonal; P x Q = L U for some permutation Q of
    the columns. *)
Theorem C54_lu : forall nr nc x, shape nr nc x ->
  let K := Nat.min nr nc in
  exists P L U rp cp, lu nr nc x false = (P, L, U) /\ permutation_matrix nr rp P /\ Permutation cp (seq 0 nc) /\
    lower_triangular nr K L /\ (forall i, (i < K)%nat -> entry L i i = 1) /\ (forall i j, (j < K)%nat -> (j < i < nr)%nat -> Rabs (entry L i j) <= 1) /\
    upper_triangular K nc U /\ (forall i j, (i < K)%nat -> (i <= j < nc)%nat -> Rabs (entry U i j) <= Rabs (entry U i i)) /\
    (forall i j, (i < nr)%nat -> (j < nc)%nat -> entry x (nth i rp 0%nat) (nth j cp 0%nat) = product K L U i j) /\
    (forall i j, (i < nr)%nat -> (j < nc)%nat -> Rabs (entry x i j) <= Rabs (entry U 0 0)).
Proof.
  intros nr nc x H K. pose proof (lu_final H) as F. fold K in F. unfold lu. fold K. destruct (full_lu nr nc K 0 x (seq 0 nr) (seq 0 nc)) as [[B rp] cp]. destruct F as (HB & Hr & Hc & E & Bl & Bu & Bm).
  assert (KL : (K <= nr)%nat /\ (K <= nc)%nat) by (unfold K; lia). eexists _, _, _, rp, cp. split; [reflexivity|].
  assert (EL : forall i j, (i < nr)%nat -> (j < K)%nat -> entry (map (fun i => map (fun j => if (j <? i)%nat then at_ B i j else if (j =? i)%nat then 1 else 0) (seq 0 K)) (seq 0 nr)) i j = lo B i j) by (intros i j Hi Hj; now apply (@entry_table nr K (lo B))).
  assert (EU : forall i j, (i < K)%nat -> (j < nc)%nat -> entry (map (fun i => map (fun j => if (i <=? j)%nat then at_ B i j else 0) (seq 0 nc)) (seq 0 K)) i j = up B i j) by (intros i j Hi Hj; now apply (@entry_table K nc (up B))).
  set (L := map _ (seq 0 nr)) in *. set (U := map _ (seq 0 K)) in *.
  assert (Lr : length rp = nr) by (rewrite (Permutation_length Hr); apply seq_length).
  split.
  { split; [auto|]. split; [split; [rewrite map_length; auto|]; intros r Hi; apply in_map_iff in Hi; destruct Hi as (a & <- & _); apply basis_length|]. intros i j Hi Hj. unfold entry. rewrite (nth_indep _ [] (basis nr 0)) by (rewrite map_length; lia). rewrite map_nth.
    rewrite nth_basis; [reflexivity|]. assert (X : In (nth i rp 0%nat) (seq 0 nr)) by (apply (Permutation_in _ Hr), nth_In; lia). apply in_seq in X. lia. }
  split; [auto|]. split.
  { split; [apply table_shape|]. intros i j Hi Hj Lt. rewrite EL by auto. unfold lo. destruct (Nat.ltb_spec j i); [lia|]. destruct (Nat.eqb_spec j i); [lia|reflexivity]. }
  split; [intros i Hi; rewrite EL by lia; unfold lo; now rewrite Nat.ltb_irrefl, Nat.eqb_refl|]. split; [intros i j Hj Hi; rewrite EL by lia; now apply Bl|]. split.
  { split; [apply table_shape|]. intros i j Hi Hj Lt. rewrite EU by auto. unfold up. destruct (Nat.leb_spec i j); [lia|reflexivity]. }
  split; [intros i j Hi Hj; rewrite !EU by lia; now apply Bu|]. split.
  - intros i j Hi Hj. rewrite E by auto. unfold product. apply total_seq_ext. intros t Ht. now rewrite EL, EU.
  - intros i j Hi Hj. rewrite EU by (unfold K; lia). now apply Bm.
Qed.
Print Assumptions C54_lu.
(** With [permute_l], the first result is the product P L of the ones above. *)
Theorem C54_lu_permute : forall nr nc x P L U, shape nr nc x -> lu nr nc x false = (P, L, U) -> exists PL, lu nr nc x true = (PL, L, U) /\ is_product nr nr (Nat.min nr nc) PL P L.
Proof.
  intros nr nc x P L U H E. destruct (C54_lu H) as (P' & L' & U' & rp & cp & E' & (_ & HP & _) & _ & (HL & _) & _). rewrite E in E'. injection E' as <- <- <-. revert E. unfold lu. destruct (full_lu nr nc (Nat.min nr nc) 0 x (seq 0 nr) (seq 0 nc)) as [[B rq] cq]. intro E. injection E as <- <- <-.
  eexists. split; [reflexivity|]. intros i j Hi Hj. now apply (@mat_mul_entry nr nr (Nat.min nr nc)).
Qed.
Print Assumptions C54_lu_permute.
(** The factors do not multiply to x, neither as P L U nor as P^T L U, when the largest entry of x is not in its first column:
    the permutation of the columns is not returned. *)
Theorem C54_lu_product_refuted : forall nr nc x P L U i j, shape nr nc x -> lu nr nc x false = (P, L, U) -> (i < nr)%nat -> (j < nc)%nat ->
  (forall a, (a < nr)%nat -> Rabs (entry x a 0) < Rabs (entry x i j)) ->
  (exists a, (a < nr)%nat /\ product nr P (mat_mul nc L U) a 0 <> entry x a 0) /\
  (exists a, (a < nr)%nat /\ product nr (transpose nr P) (mat_mul nc L U) a 0 <> entry x a 0).
Proof.
  intros nr nc x P L U i j H E Hi Hj M. destruct (C54_lu H) as (P' & L' & U' & rp & cp & E' & (Hr & HP & EP) & Hc & (HL & _) & D & _ & (HU & ZU) & _ & F & B). rewrite E in E'. injection E' as <- <- <-. set (K := Nat.min nr nc) in *.
  assert (HK : (0 < K)%nat) by (unfold K; lia). assert (Lr : length rp = nr) by (rewrite (Permutation_length Hr); apply seq_length).
  assert (E0 : entry (mat_mul nc L U) 0 0 = entry U 0 0).
  { rewrite (@mat_mul_entry nr K nc) by (auto; lia). unfold product. rewrite (total_seq_ext _ (fun t => (entry L 0 t * entry U t 0) * (if (0 =? t)%nat then 1 else 0))).
    - rewrite (@total_kron K (fun t => entry L 0 t * entry U t 0) 0) by auto. rewrite D by auto. ring.
    - intros t Ht. destruct (Nat.eqb_spec 0 t) as [<-|N]; [ring|]. rewrite (ZU t 0%nat) by lia. ring. }
  assert (Big : Rabs (entry x i j) <= Rabs (entry U 0 0)) by (apply B; auto).
  split.
  - destruct (@In_nth_lt _ 0%nat rp 0%nat) as (a & Ha & Ea); [apply (Permutation_in _ (Permutation_sym Hr)), in_seq; lia|]. rewrite Lr in Ha. exists a. split; [auto|]. intro X.
    assert (Y : product nr P (mat_mul nc L U) a 0 = entry U 0 0).
    { unfold product. rewrite (total_seq_ext _ (fun t => entry (mat_mul nc L U) t 0 * (if (0 =? t)%nat then 1 else 0))); [rewrite (@total_kron nr (fun t => entry (mat_mul nc L U) t 0) 0) by lia; exact E0|]. intros t Ht. rewrite EP by auto. rewrite Ea, (Nat.eqb_sym t 0). ring. }
    rewrite Y in X. rewrite X in Big. specialize (M a Ha). lra.
  - assert (Hr0 : (nth 0 rp 0 < nr)%nat) by (assert (X : In (nth 0 rp 0%nat) (seq 0 nr)) by (apply (Permutation_in _ Hr), nth_In; lia); apply in_seq in X; lia). exists (nth 0 rp 0%nat). split; [auto|]. intro X.
    assert (Y : product nr (transpose nr P) (mat_mul nc L U) (nth 0 rp 0%nat) 0 = entry U 0 0).
    { unfold product. rewrite (total_seq_ext _ (fun t => entry (mat_mul nc L U) t 0 * (if (0 =? t)%nat then 1 else 0))); [rewrite (@total_kron nr (fun t => entry (mat_mul nc L U) t 0) 0) by lia; exact E0|]. intros t Ht. rewrite (@entry_transpose_ nr nr) by auto. rewrite EP by auto.
      assert (N : NoDup rp) by (apply (Permutation_NoDup (Permutation_sym Hr)), seq_NoDup).
      destruct (Nat.eqb_spec 0 t) as [<-|Nt]; [rewrite Nat.eqb_refl; ring|]. destruct (Nat.eqb_spec (nth 0 rp 0%nat) (nth t rp 0%nat)) as [Eq|]; [apply (proj1 (NoDup_nth rp 0%nat) N) in Eq; lia|ring]. }
    rewrite Y in X. rewrite X in Big. specialize (M _ Hr0). lra.
Qed.
Print Assumptions C54_lu_product_refuted.

(** * QR *)
(** For every matrix x of any shape, [qr] returns Q with orthonormal columns and an upper triangular R with x = Q R; Q is square
    with [full_matrix], else it has min(nr, nc) columns. *)
Theorem C56_qr : forall nr nc x (full : bool), shape nr nc x ->
  let size := if full then nr else Nat.min nr nc in
  exists Q R, qr nr nc x full = (Q, R) /\ shape nr size Q /\ orthonormal nr (cols_of size Q) /\ upper_triangular size nc R /\ is_product nr size nc x Q R.
Proof.
  intros nr nc x full H size. pose (K := Nat.min nr nc). unfold qr. fold size. fold K. pose proof (@transpose_shape_ nr nc x (proj1 H)) as HT. pose proof (@householder_spec nr nc K 0 (transpose nc x) eq_refl HT) as S1. fold K in S1. destruct (householder K 0 (transpose nc x)) as (hs, cols).
  destruct S1 as (HC & Gs & _ & F). assert (G : forall h, In h hs -> good nr h) by (intros; now apply Gs). set (q := fun j => fold_right reflect (basis nr j) hs). assert (Lq : forall j, length (q j) = nr) by (intro j; apply reflects_length; auto using basis_length).
  assert (Sz : (K <= size <= nr)%nat) by (unfold size, K; destruct full; lia).
  eexists _, _. split; [reflexivity|]. assert (Lm : length (map q (seq 0 size)) = size) by (now rewrite map_length, seq_length).
  assert (HQ : shape nr size (transpose nr (map q (seq 0 size)))) by (now apply transpose_shape_).
  assert (EQ : forall i t, (i < nr)%nat -> (t < size)%nat -> entry (transpose nr (map q (seq 0 size))) i t = nth i (q t) 0).
  { intros i t Hi Ht. rewrite (@entry_transpose_ size nr) by solve [auto | split; [auto|]; intros r Hr; apply in_map_iff in Hr; destruct Hr as (a & <- & _); apply Lq]. unfold entry. now rewrite nth_seq_map. }
  assert (EC : cols_of size (transpose nr (map q (seq 0 size))) = map q (seq 0 size)).
  { unfold cols_of. apply map_ext_in. intros t Ht. apply in_seq in Ht. apply (@list_ext nr); [unfold col; rewrite map_length; apply HQ|apply Lq|]. intros i Hi. unfold col. rewrite (nth_indep _ 0 (nth t [] 0)) by (rewrite map_length; destruct HQ as (-> & _); auto).
    rewrite (map_nth (fun r => nth t r 0)). fold (entry (transpose nr (map q (seq 0 size))) i t). apply EQ; lia. }
  split; [auto|]. split; [|split].
  - rewrite EC. split; [intros r Hr; apply in_map_iff in Hr; destruct Hr as (a & <- & _); apply Lq|]. rewrite Lm. intros i j Hi Hj. rewrite !nth_seq_map by auto. unfold q. rewrite (@reflects_dot nr) by (auto using basis_length). rewrite dot_basis by (auto using basis_length; lia). rewrite nth_basis by lia. reflexivity.
  - split; [apply table_shape|]. intros i j Hi Hj Lt. rewrite (@entry_table size nc (fun i j => if (i <=? j)%nat then nth i (nth j cols []) 0 else 0)) by auto. destruct (Nat.leb_spec i j); [lia|reflexivity].
  - intros i j Hi Hj. assert (Lj : length (nth j cols []) = nr) by (apply HC, nth_In; destruct HC as (-> & _); lia).
    rewrite <- (@entry_transpose_ nr nc x j i H Hj Hi). unfold entry at 1. rewrite <- F by lia.
    assert (Dec : upper_part j (nth j cols []) = vsum nr (map (fun t => vscale (nth t (upper_part j (nth j cols [])) 0) (basis nr t)) (seq 0 size))).
    { assert (W : width nr (map (fun t => vscale (nth t (upper_part j (nth j cols [])) 0) (basis nr t)) (seq 0 size))) by (intros r Hr; apply in_map_iff in Hr; destruct Hr as (a & <- & _); rewrite vscale_length; apply basis_length).
      apply (@list_ext nr); [now rewrite upper_part_length|now apply vsum_length|]. intros a Ha. rewrite nth_vsum by auto. rewrite map_map. destruct (Nat.lt_ge_cases a size) as [L|Gt].
      - rewrite (total_seq_ext _ (fun t => nth t (upper_part j (nth j cols [])) 0 * (if (a =? t)%nat then 1 else 0))); [symmetry; now apply (@total_kron size (fun t => nth t (upper_part j (nth j cols [])) 0))|]. intros t Ht. rewrite nth_vscale, nth_basis by lia. reflexivity.
      - rewrite (total_seq_ext _ (fun _ => 0)); [rewrite total_const, Rmult_0_r; rewrite nth_upper_part; destruct (Nat.leb_spec a j); [|reflexivity]; exfalso; unfold size, K in *; destruct full; lia|]. intros t Ht. rewrite nth_vscale, nth_basis by lia. destruct (Nat.eqb_spec a t); [lia|ring]. }
    rewrite Dec, (@reflects_vsum nr) by solve [auto | intros r Hr; apply in_map_iff in Hr; destruct Hr as (a & <- & _); rewrite vscale_length; apply basis_length]. rewrite map_map.
    rewrite nth_vsum; [|intros r Hr; apply in_map_iff in Hr; destruct Hr as (a & <- & _); rewrite (@reflects_vscale nr), vscale_length by (auto using basis_length); apply Lq]. rewrite map_map. unfold product. apply total_seq_ext. intros t Ht.
    rewrite (@reflects_vscale nr) by (auto using basis_length). rewrite nth_vscale. fold (q t). rewrite EQ by auto. rewrite (@entry_table size nc (fun i j => if (i <=? j)%nat then nth i (nth j cols []) 0 else 0)) by auto. rewrite nth_upper_part. ring.
Qed.
Print Assumptions C56_qr.

(** * The hypotheses can be met *)
Ltac shapes := split; [reflexivity|]; intros r Hr; cbn in Hr; repeat (destruct Hr as [<-|Hr]; [reflexivity|]); easy.
Example C54_logdet_case : logdet 2 2 [[2; 1]; [1; 1]] = Ok (Fin 0) /\ logdet 2 2 [[0; 1]; [1; 0]] = Ok NegInf /\ logdet 2 2 [[1; 2]; [2; 4]] = Ok NegInf.
Proof.
  split; [|split].
  - rewrite C54_logdet by shapes. assert (D : det 2 [[2; 1]; [1; 1]] = 1) by (unfold det, total, entry, skip; cbn; ring). rewrite D. destruct (Rlt_dec 0 1); [|lra]. now rewrite ln_1.
  - rewrite C54_logdet by shapes. assert (D : det 2 [[0; 1]; [1; 0]] = -1) by (unfold det, total, entry, skip; cbn; ring). rewrite D. destruct (Rlt_dec 0 (-1)); [lra|reflexivity].
  - rewrite C54_logdet by shapes. assert (D : det 2 [[1; 2]; [2; 4]] = 0) by (unfold det, total, entry, skip; cbn; ring). rewrite D. destruct (Rlt_dec 0 0); [lra|reflexivity].
Qed.
Lemma pd2 a b c : 0 < a -> 0 < a * c - b * b -> positive_definite 2 [[a; b]; [b; c]].
Proof.
  intros Pa Pd. split; [shapes|]. split.
  - intros [|[|i]] [|[|j]] Hi Hj; try lia; reflexivity.
  - intros [|x [|y [|]]] Lz (e & He & Ne); try discriminate. unfold apply, dot, total. cbn. assert (Hxy : x <> 0 \/ y <> 0) by (destruct He as [<-|[<-|[]]]; auto). apply Rmult_lt_reg_l with a; [auto|]. rewrite Rmult_0_r.
    replace (a * (x * (a * x + (b * y + 0)) + (y * (b * x + (c * y + 0)) + 0))) with ((a * x + b * y) * (a * x + b * y) + (a * c - b * b) * (y * y)) by ring.
    destruct (Req_dec y 0) as [->|Ny]; [|assert (0 < y * y) by nra; pose proof (Rle_0_sqr (a * x + b * y)) as Q; unfold Rsqr in Q; nra]. destruct Hxy as [Nx|]; [|contradiction]. assert (0 < x * x) by nra. assert (0 < a * a) by nra. nra.
Qed.
Example C54_cholesky_case : positive_definite 2 [[2; 1]; [1; 1]] /\ (shape 2 2 [[1; 2]; [2; 1]] /\ symmetric 2 [[1; 2]; [2; 1]] /\ ~ positive_definite 2 [[1; 2]; [2; 1]]).
Proof.
  split; [apply pd2; lra|]. split; [shapes|]. split; [intros [|[|i]] [|[|j]] Hi Hj; try lia; reflexivity|]. intros (_ & _ & P). specialize (P [1; -1] eq_refl (ex_intro _ 1 (conj (or_introl eq_refl) R1_neq_R0))). unfold apply, dot, total in P. cbn in P. lra.
Qed.
Example C54_cholesky_symmetry_case : shape 2 2 [[1; 5]; [0; 1]] /\ ~ symmetric 2 [[1; 5]; [0; 1]] /\ positive_definite 2 (lower_half 2 [[1; 5]; [0; 1]]).
Proof.
  split; [shapes|]. split; [intro S; specialize (S 0%nat 1%nat ltac:(lia) ltac:(lia)); unfold entry in S; cbn in S; lra|]. change (lower_half 2 [[1; 5]; [0; 1]]) with [[1; 0]; [0; 1]]. apply pd2; lra.
Qed.
Example C54_lu_product_case : let x := [[1; 2]; [3; 4]] in shape 2 2 x /\ forall a, (a < 2)%nat -> Rabs (entry x a 0) < Rabs (entry x 1 1).
Proof. cbv zeta. split; [shapes|]. intros [|[|a]] Ha; try lia; unfold entry; cbn; rewrite !Rabs_pos_eq; lra. Qed.
Example C56_case : shape 3 2 [[1; 2]; [3; 4]; [5; 6]] /\ shape 2 3 [[1; 2; 3]; [4; 5; 6]].
Proof. split; shapes. Qed.
