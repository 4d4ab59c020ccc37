(** Proofs for C83. *)
From Coq Require Import Reals Lra Lia.
From Verif Require Import Base Impurity_Spec Impurity_Model Impurity_Proofs Vec Stats_Spec LossSoftmax_Proofs Chol_Proofs Decomp_Proofs Spectral_Model Spectral_Spec.
Local Open Scope R_scope.

Lemma nth_seq_map {A} (f : nat -> A) n i d : (i < n)%nat -> nth i (map f (seq 0 n)) d = f i.
Proof. intro H. rewrite (nth_indep _ d (f 0%nat)) by (rewrite map_length, seq_length; auto). rewrite map_nth, seq_nth by auto. reflexivity. Qed.
Lemma affinity_alike gamma u v : gamma <> 0 -> affinity gamma u v = alike gamma u v.
Proof.
  intro H. unfold affinity, alike. f_equal. rewrite sqn_sum. assert (E : Rsum (map (fun a => a ^ 2) (vsub u v)) = total (map (fun a => a * a) (vsub u v))).
  { rewrite Rsum_total. apply total_ext. intros; ring. }
  rewrite E. field. auto.
Qed.
Lemma alike_sym gamma u v : alike gamma u v = alike gamma v u.
Proof.
  unfold alike. f_equal. f_equal. f_equal. unfold sqn, dot, vsub. revert v; induction u as [|a u IH]; intros [|b v]; cbn; try reflexivity. f_equal; [ring|apply IH].
Qed.
Lemma alike_pos gamma u v : 0 < alike gamma u v.
Proof. apply exp_pos. Qed.
Lemma columns_ok nc X : forall l, (forall i, In i l -> (i < nc)%nat) -> mapM (laplace_column nc X) l = Ok (map (feature X) l).
Proof.
  induction l as [|i l IH]; intro H; cbn; [reflexivity|]. unfold laplace_column at 1. rewrite (proj2 (Nat.ltb_lt i nc)) by (apply H; now left). cbn [bind]. rewrite IH by (intros; apply H; now right). reflexivity.
Qed.
Lemma columns_bad nc X : forall l, (exists i, In i l /\ (nc <= i)%nat) -> mapM (laplace_column nc X) l = UB.
Proof.
  induction l as [|i l IH]; intros (k & I & K); [destruct I|]. cbn. unfold laplace_column at 1. destruct (Nat.ltb_spec i nc); [|reflexivity]. cbn [bind].
  destruct I as [->|I]; [lia|]. rewrite IH by eauto. reflexivity.
Qed.

Section L.
  Variables (gamma : R) (nc : nat) (X : list (list R)).
  Hypothesis Hg : gamma <> 0.
  Let n := length X.
  Hypothesis Hn : (n <= nc)%nat.
  Definition w (i j : nat) : R := alike gamma (feature X i) (feature X j).
  Lemma laplace_ok : exists L, laplace_matrix gamma nc X = Ok L /\ length L = n /\ (forall i, (i < n)%nat -> length (nth i L []) = n) /\
    (forall i j, (i < n)%nat -> (j < n)%nat -> entry L i j = (if (i =? j)%nat then total (map (fun k => w k i) (seq 0 n)) else 0) - w i j).
  Proof.
    unfold laplace_matrix. rewrite columns_ok by (intros i I; apply in_seq in I; unfold n in *; lia). cbn [bind]. fold n. eexists. split; [reflexivity|].
    split; [now rewrite map_length, seq_length|]. split; [intros i Hi; rewrite nth_seq_map by auto; now rewrite map_length, seq_length|].
    assert (A : forall i j, (i < n)%nat -> (j < n)%nat -> nth j (nth i (affinity_matrix gamma (map (feature X) (seq 0 n))) []) 0 = w i j).
    { intros i j Hi Hj. unfold affinity_matrix. rewrite map_length, seq_length, nth_seq_map, nth_seq_map by auto. rewrite !nth_seq_map by lia. rewrite affinity_alike by auto.
      unfold w. destruct (Nat.le_ge_cases i j); [rewrite Nat.min_l, Nat.max_r by auto; reflexivity|rewrite Nat.min_r, Nat.max_l by auto; apply alike_sym]. }
    intros i j Hi Hj. unfold entry. rewrite nth_seq_map, nth_seq_map by auto. rewrite A by auto. f_equal. destruct (i =? j)%nat; [|reflexivity]. rewrite nth_seq_map by auto.
    unfold affinity_matrix. rewrite map_map, map_length, seq_length. rewrite Rsum_total. apply total_seq_ext. intros k Hk. rewrite nth_seq_map by auto. specialize (A k i Hk Hi).
    unfold affinity_matrix in A. rewrite map_length, seq_length, nth_seq_map, nth_seq_map in A by auto. exact A.
  Qed.
  Lemma w_sym i j : w i j = w j i.
  Proof. apply alike_sym. Qed.
  Lemma pick_sum (f : nat -> R) i m : (i < m)%nat -> total (map (fun j => if (i =? j)%nat then f j else 0) (seq 0 m)) = f i.
  Proof.
    intro H. assert (G : forall k a, (a <= i < a + k)%nat -> total (map (fun j => if (i =? j)%nat then f j else 0) (seq a k)) = f i).
    { induction k as [|k IH]; intros a B; [lia|]. cbn [seq map total fold_right]. fold (total (map (fun j => if (i =? j)%nat then f j else 0) (seq (S a) k))). destruct (Nat.eqb_spec i a) as [->|D].
      - rewrite (total_ext _ (fun _ => 0)); [rewrite total_const; lra|]. intros j J. apply in_seq in J. destruct (Nat.eqb_spec a j); [lia|reflexivity].
      - rewrite IH by lia. lra. }
    apply G. lia.
  Qed.
  Variable L : list (list R).
  Hypothesis HL : forall i j, (i < n)%nat -> (j < n)%nat -> entry L i j = (if (i =? j)%nat then total (map (fun k => w k i) (seq 0 n)) else 0) - w i j.
  Lemma row_sum i : (i < n)%nat -> total (map (fun j => entry L i j) (seq 0 n)) = 0.
  Proof.
    intro Hi. rewrite (@total_seq_ext n _ (fun j => (if (i =? j)%nat then total (map (fun k => w k i) (seq 0 n)) else 0) - w i j)) by (intros; apply HL; auto).
    rewrite (total_minus (fun j => if (i =? j)%nat then _ else 0) (fun j => w i j)). rewrite (pick_sum (fun _ => total (map (fun k => w k i) (seq 0 n)))) by auto.
    rewrite (@total_seq_ext n (fun k => w k i) (fun k => w i k)) by (intros; apply w_sym). lra.
  Qed.
  Lemma form_value v : form n L v = / 2 * total (map (fun i => total (map (fun j => w i j * (v i - v j) ^ 2) (seq 0 n))) (seq 0 n)).
  Proof.
    set (S2 := total (map (fun i => total (map (fun j => w i j * (v i * v i)) (seq 0 n))) (seq 0 n))). set (C := total (map (fun i => total (map (fun j => w i j * (v i * v j)) (seq 0 n))) (seq 0 n))).
    assert (S2' : total (map (fun i => total (map (fun j => w i j * (v j * v j)) (seq 0 n))) (seq 0 n)) = S2).
    { unfold S2. rewrite total_swap. apply total_ext. intros j _. apply total_ext. intros i _. rewrite w_sym. reflexivity. }
    assert (A : form n L v = S2 - C).
    { unfold form, S2, C. rewrite <- total_minus. apply total_seq_ext. intros i Hi.
      rewrite (@total_seq_ext n _ (fun j => (if (i =? j)%nat then v i * total (map (fun k => w k i) (seq 0 n)) * v j else 0) - w i j * (v i * v j))).
      - rewrite (total_minus (fun j => if (i =? j)%nat then _ else 0) (fun j => w i j * (v i * v j))). f_equal. rewrite (pick_sum (fun j => v i * total (map (fun k => w k i) (seq 0 n)) * v j)) by auto.
        rewrite (total_ext (fun j => w i j * (v i * v i)) (fun j => (v i * v i) * w i j)) by (intros; ring). rewrite total_scal. assert (E : total (map (fun k => w k i) (seq 0 n)) = total (map (w i) (seq 0 n))) by (apply total_seq_ext; intros; apply w_sym). rewrite E. change (fun x => w i x) with (w i). ring.
      - intros j Hj. rewrite HL by auto. destruct (i =? j)%nat; ring. }
    assert (B : total (map (fun i => total (map (fun j => w i j * (v i - v j) ^ 2) (seq 0 n))) (seq 0 n)) = S2 - 2 * C + S2).
    { rewrite <- S2' at 2. unfold S2, C. rewrite <- total_scal, <- total_minus, <- total_plus. apply total_ext. intros i _. rewrite <- total_scal, <- total_minus, <- total_plus. apply total_ext. intros j _. ring. }
    rewrite A, B. lra.
  Qed.
  Lemma form_nonneg v : 0 <= form n L v.
  Proof.
    rewrite form_value. apply Rmult_le_pos; [lra|]. apply total_nonneg. intros i _. apply total_nonneg. intros j _. apply Rmult_le_pos; [left; apply alike_pos|apply pow2_ge_0].
  Qed.
  Lemma form_zero v : form n L v = 0 <-> forall i j, (i < n)%nat -> (j < n)%nat -> v i = v j.
  Proof.
    rewrite form_value. split.
    - intros H i j Hi Hj. assert (Z : total (map (fun i => total (map (fun j => w i j * (v i - v j) ^ 2) (seq 0 n))) (seq 0 n)) = 0) by lra.
      assert (N : forall i j, 0 <= w i j * (v i - v j) ^ 2) by (intros; apply Rmult_le_pos; [left; apply alike_pos|apply pow2_ge_0]).
      pose proof (total_zero (fun i => total (map (fun j => w i j * (v i - v j) ^ 2) (seq 0 n))) (seq 0 n) (fun i _ => total_nonneg _ _ (fun j _ => N i j)) Z i ltac:(apply in_seq; lia)) as Zi.
      pose proof (total_zero (fun j => w i j * (v i - v j) ^ 2) (seq 0 n) (fun j _ => N i j) Zi j ltac:(apply in_seq; lia)) as Zj. cbn beta in Zj.
      pose proof (alike_pos gamma (feature X i) (feature X j)) as P. fold (w i j) in P. assert (Q : (v i - v j) ^ 2 = 0) by (apply (Rmult_eq_reg_l (w i j)); lra). assert (v i - v j = 0); [|lra]. apply Rsqr_0_uniq. rewrite Rsqr_pow2. exact Q.
    - intros H. rewrite (@total_seq_ext n _ (fun _ => 0)); [rewrite total_const; lra|]. intros i Hi. rewrite (@total_seq_ext n _ (fun _ => 0)); [rewrite total_const; lra|]. intros j Hj. rewrite (H i j) by auto. ring.
  Qed.
End L.
