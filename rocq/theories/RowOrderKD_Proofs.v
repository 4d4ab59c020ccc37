From Coq Require Import Reals Lra.
From Verif Require Import Base Sorting Comb_Proofs Tree_Spec Tree_Proofs TreeReal_Proofs KDReal_Proofs KDTree_Spec RowOrder_Proofs.
Local Open Scope R_scope.
Set Implicit Arguments.

Lemma matrix_kd_perm nf data data' : Permutation data data' -> is_matrix nf data -> is_matrix nf data'.
Proof. intros H HM r Hr. apply HM. eapply Permutation_in; [symmetry; exact H|exact Hr]. Qed.
Lemma spread_perm c c' s : Permutation c c' -> spread c s -> spread c' s.
Proof.
  intros H (lo & hi & H1 & H2 & H3 & H4). exists lo, hi. split; [now apply (Permutation_in _ H)|]. split; [now apply (Permutation_in _ H)|]. split; [|assumption].
  intros x Hx. apply H3. eapply Permutation_in; [symmetry; exact H|exact Hx].
Qed.
Lemma widest_perm nf data data' : Permutation data data' -> first_column_widest nf data -> first_column_widest nf data'.
Proof.
  intros H HW j s0 sj Hj H0 H1. apply (HW j s0 sj Hj); eapply spread_perm; try eassumption; unfold column; symmetry; now apply Permutation_map.
Qed.
Lemma k_nearest_distances m data q k ans : k_nearest m data q k ans ->
  map fst ans = firstn k (isort Rltb (map (fun r => dist m r q) data)).
Proof.
  intros (Hk & Hnd & Hin & Hs & Hout). set (f := fun i => dist m (nth i data []) q).
  set (notin := fun i => negb (existsb (Nat.eqb i) (map snd ans))).
  assert (Hn : forall i, notin i = true <-> ~ In i (map snd ans)).
  { intros i. unfold notin. rewrite Bool.negb_true_iff. split.
    - intros E H. assert (existsb (Nat.eqb i) (map snd ans) = true) by (apply existsb_exists; exists i; split; [assumption|apply Nat.eqb_refl]). congruence.
    - intros H. destruct (existsb (Nat.eqb i) (map snd ans)) eqn:E; [|reflexivity]. apply existsb_exists in E. destruct E as (j & Hj & E). apply Nat.eqb_eq in E. congruence. }
  assert (Ef : map fst ans = map f (map snd ans)).
  { rewrite map_map. apply map_ext_in. intros (d, i) H. destruct (Hin d i H) as (r & E & ->). unfold f. cbn [fst snd]. now rewrite (nth_error_nth data i [] E). }
  assert (Hlt : forall i, In i (map snd ans) -> (i < length data)%nat).
  { intros i H. apply in_map_iff in H. destruct H as ((d, j) & <- & H). destruct (Hin d j H) as (r & E & _). apply nth_error_Some. cbn. congruence. }
  set (rest := filter notin (seq 0 (length data))).
  assert (HP : Permutation (map snd ans ++ rest) (seq 0 (length data))).
  { apply NoDup_Permutation.
    - apply NoDup_app_intro; [assumption|apply NoDup_filter, seq_NoDup|]. intros i H1 H2. apply filter_In in H2. destruct H2 as (_ & H2). now apply Hn in H2.
    - apply seq_NoDup.
    - intros i. rewrite in_app_iff. unfold rest. rewrite filter_In, in_seq, Hn. split.
      + intros [H|((_ & H) & _)]; [|lia]. apply Hlt in H. lia.
      + intros H. destruct (in_dec Nat.eq_dec i (map snd ans)); [now left|right]. split; [lia|assumption]. }
  assert (HD : Permutation (map f (seq 0 (length data))) (map (fun r => dist m r q) data)).
  { unfold f. rewrite <- (map_map (fun i => nth i data []) (fun r => dist m r q)). now rewrite map_nth_seq_id. }
  assert (HA : Permutation (map fst ans ++ isort Rltb (map f rest)) (isort Rltb (map (fun r => dist m r q) data))).
  { rewrite <- (isort_perm Rltb (map (fun r => dist m r q) data)), <- HD, <- (isort_perm Rltb (map f rest)), Ef, <- map_app. now apply Permutation_map. }
  assert (HS : StronglySorted (fun u v => Rltb v u = false) (map fst ans ++ isort Rltb (map f rest))).
  { apply (proj2 (sorted_app_iff _ _ _)). split; [|split; [apply (sort_sorted Rltb_order)|]].
    - clear - Hs. induction Hs as [|a l H IH F]; constructor; [assumption|]. eapply Forall_impl; [|exact F]. intros b Hb. now apply Rltb_false.
    - intros a b Ha Hb. apply Rltb_false. eapply Permutation_in in Hb; [|symmetry; apply (isort_perm Rltb)]. apply in_map_iff in Hb. destruct Hb as (i & <- & Hi).
      unfold rest in Hi. apply filter_In in Hi. destruct Hi as (Hi & Hi'). apply in_seq in Hi. apply (Hout i); [now apply nth_error_nth'|now apply Hn|assumption]. }
  apply (sorted_perm_unique Rltb_order) in HA; [|assumption|apply (sort_sorted Rltb_order)]. rewrite <- HA, <- Hk, <- (map_length fst ans).
  now rewrite firstn_app, Nat.sub_diag, firstn_all, app_nil_r.
Qed.
