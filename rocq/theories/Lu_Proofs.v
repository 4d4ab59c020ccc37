(** LU with full pivoting. *)
From Coq Require Import Reals Lra.
From Verif Require Import Base Common_Model KDReal_Proofs Impurity_Model Impurity_Spec Impurity_Proofs Vec Stats_Spec Stats_Proofs LossSoftmax_Proofs Linear_Model LinSolve_Proofs Linear_Proofs
  Decomp_Model Decomp_Spec Decomp_Proofs DecompPca_Proofs Det_Spec Det_Proofs Linalg_Model Linalg_Spec Linalg_Proofs.
Local Open Scope R_scope.
Set Implicit Arguments.

(** The unit lower and the upper triangle. *)
Definition lo (A : list (list R)) (i t : nat) : R := if (t <? i)%nat then entry A i t else if (t =? i)%nat then 1 else 0.
Definition up (A : list (list R)) (t j : nat) : R := if (t <=? j)%nat then entry A t j else 0.
Section Lu.
  Variables (nr nc : nat) (x : list (list R)).
  Hypothesis Hx : shape nr nc x.
  Let K := Nat.min nr nc.
  Record inv (k : nat) (A : list (list R)) (rp cp : list nat) : Prop := Inv {
    i_shape : shape nr nc A;
    i_rp : Permutation rp (seq 0 nr);
    i_cp : Permutation cp (seq 0 nc);
    i_eq : forall i j, (i < nr)%nat -> (j < nc)%nat ->
      entry x (nth i rp 0%nat) (nth j cp 0%nat) = total (map (fun t => lo A i t * up A t j) (seq 0 k)) + if ((k <=? i) && (k <=? j))%nat then entry A i j else 0;
    i_lo : forall i t, (t < k)%nat -> (t < i < nr)%nat -> Rabs (entry A i t) <= 1;
    i_up : forall t j, (t < k)%nat -> (t <= j < nc)%nat -> Rabs (entry A t j) <= Rabs (entry A t t);
    i_max : (0 < k)%nat -> forall i j, (i < nr)%nat -> (j < nc)%nat -> Rabs (entry x i j) <= Rabs (entry A 0 0) }.
  Lemma perm_len p n : Permutation p (seq 0 n) -> length p = n.
  Proof. intro P. rewrite (Permutation_length P). apply seq_length. Qed.
  Lemma swp_ge k l i : (k <= l)%nat -> (k <=? swp k l i)%nat = (k <=? i)%nat.
  Proof. intro H. unfold swp. destruct (Nat.eqb_spec i k), (Nat.eqb_spec i l); subst; repeat match goal with |- context [(?a <=? ?b)%nat] => destruct (Nat.leb_spec a b) end; lia || reflexivity. Qed.
  Lemma swp_low k l t : (k <= l)%nat -> (t < k)%nat -> swp k l t = t.
  Proof. intros H Ht. unfold swp. destruct (Nat.eqb_spec t k), (Nat.eqb_spec t l); lia. Qed.
  Lemma swp_high k l i : (k <= l)%nat -> (k <= i)%nat -> (k <= swp k l i)%nat.
  Proof. intros H Hi. unfold swp. destruct (Nat.eqb_spec i k), (Nat.eqb_spec i l); lia. Qed.
  Lemma inv_rows k A rp cp l : (k <= l < nr)%nat -> inv k A rp cp -> inv k (swap [] k l A) (swap 0%nat k l rp) cp.
  Proof.
    intros Hl [HS Hr Hc E Bl Bu Bm]. assert (En : forall i j, entry (swap [] k l A) i j = entry A (swp k l i) j) by (intros; apply (@entry_swap_rows nr nc); auto; lia).
    assert (SL : forall i, (i < nr)%nat -> (swp k l i < nr)%nat) by (intros; apply swp_lt; lia).
    assert (Sw : forall i, (k <= swp k l i)%nat <-> (k <= i)%nat) by (intro i; pose proof (@swp_ge k l i ltac:(lia)) as X; destruct (Nat.leb_spec k (swp k l i)), (Nat.leb_spec k i); try discriminate; lia).
    constructor; auto.
    - apply swap_rows_shape; auto; lia.
    - apply swap_perm; auto; lia.
    - intros i j Hi Hj. rewrite nth_swap by (rewrite (@perm_len _ _ Hr); lia). rewrite E by auto. f_equal.
      + apply total_seq_ext. intros t Ht. unfold lo, up. rewrite !En, (@swp_low k l t) by lia. f_equal. destruct (Nat.lt_ge_cases i k) as [L|G].
        * now rewrite (@swp_low k l i) by lia.
        * assert (k <= swp k l i)%nat by (now apply Sw). replace (t <? swp k l i)%nat with true by (symmetry; apply Nat.ltb_lt; lia). replace (t <? i)%nat with true by (symmetry; apply Nat.ltb_lt; lia). reflexivity.
      + rewrite En, (@swp_ge k l i) by lia. reflexivity.
    - intros i t Ht Hi. rewrite En. apply Bl; [auto|]. split; [|apply SL; lia]. destruct (Nat.lt_ge_cases i k) as [L|G]; [rewrite swp_low; lia|]. pose proof (proj2 (Sw i) G). lia.
    - intros t j Ht Hj. rewrite !En, swp_low by lia. now apply Bu.
    - intros Hk i j Hi Hj. rewrite En, swp_low by lia. now apply Bm.
  Qed.
  Lemma inv_cols k A rp cp l : (k <= l < nc)%nat -> (k < nr)%nat -> inv k A rp cp -> inv k (map (swap 0 k l) A) rp (swap 0%nat k l cp).
  Proof.
    intros Hl Hk [HS Hr Hc E Bl Bu Bm]. assert (En : forall i j, (i < nr)%nat -> entry (map (swap 0 k l) A) i j = entry A i (swp k l j)) by (intros; apply (@entry_swap_cols nr nc); auto; lia).
    assert (SL : forall i, (i < nc)%nat -> (swp k l i < nc)%nat) by (intros; apply swp_lt; lia).
    assert (Sw : forall i, (k <= swp k l i)%nat <-> (k <= i)%nat) by (intro i; pose proof (@swp_ge k l i ltac:(lia)) as X; destruct (Nat.leb_spec k (swp k l i)), (Nat.leb_spec k i); try discriminate; lia).
    constructor; auto.
    - now apply swap_cols_shape.
    - apply swap_perm; auto; lia.
    - intros i j Hi Hj. rewrite nth_swap by (rewrite (@perm_len _ _ Hc); lia). rewrite E by auto. f_equal.
      + apply total_seq_ext. intros t Ht. unfold lo, up. rewrite !En, (@swp_low k l t) by lia. f_equal. destruct (Nat.lt_ge_cases j k) as [L|G].
        * now rewrite (@swp_low k l j) by lia.
        * assert (k <= swp k l j)%nat by (now apply Sw). replace (t <=? swp k l j)%nat with true by (symmetry; apply Nat.leb_le; lia). replace (t <=? j)%nat with true by (symmetry; apply Nat.leb_le; lia). reflexivity.
      + rewrite En, (@swp_ge k l j) by lia. reflexivity.
    - intros i t Ht Hi. rewrite En, swp_low by lia. now apply Bl.
    - intros t j Ht Hj. rewrite !En, (@swp_low k l t) by lia. apply Bu; [auto|]. split; [|apply SL; lia]. destruct (Nat.lt_ge_cases j k) as [L|G]; [rewrite swp_low; lia|]. pose proof (proj2 (Sw j) G). lia.
    - intros Hk0 i j Hi Hj. rewrite En, swp_low by lia. now apply Bm.
  Qed.
  Lemma entry_reduce k A i j : (i < nr)%nat -> (j < nc)%nat -> entry (reduce nr nc k A) i j =
    if (k <? i)%nat then if (j <? k)%nat then entry A i j else if (j =? k)%nat then entry A i k / entry A k k else entry A i j - entry A i k / entry A k k * entry A k j else entry A i j.
  Proof. intros Hi Hj. unfold reduce. cbv zeta. rewrite (@entry_table nr nc (fun i j => if (k <? i)%nat then if (j <? k)%nat then at_ A i j else if (j =? k)%nat then at_ A i k / at_ A k k else at_ A i j - at_ A i k / at_ A k k * at_ A k j else at_ A i j)) by auto. reflexivity. Qed.
  Lemma inv_reduce k A rp cp : (k < K)%nat -> entry A k k <> 0 -> (forall i j, (k <= i < nr)%nat -> (k <= j < nc)%nat -> Rabs (entry A i j) <= Rabs (entry A k k)) ->
    inv k A rp cp -> inv (S k) (reduce nr nc k A) rp cp.
  Proof.
    intros Hk N M [HS Hr Hc E Bl Bu Bm]. assert (Hkr : (k < nr)%nat) by (unfold K in Hk; lia). assert (Hkc : (k < nc)%nat) by (unfold K in Hk; lia). constructor; auto.
    - apply table_shape.
    - intros i j Hi Hj. rewrite E by auto. rewrite seq_S, map_app, total_app. cbn [map Nat.add]. change (total [?a]) with (a + 0). rewrite Rplus_0_r, Rplus_assoc. f_equal.
      + apply total_seq_ext. intros t Ht. unfold lo, up. rewrite !entry_reduce by lia. replace (k <? t)%nat with false by (symmetry; apply Nat.ltb_ge; lia). replace (t <? k)%nat with true by (symmetry; apply Nat.ltb_lt; lia).
        destruct (k <? i)%nat; reflexivity.
      + unfold lo, up. rewrite !entry_reduce by lia. rewrite Nat.ltb_irrefl, Nat.eqb_refl. destruct (Nat.lt_trichotomy i k) as [L|[->|G]].
        * replace (k <? i)%nat with false by (symmetry; apply Nat.ltb_ge; lia). replace (k =? i)%nat with false by (symmetry; apply Nat.eqb_neq; lia). replace (k <=? i)%nat with false by (symmetry; apply Nat.leb_gt; lia).
          replace (S k <=? i)%nat with false by (symmetry; apply Nat.leb_gt; lia). cbn [andb]. ring.
        * rewrite Nat.ltb_irrefl, Nat.eqb_refl, Nat.leb_refl. replace (S k <=? k)%nat with false by (symmetry; apply Nat.leb_gt; lia). cbn [andb]. ring.
        * replace (k <? i)%nat with true by (symmetry; apply Nat.ltb_lt; lia). replace (k <=? i)%nat with true by (symmetry; apply Nat.leb_le; lia). replace (S k <=? i)%nat with true by (symmetry; apply Nat.leb_le; lia). cbn [andb].
          destruct (Nat.lt_trichotomy j k) as [Lj|[->|Gj]].
          -- replace (k <=? j)%nat with false by (symmetry; apply Nat.leb_gt; lia). replace (S k <=? j)%nat with false by (symmetry; apply Nat.leb_gt; lia). ring.
          -- rewrite Nat.leb_refl. replace (S k <=? k)%nat with false by (symmetry; apply Nat.leb_gt; lia). field. auto.
          -- replace (k <=? j)%nat with true by (symmetry; apply Nat.leb_le; lia). replace (S k <=? j)%nat with true by (symmetry; apply Nat.leb_le; lia). replace (j <? k)%nat with false by (symmetry; apply Nat.ltb_ge; lia).
             replace (j =? k)%nat with false by (symmetry; apply Nat.eqb_neq; lia). ring.
    - intros i t Ht Hi. rewrite entry_reduce by lia. destruct (Nat.eq_dec t k) as [->|Nt].
      + replace (k <? i)%nat with true by (symmetry; apply Nat.ltb_lt; lia). rewrite Nat.ltb_irrefl, Nat.eqb_refl. unfold Rdiv. rewrite Rabs_mult, Rabs_inv. assert (P : 0 < Rabs (entry A k k)) by (now apply Rabs_pos_lt).
        apply Rmult_le_reg_r with (Rabs (entry A k k)); [auto|]. rewrite Rmult_assoc, Rinv_l by lra. specialize (M i k ltac:(lia) ltac:(lia)). lra.
      + replace (t <? k)%nat with true by (symmetry; apply Nat.ltb_lt; lia). destruct (k <? i)%nat; apply Bl; lia.
    - intros t j Ht Hj. rewrite !entry_reduce by lia. replace (k <? t)%nat with false by (symmetry; apply Nat.ltb_ge; lia). destruct (Nat.eq_dec t k) as [->|Nt]; [apply M; lia|apply Bu; lia].
    - intros _ i j Hi Hj. rewrite entry_reduce by lia. replace (k <? 0)%nat with false by reflexivity. destruct k as [|k']; [|apply Bm; auto; lia].
      assert (exists i', (i' < nr)%nat /\ nth i' rp 0%nat = i) as (i' & Hi' & <-). { destruct (@In_nth_lt _ 0%nat rp i) as (q & Hq & Eq); [apply (Permutation_in _ (Permutation_sym Hr)), in_seq; lia|]. exists q. rewrite (@perm_len _ _ Hr) in Hq. auto. }
      assert (exists j', (j' < nc)%nat /\ nth j' cp 0%nat = j) as (j' & Hj' & <-). { destruct (@In_nth_lt _ 0%nat cp j) as (q & Hq & Eq); [apply (Permutation_in _ (Permutation_sym Hc)), in_seq; lia|]. exists q. rewrite (@perm_len _ _ Hc) in Hq. auto. }
      rewrite E by auto. cbn [seq map Nat.leb andb]. change (total []) with 0. rewrite Rplus_0_l. apply M; lia.
  Qed.
  Lemma find_pivot_spec k A : (k < K)%nat -> let p := find_pivot nr nc k A in
    (k <= fst p < nr)%nat /\ (k <= snd p < nc)%nat /\ forall i j, (k <= i < nr)%nat -> (k <= j < nc)%nat -> Rabs (entry A i j) <= Rabs (entry A (fst p) (snd p)).
  Proof.
    intros Hk p. assert (Hkr : (k < nr)%nat) by (unfold K in Hk; lia). assert (Hkc : (k < nc)%nat) by (unfold K in Hk; lia).
    assert (C : forall i j, In (i, j) (corner nr nc k) <-> (k <= i < nr)%nat /\ (k <= j < nc)%nat).
    { intros i j. unfold corner. rewrite in_flat_map. split.
      - intros (b & Hb & Hi). apply in_map_iff in Hi. destruct Hi as (a & Ea & Ha). injection Ea as <- <-. apply in_seq in Ha, Hb. lia.
      - intros (Hi & Hj). exists j. split; [apply in_seq; lia|]. apply in_map_iff. exists i. split; [auto|apply in_seq; lia]. }
    destruct (first_max_spec (fun p => Rabs (at_ A (fst p) (snd p))) (corner nr nc k) (k, k)) as (I & _ & M). fold (find_pivot nr nc k A) in I, M. fold p in I, M. cbv zeta beta in I, M.
    assert (X : (k <= fst p < nr)%nat /\ (k <= snd p < nc)%nat) by (destruct I as [->|I]; [cbn; lia|]; destruct p as (a, b); apply C in I; exact I).
    split; [apply X|split; [apply X|]]. intros i j Hi Hj. apply (M (i, j)). now apply C.
  Qed.
  Lemma full_lu_spec left : forall k A rp cp, (k + left = K)%nat -> inv k A rp cp ->
    let '(B, rq, cq) := full_lu nr nc left k A rp cp in exists k', (k' <= K)%nat /\ inv k' B rq cq /\ forall i j, (k' <= i < nr)%nat -> (k' <= j < nc)%nat -> entry B i j = 0.
  Proof.
    induction left as [|left IH]; intros k A rp cp E I; cbn [full_lu].
    - exists k. split; [lia|]. split; [auto|]. intros i j Hi Hj. unfold K in E. lia.
    - destruct (find_pivot_spec A (k := k) ltac:(lia)) as (Hi & Hj & M). destruct (find_pivot nr nc k A) as (i, j). cbn [fst snd] in *. change (at_ A i j) with (entry A i j). destruct (Req_EM_T (entry A i j) 0) as [Z|N].
      + exists k. split; [lia|]. split; [auto|]. intros a b Ha Hb. specialize (M a b Ha Hb). rewrite Z, Rabs_R0 in M. destruct (Req_dec (entry A a b) 0) as [|Nq]; [auto|]. pose proof (Rabs_pos_lt _ Nq). lra.
      + assert (Hkr : (k < nr)%nat) by lia. assert (Hkc : (k < nc)%nat) by lia. pose proof (i_shape I) as HS. assert (En : forall a b, (a < nr)%nat -> entry (map (swap 0 k j) (swap [] k i A)) a b = entry A (swp k i a) (swp k j b)).
        { intros a b Ha. rewrite (@entry_swap_cols nr nc) by (try apply swap_rows_shape; auto; lia). apply (@entry_swap_rows nr nc); auto; lia. }
        assert (Ek : entry (map (swap 0 k j) (swap [] k i A)) k k = entry A i j) by (rewrite En by auto; unfold swp; now rewrite !Nat.eqb_refl).
        apply IH; [lia|]. apply inv_reduce; [lia| | |].
        * now rewrite Ek.
        * intros a b Ha Hb. rewrite Ek, En by lia. apply M; (split; [apply swp_high; lia|apply swp_lt; lia]).
        * apply inv_cols; [lia|lia|]. apply inv_rows; [lia|auto].
  Qed.
  Lemma inv_start : inv 0 x (seq 0 nr) (seq 0 nc).
  Proof.
    constructor; auto; try lia. intros i j Hi Hj. rewrite !seq_nth by auto. cbn. ring.
  Qed.
  (** The product of the triangles at the end. *)
  Lemma lu_final : let '(B, rp, cp) := full_lu nr nc K 0 x (seq 0 nr) (seq 0 nc) in
    shape nr nc B /\ Permutation rp (seq 0 nr) /\ Permutation cp (seq 0 nc) /\
    (forall i j, (i < nr)%nat -> (j < nc)%nat -> entry x (nth i rp 0%nat) (nth j cp 0%nat) = total (map (fun t => lo B i t * up B t j) (seq 0 K))) /\
    (forall i t, (t < K)%nat -> (t < i < nr)%nat -> Rabs (lo B i t) <= 1) /\
    (forall t j, (t < K)%nat -> (t <= j < nc)%nat -> Rabs (up B t j) <= Rabs (up B t t)) /\
    (forall i j, (i < nr)%nat -> (j < nc)%nat -> Rabs (entry x i j) <= Rabs (up B 0 0)).
  Proof.
    pose proof (@full_lu_spec K 0 x (seq 0 nr) (seq 0 nc) eq_refl inv_start) as S1. destruct (full_lu nr nc K 0 x (seq 0 nr) (seq 0 nc)) as [[B rp] cp]. destruct S1 as (k & Hk & [HS Hr Hc E Bl Bu Bm] & Z).
    split; [auto|]. split; [auto|]. split; [auto|]. split; [|split; [|split]].
    - intros i j Hi Hj. rewrite E by auto. destruct (Nat.leb_spec k i) as [Ki|Ki], (Nat.leb_spec k j) as [Kj|Kj]; cbn [andb]; rewrite ?(Z i j) by lia; rewrite Rplus_0_r;
        (replace K with (k + (K - k))%nat by lia; rewrite seq_app, map_app, total_app, (total_ext _ (fun _ => 0) (seq (0 + k) (K - k))), total_const; [ring|]; intros t Ht; apply in_seq in Ht; unfold lo, up).
      + destruct (Nat.leb_spec t j); [rewrite (Z t j) by lia|]; ring.
      + destruct (Nat.leb_spec t j); [lia|]. ring.
      + destruct (Nat.ltb_spec t i); [lia|]. destruct (Nat.eqb_spec t i); [lia|]. ring.
      + destruct (Nat.leb_spec t j); [lia|]. ring.
    - intros i t Ht Hi. unfold lo. destruct (Nat.ltb_spec t i); [|lia]. destruct (Nat.lt_ge_cases t k) as [L|G]; [now apply Bl|]. rewrite Z by (unfold K in *; lia). rewrite Rabs_R0. lra.
    - intros t j Ht Hj. unfold up. rewrite Nat.leb_refl. destruct (Nat.leb_spec t j); [|lia]. destruct (Nat.lt_ge_cases t k) as [L|G]; [now apply Bu|]. rewrite (Z t j) by (unfold K in *; lia). rewrite Rabs_R0. apply Rabs_pos.
    - intros i j Hi Hj. unfold up. cbn [Nat.leb]. destruct k as [|k]; [|apply Bm; auto; lia].
      destruct (@In_nth_lt _ 0%nat rp i) as (i' & Hi' & <-); [apply (Permutation_in _ (Permutation_sym Hr)), in_seq; lia|]. destruct (@In_nth_lt _ 0%nat cp j) as (j' & Hj' & <-); [apply (Permutation_in _ (Permutation_sym Hc)), in_seq; lia|].
      rewrite (@perm_len _ _ Hr) in Hi'. rewrite (@perm_len _ _ Hc) in Hj'. rewrite E by auto. cbn [seq map Nat.leb andb]. change (total []) with 0. rewrite (Z i' j') by lia. rewrite Rplus_0_l, Rabs_R0. apply Rabs_pos.
  Qed.
End Lu.
