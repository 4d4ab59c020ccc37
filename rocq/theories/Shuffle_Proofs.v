(** Shuffling moves row i to row p(i); it is a permutation, the same for samples and labels. *)
From Coq Require Import Reals.
From Verif Require Import Base Common_Model RDR_Proofs Shuffle_Model Vec Optim_Spec.
Set Implicit Arguments.

Lemma set_nth_same {A} (l : list A) i a : i < length l -> nth_error (set_nth l i a) i = Some a.
Proof. revert i; induction l as [|b l IH]; intros [|i] H; cbn in *; try lia; auto. apply IH; lia. Qed.
Lemma set_nth_other {A} (l : list A) i j a : i <> j -> nth_error (set_nth l i a) j = nth_error l j.
Proof. revert i j; induction l as [|b l IH]; intros [|i] [|j] H; cbn in *; try lia; auto. Qed.

Lemma fold_set_length {A} (ia : list (nat * A)) out :
  length (fold_left (fun o e => set_nth o (fst e) (snd e)) ia out) = length out.
Proof. revert out; induction ia as [|e ia IH]; intro out; cbn; auto. rewrite IH; apply set_nth_length. Qed.
Lemma fold_set_other {A} (ia : list (nat * A)) out k : ~ In k (map fst ia) ->
  nth_error (fold_left (fun o e => set_nth o (fst e) (snd e)) ia out) k = nth_error out k.
Proof.
  revert out; induction ia as [|e ia IH]; intros out H; cbn in *; auto.
  rewrite IH by tauto. apply set_nth_other; tauto.
Qed.
Lemma fold_set_in {A} (ia : list (nat * A)) out k a : NoDup (map fst ia) -> (forall i, In i (map fst ia) -> i < length out) ->
  In (k, a) ia -> nth_error (fold_left (fun o e => set_nth o (fst e) (snd e)) ia out) k = Some a.
Proof.
  revert out; induction ia as [|e ia IH]; intros out N H I; cbn in *; [easy|]. inversion N; subst.
  destruct I as [->|I].
  - rewrite fold_set_other by auto. apply set_nth_same. apply H; auto.
  - apply IH; auto. intros i I'. rewrite set_nth_length. apply H; auto.
Qed.

Lemma map_fst_combine {A B} (p : list A) (x : list B) : length p = length x -> map fst (combine p x) = p.
Proof. revert x; induction p as [|a p IH]; intros [|b x] H; cbn in *; try easy. f_equal; apply IH; lia. Qed.
Lemma in_combine_nth {A B} (p : list A) (x : list B) i a b : nth_error p i = Some a -> nth_error x i = Some b -> In (a, b) (combine p x).
Proof. revert x i; induction p as [|c p IH]; intros [|d x] [|i] H K; cbn in *; try easy; [left; congruence|right; eauto]. Qed.

Lemma is_perm_length n p : is_perm n p -> length p = n.
Proof. intro P; rewrite (Permutation_length P); apply seq_length. Qed.

Lemma permute_spec {A} n p (x : list A) : is_perm n p -> length x = n ->
  exists out, permute p x = Ok out /\ length out = n /\
    forall i k, nth_error p i = Some k -> nth_error out k = nth_error x i.
Proof.
  intros P L. pose proof (is_perm_length P) as Lp. unfold permute. rewrite Lp, L, Nat.eqb_refl.
  eexists; split; [reflexivity|]. split; [rewrite fold_set_length; auto|].
  intros i k H.
  assert (Hi : i < length x) by (rewrite L, <- Lp; apply nth_error_Some; congruence).
  destruct (nth_error x i) as [a|] eqn:E; [|apply nth_error_None in E; lia].
  apply fold_set_in.
  - rewrite map_fst_combine by congruence. eapply Permutation_NoDup; [symmetry; exact P|apply seq_NoDup].
  - rewrite map_fst_combine by congruence. intros q Q. apply (Permutation_in _ P) in Q. apply in_seq in Q. lia.
  - eapply in_combine_nth; eauto.
Qed.

Lemma map_nth_error_seq {A} (l : list A) : map (nth_error l) (seq 0 (length l)) = map Some l.
Proof.
  induction l as [|a l IH]; cbn; auto. f_equal. rewrite <- seq_shift, map_map. exact IH.
Qed.
Lemma map_Some_inj {A} (l l' : list A) : map Some l = map Some l' -> l = l'.
Proof. revert l'; induction l as [|a l IH]; intros [|b l'] H; cbn in *; try easy. inversion H; f_equal; auto. Qed.

Lemma list_ext {A} (l l' : list A) : (forall i, nth_error l i = nth_error l' i) -> l = l'.
Proof.
  revert l'; induction l as [|a l IH]; intros [|b l'] H; auto.
  - specialize (H 0); discriminate.
  - specialize (H 0); discriminate.
  - pose proof (H 0) as H0; cbn in H0. inversion H0; f_equal. apply IH. intro i; apply (H (S i)).
Qed.

(** The entries of [out], fetched in the order [p], are those of [x]. *)
Lemma perm_fetch {A} n p (x out : list A) : is_perm n p -> length x = n -> length out = n ->
  (forall i k, nth_error p i = Some k -> nth_error out k = nth_error x i) -> Permutation x out.
Proof.
  intros P Lx Lo H.
  assert (E : map (nth_error out) p = map Some x).
  { apply list_ext. intro i. rewrite !nth_error_map. destruct (nth_error p i) as [k|] eqn:E; cbn.
    - rewrite (H _ _ E). destruct (nth_error x i) eqn:F; auto. apply nth_error_None in F.
      assert (i < length p) by (apply nth_error_Some; congruence). rewrite (is_perm_length P) in *; lia.
    - apply nth_error_None in E. rewrite (is_perm_length P) in E. replace (nth_error x i) with (@None A); auto.
      symmetry; apply nth_error_None; lia. }
  pose proof (Permutation_map (nth_error out) P) as Q. rewrite E in Q. rewrite <- Lo, map_nth_error_seq in Q.
  apply Permutation_map_inv in Q. destruct Q as (l & Hl & Q). apply map_Some_inj in Hl. subst. symmetry; exact Q.
Qed.

Lemma nth_error_combine {A B} (x : list A) (y : list B) i :
  nth_error (combine x y) i = match nth_error x i, nth_error y i with Some a, Some b => Some (a, b) | _, _ => None end.
Proof.
  revert y i; induction x as [|a x IH]; intros [|b y] [|i]; cbn; auto.
  destruct (nth_error x i); auto.
Qed.

Lemma shuffle2_spec {A B} n p (x : list A) (y : list B) : is_perm n p -> length x = n -> length y = n ->
  exists x' y', shuffle_data2 p x y = Ok (x', y') /\ reordered x x' y y' /\
    forall i k, nth_error p i = Some k -> nth_error x' k = nth_error x i /\ nth_error y' k = nth_error y i.
Proof.
  intros P Lx Ly. destruct (permute_spec _ P Lx) as (x' & Ex & Lx' & Hx). destruct (permute_spec _ P Ly) as (y' & Ey & Ly' & Hy).
  exists x', y'. unfold shuffle_data2. rewrite Ex; cbn. rewrite Ey; cbn. split; [auto|]. split.
  - split; [congruence|]. split; [congruence|]. apply (@perm_fetch (A * B) n p); auto.
    + rewrite combine_length; lia.
    + rewrite combine_length; lia.
    + intros i k E. rewrite !nth_error_combine. rewrite (Hx _ _ E), (Hy _ _ E). auto.
  - intros i k E; auto.
Qed.
