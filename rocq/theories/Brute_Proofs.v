(** Proofs for C82. *)
From Coq Require Import Reals String Lia Permutation.
From Verif Require Import Base KDReal_Proofs Impurity_Spec Vec Stats_Model Loss_Model Loss_Proofs NbrObjects_Model Brute_Model.
Local Open Scope R_scope.

Lemma brute_distance_ok metric x s : metric = "euclidean"%string \/ metric = "manhattan"%string -> length s = length x -> exists r, brute_distance metric x s = Ok r.
Proof.
  intros H L. unfold brute_distance, sub. rewrite (proj2 (Nat.eqb_eq (length x) (length s))) by auto. destruct H as [-> | ->]; cbn; eexists; reflexivity.
Qed.
Lemma lookup_ok metric s : metric = "euclidean"%string \/ metric = "manhattan"%string -> forall X y, (forall x, In x X -> length s = length x) -> (length X <= length y)%nat ->
  exists d, lookup_dist metric X y s = Ok d /\ length d = length X.
Proof.
  intros H. induction X as [|x X IH]; intros y W L; cbn [lookup_dist]; [exists []; auto|]. destruct y as [|b y]; [cbn in L; lia|].
  destruct (brute_distance_ok metric x s H) as (r & ->); [apply W; now left|]. cbn [bind].
  destruct (IH y) as (d & -> & Ld); [intros; apply W; now right|cbn in L; lia|]. cbn [bind]. eexists. split; [reflexivity|]. cbn. lia.
Qed.
Lemma insert_length e l : length (insert_pair e l) = S (length l).
Proof. induction l as [|a l IH]; cbn; [reflexivity|]. destruct (pair_lt a e); cbn; [rewrite IH|]; reflexivity. Qed.
Lemma sort_length l : length (sort_pairs l) = length l.
Proof. induction l as [|a l IH]; cbn; [reflexivity|]. fold (sort_pairs l). rewrite insert_length. lia. Qed.
Lemma first_labels_ok k : forall l, (k <= length l)%nat -> exists r, first_labels k l = Ok r /\ length r = k.
Proof.
  induction k as [|k IH]; intros l L; cbn; [exists []; auto|]. destruct l as [|e l]; [cbn in L; lia|]. destruct (IH l) as (r & -> & Lr); [cbn in L; lia|]. cbn [bind]. eexists. split; [reflexivity|]. cbn. lia.
Qed.
Lemma first_labels_few k : forall l, (length l < k)%nat -> first_labels k l = Throw OutOfRange.
Proof. induction k as [|k IH]; intros l L; [lia|]. cbn. destruct l as [|e l]; [reflexivity|]. rewrite IH by (cbn in L; lia). reflexivity. Qed.
Lemma count_bound a m b n c : (forall b n, In (b, n) m -> (n <= c)%nat) -> In (b, n) (count_label a m) -> (n <= S c)%nat.
Proof.
  revert b n. induction m as [|(b0, n0) m IH]; intros b n H I; cbn in I; [destruct I as [I|[]]; injection I as <- <-; lia|].
  destruct (Reqb a b0); destruct I as [I|I].
  - injection I as <- <-. specialize (H b0 n0 (or_introl eq_refl)). lia.
  - specialize (H b n (or_intror I)). lia.
  - injection I as <- <-. specialize (H b0 n0 (or_introl eq_refl)). lia.
  - apply (IH b n); auto. intros b1 n1 I1. apply (H b1 n1). now right.
Qed.
Lemma counts_bound labels : forall b n, In (b, n) (label_counts labels) -> (n <= length labels)%nat.
Proof.
  unfold label_counts. assert (G : forall l m c, (forall b n, In (b, n) m -> (n <= c)%nat) -> forall b n, In (b, n) (fold_left (fun m a => count_label a m) l m) -> (n <= c + length l)%nat).
  { induction l as [|a l IH]; intros m c H b n I; cbn in *; [specialize (H b n I); lia|].
    apply IH with (c := S c) in I; [lia|]. intros b1 n1 I1. eapply count_bound; eauto. }
  intros b n I. apply (G labels [] 0%nat) in I; auto. intros ? ? [].
Qed.
Lemma vote_never l : (forall b n, In (b, n) l -> (Z.of_nat n < 2 ^ 64)%Z) -> fold_left vote l vote_start = vote_start.
Proof.
  induction l as [|(b, n) l IH]; intros H; [reflexivity|]. cbn [fold_left]. unfold vote at 2. cbn [fst snd].
  rewrite (proj2 (Z.ltb_ge (snd vote_start) (Z.of_nat n))); [apply IH; intros; apply (H b0); now right|].
  specialize (H b n (or_introl eq_refl)). unfold vote_start. cbn [snd]. lia.
Qed.
Lemma brute_force_value order metric k X y s : (forall l, Permutation l (order l)) -> metric = "euclidean"%string \/ metric = "manhattan"%string ->
  (forall x, In x X -> length s = length x) -> (length X <= length y)%nat -> (k <= length X)%nat -> (Z.of_nat (length X) < 2 ^ 64)%Z ->
  brute_force order metric k X y s = Ok (-1).
Proof.
  intros P H W L K B. unfold brute_force. destruct (lookup_ok metric s H X y W L) as (d & -> & Ld). cbn [bind].
  destruct (first_labels_ok k (sort_pairs d)) as (r & -> & Lr); [rewrite sort_length; lia|]. cbn [bind]. rewrite vote_never; [reflexivity|].
  intros b n I. apply (Permutation_in _ (Permutation_sym (P _))) in I. apply counts_bound in I. lia.
Qed.
Lemma brute_force_few order metric k X y s : metric = "euclidean"%string \/ metric = "manhattan"%string ->
  (forall x, In x X -> length s = length x) -> (length X <= length y)%nat -> (length X < k)%nat -> brute_force order metric k X y s = Throw OutOfRange.
Proof.
  intros H W L K. unfold brute_force. destruct (lookup_ok metric s H X y W L) as (d & -> & Ld). cbn [bind]. rewrite first_labels_few by (rewrite sort_length; lia). reflexivity.
Qed.
Lemma brute_force_metric order metric k x X b y s : metric <> "euclidean"%string -> metric <> "manhattan"%string ->
  brute_force order metric k (x :: X) (b :: y) s = Throw InvalidArgument.
Proof.
  intros H H'. unfold brute_force. cbn [lookup_dist]. unfold brute_distance. apply String.eqb_neq in H. apply String.eqb_neq in H'. now rewrite H, H'.
Qed.
Lemma brute_force_width order metric k x X b y s : metric = "euclidean"%string \/ metric = "manhattan"%string -> length s <> length x ->
  brute_force order metric k (x :: X) (b :: y) s = UB.
Proof.
  intros H L. unfold brute_force. cbn [lookup_dist]. unfold brute_distance, sub. assert (N : (length x =? length s)%nat = false) by (apply Nat.eqb_neq; auto). rewrite N. destruct H as [-> | ->]; reflexivity.
Qed.
Lemma mapM_repeat {A B} (f : A -> outcome B) b : forall l, (forall a, In a l -> f a = Ok b) -> mapM f l = Ok (repeat b (length l)).
Proof. induction l as [|a l IH]; intros H; cbn; [reflexivity|]. rewrite H by now left. cbn [bind]. rewrite IH by (intros; apply H; now right). reflexivity. Qed.
