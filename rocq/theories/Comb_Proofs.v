(** [combinations] enumerates all selections of [k] positions, each once. *)
From Verif Require Import Base Sorting Common_Model.
Set Implicit Arguments.

Fixpoint masks (n k : nat) : list (list bool) :=
  match n with
  | 0 => match k with 0 => [[]] | S _ => [] end
  | S n' =>
      match k with
      | 0 => []
      | S k' => map (cons true) (masks n' k')
      end ++ map (cons false) (masks n' k)
  end.

Fixpoint binom (n k : nat) : nat :=
  match n with
  | 0 => match k with 0 => 1 | S _ => 0 end
  | S n' => match k with 0 => 0 | S k' => binom n' k' end + binom n' k
  end.

Lemma masks_length n : forall k, length (masks n k) = binom n k.
Proof.
  induction n as [|n IH]; intros [|k]; simpl; try reflexivity.
  - rewrite map_length. apply IH.
  - rewrite app_length, !map_length, !IH. reflexivity.
Qed.

Lemma binom_pow2 n : forall k, binom n k <= 2 ^ n.
Proof.
  induction n as [|n IH]; intros [|k]; simpl; try lia.
  - specialize (IH 0). lia.
  - pose proof (IH k). pose proof (IH (S k)). lia.
Qed.

Lemma masks_spec n : forall k m,
  In m (masks n k) <-> length m = n /\ count_occ Bool.bool_dec m true = k.
Proof.
  induction n as [|n IH]; intros k m.
  - destruct k as [|k]; simpl.
    + split; [intros [<-|[]]; auto|]. intros [H _]. destruct m; [auto|discriminate].
    + split; [tauto|]. intros [H1 H2]. destruct m; [|discriminate]. simpl in H2. lia.
  - cbn [masks]. rewrite in_app_iff. split.
    + intros [H|H].
      * destruct k as [|k]; [contradiction|]. apply in_map_iff in H.
        destruct H as (m' & <- & H). apply IH in H. destruct H as [H1 H2].
        simpl. split; [lia|]. lia.
      * apply in_map_iff in H. destruct H as (m' & <- & H). apply IH in H.
        destruct H as [H1 H2]. simpl. auto.
    + intros [H1 H2]. destruct m as [|b m]; [discriminate|]. simpl in H1.
      destruct b.
      * left. destruct k as [|k].
        -- simpl in H2. lia.
        -- simpl in H2. apply in_map. apply IH. lia.
      * right. apply in_map. apply IH. simpl in H2. lia.
Qed.

Lemma NoDup_app_intro {A} (l1 l2 : list A) :
  NoDup l1 -> NoDup l2 -> (forall x, In x l1 -> ~ In x l2) -> NoDup (l1 ++ l2).
Proof.
  induction l1 as [|a l1 IH]; simpl; intros H1 H2 Hd; [assumption|].
  inversion H1; subst. constructor.
  - rewrite in_app_iff. intros [H|H]; [contradiction|]. apply (Hd a); auto.
  - apply IH; auto.
Qed.

Lemma NoDup_map_cons {A} (a : A) l : NoDup l -> NoDup (map (cons a) l).
Proof.
  induction 1 as [|x l Hn Hd IH]; simpl; constructor; [|assumption].
  intros H. apply in_map_iff in H. destruct H as (y & [= ->] & H). contradiction.
Qed.

Lemma masks_NoDup n : forall k, NoDup (masks n k).
Proof.
  induction n as [|n IH]; intros k.
  - destruct k; simpl; repeat constructor. simpl. tauto.
  - cbn [masks]. apply NoDup_app_intro.
    + destruct k; [constructor|]. apply NoDup_map_cons, IH.
    + apply NoDup_map_cons, IH.
    + intros m Hm Hm'. destruct k; [contradiction|].
      apply in_map_iff in Hm. destruct Hm as (m1 & <- & _).
      apply in_map_iff in Hm'. destruct Hm' as (m2 & [= ] & _).
Qed.

Lemma masks_gt n : forall k, n < k -> masks n k = [].
Proof.
  induction n as [|n IH]; intros [|k] H; try lia; [reflexivity|].
  cbn [masks]. rewrite !IH by lia. reflexivity.
Qed.

(** ** The loop walks through [masks n k] in order *)
Definition first_mask n k := repeat true k ++ repeat false (n - k).
Definition last_mask n k := repeat false (n - k) ++ repeat true k.

Inductive chain : list bool -> list (list bool) -> list bool -> Prop :=
| chain_one b : chain b [b] b
| chain_cons b b' l e : prev_permutation b = Some b' -> chain b' l e -> chain b (b :: l) e.

Lemma chain_app b1 l1 e1 b2 l2 e2 :
  chain b1 l1 e1 -> prev_permutation e1 = Some b2 -> chain b2 l2 e2 ->
  chain b1 (l1 ++ l2) e2.
Proof.
  intros H1 Hp H2. induction H1 as [b|b b' l e Hp' H1 IH]; simpl.
  - econstructor; eauto.
  - econstructor; eauto.
Qed.

Lemma prev_cons b l l' : prev_permutation l = Some l' -> prev_permutation (b :: l) = Some (b :: l').
Proof. intros H. simpl. now rewrite H. Qed.

Lemma chain_map b0 b l e : chain b l e -> chain (b0 :: b) (map (cons b0) l) (b0 :: e).
Proof.
  induction 1 as [b|b b' l e Hp H1 IH]; simpl.
  - constructor.
  - econstructor; [apply prev_cons; exact Hp|exact IH].
Qed.

Lemma swap_last_false_true q : swap_last_false (repeat true q) = None.
Proof. induction q as [|q IH]; simpl; [reflexivity|]. now rewrite IH. Qed.

Lemma swap_last_false_spec p q :
  swap_last_false (repeat false (S p) ++ repeat true q) = Some (repeat false p ++ repeat true (S q)).
Proof.
  induction p as [|p IH].
  - simpl. now rewrite swap_last_false_true.
  - cbn [repeat app swap_last_false] in *. now rewrite IH.
Qed.

Lemma prev_last p q : prev_permutation (repeat false p ++ repeat true q) = None.
Proof.
  induction p as [|p IH]; simpl.
  - induction q as [|q IHq]; simpl; [reflexivity|]. now rewrite IHq, swap_last_false_true.
  - now rewrite IH.
Qed.

Lemma rev_repeat {A} (a : A) n : rev (repeat a n) = repeat a n.
Proof.
  induction n as [|n IH]; simpl; [reflexivity|]. rewrite IH.
  clear. induction n as [|n IH]; simpl; [reflexivity|]. now rewrite IH.
Qed.

Lemma prev_junction n k :
  k < n -> prev_permutation (true :: last_mask n k) = Some (false :: first_mask n (S k)).
Proof.
  intros H. unfold last_mask, first_mask. cbn [prev_permutation]. rewrite prev_last.
  replace (n - k) with (S (n - S k)) by lia. rewrite swap_last_false_spec.
  rewrite rev_app_distr, !rev_repeat. reflexivity.
Qed.

Lemma chain_masks n : forall k, k <= n -> chain (first_mask n k) (masks n k) (last_mask n k).
Proof.
  induction n as [|n IH]; intros k Hk.
  - assert (k = 0) as -> by lia. simpl. constructor.
  - destruct k as [|k].
    + cbn [masks]. simpl app.
      specialize (IH 0 ltac:(lia)). apply (chain_map false) in IH.
      unfold first_mask, last_mask in *. simpl repeat in *. rewrite !Nat.sub_0_r in *.
      exact IH.
    + cbn [masks].
      assert (HA : chain (first_mask (S n) (S k)) (map (cons true) (masks n k)) (true :: last_mask n k)).
      { exact (chain_map true (IH k ltac:(lia))). }
      destruct (Nat.eq_dec k n) as [->|Hne].
      * rewrite (@masks_gt n (S n)) by lia. simpl map. rewrite app_nil_r.
        replace (last_mask (S n) (S n)) with (true :: last_mask n n); [exact HA|].
        unfold last_mask. rewrite !Nat.sub_diag. reflexivity.
      * replace (last_mask (S n) (S k)) with (false :: last_mask n (S k)).
        { eapply chain_app; [exact HA|apply prev_junction; lia|].
          apply chain_map. apply IH. lia. }
        unfold last_mask. replace (S n - S k) with (S (n - S k)) by lia. reflexivity.
Qed.

Lemma comb_loop_chain {A} (x : list A) b l e :
  chain b l e -> prev_permutation e = None ->
  forall fuel, length l <= fuel -> comb_loop fuel x b = Ok (map (select x) l).
Proof.
  intros H He. induction H as [b|b b' l e Hp H1 IH]; intros [|fuel] Hf; simpl in Hf; try lia.
  - simpl. now rewrite He.
  - cbn [comb_loop]. rewrite Hp, IH by (auto; lia). reflexivity.
Qed.

Lemma combinations_masks {A} (x : list A) k :
  combinations x k = Ok (map (select x) (masks (length x) k)).
Proof.
  unfold combinations. destruct (Nat.ltb_spec (length x) k) as [Hlt|Hge].
  - now rewrite masks_gt.
  - eapply comb_loop_chain.
    + exact (chain_masks Hge).
    + apply prev_last.
    + rewrite masks_length. apply binom_pow2.
Qed.

(** ** Selections are subsequences *)
Inductive subseq {A} : list A -> list A -> Prop :=
| sub_nil l : subseq [] l
| sub_take a s l : subseq s l -> subseq (a :: s) (a :: l)
| sub_skip a s l : subseq s l -> subseq s (a :: l).

Lemma select_subseq {A} (x : list A) : forall m, subseq (select x m) x.
Proof.
  induction x as [|a x IH]; intros [|[|] m]; simpl; constructor; apply IH.
Qed.

Lemma select_length {A} (x : list A) : forall m,
  length m = length x -> length (select x m) = count_occ Bool.bool_dec m true.
Proof.
  induction x as [|a x IH]; intros [|b m] H; simpl in *; try discriminate; [reflexivity|].
  injection H as H. destruct b; simpl; rewrite IH; auto.
Qed.

Lemma subseq_select {A} (s x : list A) :
  subseq s x -> exists m, length m = length x /\ select x m = s.
Proof.
  induction 1 as [l|a s l H (m & Hl & Hs)|a s l H (m & Hl & Hs)].
  - exists (repeat false (length l)). split; [apply repeat_length|].
    induction l; simpl; auto.
  - exists (true :: m). simpl. split; congruence.
  - exists (false :: m). simpl. split; congruence.
Qed.

Lemma in_combinations {A} (x : list A) k s l :
  combinations x k = Ok l -> (In s l <-> subseq s x /\ length s = k).
Proof.
  rewrite combinations_masks. intros [= <-]. rewrite in_map_iff. split.
  - intros (m & <- & Hm). apply masks_spec in Hm. destruct Hm as [H1 H2].
    split; [apply select_subseq|]. now rewrite select_length.
  - intros [Hs Hl]. destruct (subseq_select Hs) as (m & Hm & <-).
    exists m. split; [reflexivity|]. apply masks_spec. split; [assumption|].
    now rewrite <- (@select_length A x).
Qed.

Lemma subseq_incl {A} (s x : list A) : subseq s x -> incl s x.
Proof.
  induction 1; intros y Hy; simpl in *; [contradiction| |]; intuition.
Qed.

Lemma select_inj {A} (x : list A) : NoDup x -> forall m1 m2,
  length m1 = length x -> length m2 = length x -> select x m1 = select x m2 -> m1 = m2.
Proof.
  induction 1 as [|a x Hn Hd IH]; intros [|b1 m1] [|b2 m2] H1 H2 HE; simpl in *; try discriminate;
    [reflexivity|].
  injection H1 as H1. injection H2 as H2.
  assert (Ha : forall m, ~ In a (select x m)).
  { intros m Hin. apply Hn. exact (subseq_incl (select_subseq x m) _ Hin). }
  destruct b1, b2; simpl in HE.
  - injection HE as HE. f_equal. now apply IH.
  - exfalso. apply (Ha m2). rewrite <- HE. now left.
  - exfalso. apply (Ha m1). rewrite HE. now left.
  - f_equal. now apply IH.
Qed.

Lemma combinations_NoDup {A} (x : list A) k l :
  NoDup x -> combinations x k = Ok l -> NoDup l.
Proof.
  intros Hx. rewrite combinations_masks. intros [= <-].
  pose proof (masks_NoDup (length x) k) as HN.
  assert (Hlen : forall m, In m (masks (length x) k) -> length m = length x).
  { intros m Hm. apply masks_spec in Hm. tauto. }
  induction HN as [|m ms Hn Hd IH]; simpl; constructor.
  - intros H. apply in_map_iff in H. destruct H as (m' & HE & Hm').
    apply select_inj in HE; auto.
    + subst. contradiction.
    + apply Hlen. now right.
    + apply Hlen. now left.
  - apply IH. intros m' Hm'. apply Hlen. now right.
Qed.

Lemma combinations_summary {A} (x : list A) (k : nat) :
  exists ms, combinations x k = Ok (map (select x) ms) /\
    NoDup ms /\
    (forall m, In m ms <-> length m = length x /\ count_occ Bool.bool_dec m true = k) /\
    length ms = binom (length x) k.
Proof.
  exists (masks (length x) k). split; [apply combinations_masks|].
  split; [apply masks_NoDup|]. split; [apply masks_spec|apply masks_length].
Qed.
