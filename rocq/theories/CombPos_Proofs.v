(** [combinations] described by positions: order and number. *)
From Coq Require Import Factorial.
From Verif Require Import Base Sorting Common_Model Common_Spec Comb_Proofs RowSort_Proofs RDR_Proofs.
Set Implicit Arguments.

Lemma select_map {A B} (f : A -> B) : forall x m, select (map f x) m = map f (select x m).
Proof. induction x as [|a x IH]; intros [|[|] m]; simpl; auto. now rewrite IH. Qed.

Lemma map_nth_seq {A} (d : A) : forall l, l = map (fun i => nth i l d) (seq 0 (length l)).
Proof.
  induction l as [|a l IH]; [reflexivity|]. simpl. f_equal. rewrite <- seq_shift, map_map. exact IH.
Qed.

Lemma subseq_seq ps : forall n s, subseq ps (seq s n) <->
  StronglySorted lt ps /\ Forall (fun i => s <= i < s + n) ps.
Proof.
  intros n s. split.
  - intros H. remember (seq s n) as l eqn:E. revert s n E.
    induction H as [l|a ps l H IH|a ps l H IH]; intros s n E.
    + split; constructor.
    + destruct n as [|n]; [discriminate|]. simpl in E. injection E as -> ->.
      destruct (IH (S s) n eq_refl) as (H1 & H2). split; constructor; auto; try lia.
      * eapply Forall_impl; [|exact H2]. simpl. intros i. lia.
      * eapply Forall_impl; [|exact H2]. simpl. intros i. lia.
    + destruct n as [|n]; [discriminate|]. simpl in E. injection E as -> ->.
      destruct (IH (S s) n eq_refl) as (H1 & H2). split; auto.
      eapply Forall_impl; [|exact H2]. simpl. intros i. lia.
  - revert s ps. induction n as [|n IH]; intros s ps (H1 & H2); simpl.
    + destruct ps as [|a ps]; [constructor|]. inversion H2; subst. lia.
    + destruct ps as [|a ps]; [constructor|].
      inversion H1 as [|? ? H1' F1]; subst. inversion H2 as [|? ? H2' F2]; subst.
      rewrite Forall_forall in F1, F2.
      destruct (Nat.eq_dec a s) as [->|Hne].
      * apply sub_take. apply IH. split; [assumption|]. apply Forall_forall. intros i Hi.
        specialize (F1 i Hi). specialize (F2 i Hi). lia.
      * apply sub_skip. apply IH. split; [assumption|]. constructor; [lia|].
        apply Forall_forall. intros i Hi. specialize (F1 i Hi). specialize (F2 i Hi). lia.
Qed.

Lemma StronglySorted_app {A} (R : A -> A -> Prop) l1 l2 :
  StronglySorted R l1 -> StronglySorted R l2 -> (forall a b, In a l1 -> In b l2 -> R a b) ->
  StronglySorted R (l1 ++ l2).
Proof.
  induction 1 as [|a l1 Hs IH Hall]; intros H2 Hx; simpl; [assumption|].
  constructor.
  - apply IH; auto. intros x y Hin1 Hin2. apply Hx; [now right|assumption].
  - apply Forall_app. split; [assumption|]. apply Forall_forall. intros y Hy. apply Hx; [now left|assumption].
Qed.

Lemma StronglySorted_map {A B} (R : A -> A -> Prop) (Q : B -> B -> Prop) (f : A -> B) l :
  (forall a b, R a b -> Q (f a) (f b)) -> StronglySorted R l -> StronglySorted Q (map f l).
Proof.
  intros H. induction 1 as [|a l Hs IH Hall]; simpl; constructor; [assumption|].
  apply Forall_forall. intros y Hy. apply in_map_iff in Hy. destruct Hy as (x & <- & Hx).
  rewrite Forall_forall in Hall. auto.
Qed.

Lemma masks_pos_sorted n : forall k s, StronglySorted pos_lt (map (select (seq s n)) (masks n k)).
Proof.
  induction n as [|n IH]; intros k s.
  - destruct k; simpl; repeat constructor.
  - cbn [masks]. rewrite map_app. apply StronglySorted_app.
    + destruct k as [|k]; [constructor|]. rewrite map_map. simpl.
      rewrite <- (map_map (select (seq (S s) n)) (cons s)).
      eapply StronglySorted_map; [|apply IH]. intros a b H. now apply pos_lt_tail.
    + rewrite map_map. simpl. apply IH.
    + intros a b Ha Hb. destruct k as [|k]; [destruct Ha|].
      apply in_map_iff in Ha. destruct Ha as (m1 & <- & Hm1).
      apply in_map_iff in Hm1. destruct Hm1 as (m1' & <- & _).
      apply in_map_iff in Hb. destruct Hb as (m2 & <- & Hm2).
      apply in_map_iff in Hm2. destruct Hm2 as (m2' & <- & Hm2). simpl.
      apply masks_spec in Hm2. destruct Hm2 as (Hl & Hc).
      pose proof (select_length (seq (S s) n) m2') as HL. rewrite seq_length in HL. specialize (HL Hl).
      pose proof (select_subseq (seq (S s) n) m2') as Hsub. apply subseq_incl in Hsub.
      destruct (select (seq (S s) n) m2') as [|b bs]; [simpl in HL; lia|].
      apply pos_lt_head. assert (Hb : In b (seq (S s) n)) by (apply Hsub; now left).
      apply in_seq in Hb. lia.
Qed.

Lemma combinations_positions {A} (d : A) x k :
  exists P, combinations x k = Ok (map (map (fun i => nth i x d)) P) /\
    StronglySorted pos_lt P /\ (forall ps, In ps P <-> position_choice (length x) k ps) /\
    length P = binom (length x) k.
Proof.
  set (n := length x). exists (map (select (seq 0 n)) (masks n k)). split.
  - rewrite combinations_masks. f_equal. rewrite map_map. apply map_ext. intros m.
    rewrite <- select_map. f_equal. apply map_nth_seq.
  - split; [apply masks_pos_sorted|]. split; [|now rewrite map_length, masks_length].
    intros ps. unfold position_choice.
    pose proof (@in_combinations nat (seq 0 n) k ps _ (combinations_masks (seq 0 n) k)) as H.
    rewrite seq_length in H. rewrite H, subseq_seq. simpl.
    split; [intros ((H1 & H2) & H3)|intros (H1 & H2 & H3)]; repeat split; auto.
    + eapply Forall_impl; [|exact H2]. simpl. lia.
    + eapply Forall_impl; [|exact H2]. simpl. lia.
Qed.

Lemma binom_zero n k : n < k -> binom n k = 0.
Proof.
  revert k. induction n as [|n IH]; intros [|k] H; simpl; try lia. rewrite !IH by lia. reflexivity.
Qed.
Lemma binom_n_0 n : binom n 0 = 1.
Proof. induction n as [|n IH]; simpl; auto. Qed.
Lemma binom_n_n n : binom n n = 1.
Proof. induction n as [|n IH]; simpl; [reflexivity|]. rewrite IH, binom_zero; lia. Qed.

Lemma binom_fact n : forall k, k <= n -> binom n k * (fact k * fact (n - k)) = fact n.
Proof.
  induction n as [|n IH]; intros [|k] H; try lia.
  - reflexivity.
  - rewrite binom_n_0. rewrite Nat.sub_0_r. simpl fact at 1. lia.
  - cbn [binom]. destruct (Nat.eq_dec k n) as [->|Hne].
    + rewrite binom_n_n, binom_zero, Nat.sub_diag by lia. simpl fact at 2. lia.
    + assert (H1 := IH k ltac:(lia)). assert (H2 := IH (S k) ltac:(lia)).
      change (S n - S k) with (n - k). replace (n - k) with (S (n - S k)) in * by lia.
      change (fact (S (n - S k))) with (S (n - S k) * fact (n - S k)) in *.
      change (fact (S k)) with (S k * fact k) in *. change (fact (S n)) with (S n * fact n).
      set (f := fact k) in *. set (g := fact (n - S k)) in *. set (b1 := binom n k) in *.
      set (b2 := binom n (S k)) in *. replace (S n) with (S k + S (n - S k)) at 1 by lia.
      set (p := S (n - S k)) in *.
      replace ((b1 + b2) * (S k * f * (p * g))) with (S k * (b1 * (f * (p * g))) + p * (b2 * (S k * f * g))) by ring.
      rewrite H1, H2. ring.
Qed.

Lemma combinations_full {A} (d : A) x k :
  exists P, combinations x k = Ok (map (map (fun i => nth i x d)) P) /\
    StronglySorted pos_lt P /\ (forall ps, In ps P <-> position_choice (length x) k ps) /\
    (k <= length x -> length P * (fact k * fact (length x - k)) = fact (length x)) /\
    (length x < k -> P = []).
Proof.
  destruct (combinations_positions d x k) as (P & E & HS & HM & HL).
  exists P. split; [assumption|]. split; [assumption|]. split; [assumption|]. split.
  - intros Hk. rewrite HL. now apply binom_fact.
  - intros Hk. rewrite binom_zero in HL by assumption. now destruct P.
Qed.
