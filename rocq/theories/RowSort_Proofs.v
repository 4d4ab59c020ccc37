(** [sortrows]: lexicographic sort of distinct rows, undefined on equal rows. *)
From Verif Require Import Base Sorting Common_Model Common_Spec.
Set Implicit Arguments.

Lemma lex_lt_spec a b : lex a b = Lt <-> lex_lt a b.
Proof.
  split.
  - revert b. induction a as [|x a IH]; destruct b as [|y b]; simpl; try discriminate.
    + intros _. constructor.
    + destruct (Z.compare_spec x y); try discriminate; intros H1.
      * subst. apply lex_lt_tail. auto.
      * now apply lex_lt_head.
  - induction 1 as [b l|x y l1 l2 Hlt|x l1 l2 _ IH]; simpl; [reflexivity| |].
    + apply Z.compare_lt_iff in Hlt. now rewrite Hlt.
    + now rewrite Z.compare_refl.
Qed.

Definition dir (reverse : bool) : comparison := if reverse then Gt else Lt.

Lemma row_less_lex reverse : forall v1 v2, length v1 = length v2 ->
  row_less reverse v1 v2 = match lex v1 v2 with Eq => UB | Lt => Ok (negb reverse) | Gt => Ok reverse end.
Proof.
  induction v1 as [|a v1 IH]; intros [|b v2] H; simpl in *; try discriminate; try reflexivity.
  destruct (Z.compare_spec a b) as [E|E|E].
  - subst. rewrite Z.eqb_refl. apply IH. lia.
  - rewrite (proj2 (Z.eqb_neq a b)) by lia. destruct reverse; simpl.
    + f_equal. apply Z.ltb_ge. lia.
    + f_equal. apply Z.ltb_lt. lia.
  - rewrite (proj2 (Z.eqb_neq a b)) by lia. destruct reverse; simpl.
    + f_equal. apply Z.ltb_lt. lia.
    + f_equal. apply Z.ltb_ge. lia.
Qed.

Definition R reverse (a b : list Z) : Prop := lex a b = dir reverse.

Lemma R_trans reverse a b c : R reverse a b -> R reverse b c -> R reverse a c.
Proof.
  unfold R. destruct reverse; simpl.
  - rewrite (lex_antisym a b), (lex_antisym b c), (lex_antisym a c).
    intros H1 H2. assert (lex b a = Lt) by (destruct (lex b a); simpl in *; congruence).
    assert (lex c b = Lt) by (destruct (lex c b); simpl in *; congruence).
    rewrite (@lex_trans c b a); auto.
  - apply lex_trans.
Qed.

Lemma R_total reverse a b : a <> b -> R reverse a b \/ R reverse b a.
Proof.
  intros H. unfold R. rewrite (lex_antisym b a). destruct (lex a b) eqn:E; simpl.
  - apply lex_eq in E. contradiction.
  - destruct reverse; simpl; auto.
  - destruct reverse; simpl; auto.
Qed.

Lemma row_less_true reverse a b : length a = length b -> R reverse a b -> row_less reverse a b = Ok true.
Proof. unfold R. intros H HR. rewrite row_less_lex, HR by assumption. now destruct reverse. Qed.
Lemma row_less_false reverse a b : length a = length b -> R reverse b a -> row_less reverse a b = Ok false.
Proof.
  unfold R. intros H HR. rewrite row_less_lex by assumption. rewrite lex_antisym, HR.
  now destruct reverse.
Qed.
Lemma row_less_eq reverse a : row_less reverse a a = UB.
Proof. rewrite row_less_lex by reflexivity. now rewrite (proj2 (lex_eq a a) eq_refl). Qed.

Lemma insM_ok reverse k x : length x = k -> forall l,
  Forall (fun r => length r = k) l -> StronglySorted (R reverse) l -> ~ In x l ->
  exists r, insM reverse x l = Ok r /\ Permutation (x :: l) r /\ StronglySorted (R reverse) r.
Proof.
  intros Hx. induction l as [|y l IH]; intros Hl Hs Hn.
  - exists [x]. repeat split; auto. repeat constructor.
  - inversion Hl as [|? ? Hy Hl']; subst. inversion Hs as [|? ? Hs' Hall]; subst.
    simpl. destruct (@R_total reverse y x) as [HR|HR].
    + intros ->. apply Hn. now left.
    + rewrite row_less_true by (auto; congruence). simpl.
      destruct IH as (r & E & HP & Hsr); auto.
      { intros Hin. apply Hn. now right. }
      rewrite E. simpl. exists (y :: r). split; [reflexivity|]. split.
      * rewrite perm_swap. now constructor.
      * constructor; [assumption|]. apply Forall_forall. intros z Hz.
        apply (Permutation_in _ (Permutation_sym HP)) in Hz. destruct Hz as [<-|Hz]; [assumption|].
        rewrite Forall_forall in Hall. now apply Hall.
    + rewrite row_less_false by (auto; congruence). simpl.
      exists (x :: y :: l). split; [reflexivity|]. split; [reflexivity|].
      constructor; [assumption|]. constructor; [assumption|].
      rewrite Forall_forall in Hall |- *. intros z Hz. eapply R_trans; [exact HR|]. now apply Hall.
Qed.

Lemma insM_dup reverse k x : length x = k -> forall l,
  Forall (fun r => length r = k) l -> StronglySorted (R reverse) l -> In x l -> insM reverse x l = UB.
Proof.
  intros Hx. induction l as [|y l IH]; intros Hl Hs Hin; [destruct Hin|].
  inversion Hl as [|? ? Hy Hl']; subst. inversion Hs as [|? ? Hs' Hall]; subst.
  simpl. destruct Hin as [->|Hin].
  - now rewrite row_less_eq.
  - rewrite Forall_forall in Hall. rewrite row_less_true; [|congruence|now apply Hall].
    simpl. now rewrite IH.
Qed.

Lemma isortM_ok reverse k : forall l, Forall (fun r => length r = k) l -> NoDup l ->
  exists r, isortM reverse l = Ok r /\ Permutation l r /\ StronglySorted (R reverse) r.
Proof.
  induction l as [|x l IH]; intros Hl Hnd; simpl.
  - exists []. repeat split; constructor.
  - inversion Hl as [|? ? Hx Hl']; subst. inversion Hnd as [|? ? Hn Hnd']; subst.
    destruct IH as (r & E & HP & Hs); auto. rewrite E. simpl.
    destruct (@insM_ok reverse (length x) x eq_refl r) as (r' & E' & HP' & Hs'); auto.
    + rewrite Forall_forall in Hl' |- *. intros z Hz. apply Hl'.
      apply (Permutation_in _ (Permutation_sym HP)). assumption.
    + intros Hin. apply Hn. apply (Permutation_in _ (Permutation_sym HP)). assumption.
    + exists r'. split; [assumption|]. split; [|assumption].
      rewrite <- HP'. now constructor.
Qed.

Lemma isortM_dup reverse k : forall l, Forall (fun r => length r = k) l -> ~ NoDup l ->
  isortM reverse l = UB.
Proof.
  induction l as [|x l IH]; intros Hl Hnd.
  - exfalso. apply Hnd. constructor.
  - inversion Hl as [|? ? Hx Hl']; subst. simpl.
    destruct (in_dec (list_eq_dec Z.eq_dec) x l) as [Hin|Hn].
    + destruct (ListDec.NoDup_dec (list_eq_dec Z.eq_dec) l) as [Hnd'|Hnd'].
      * destruct (@isortM_ok reverse (length x) l Hl' Hnd') as (r & E & HP & Hs).
        rewrite E. simpl. apply (@insM_dup reverse (length x)); auto.
        -- rewrite Forall_forall in Hl' |- *. intros z Hz. apply Hl'.
           apply (Permutation_in _ (Permutation_sym HP)). assumption.
        -- apply (Permutation_in _ HP). assumption.
      * rewrite IH; auto.
    + rewrite IH; auto. intros H. apply Hnd. now constructor.
Qed.

Lemma R_lex_lt reverse a b : R reverse a b <-> if reverse then lex_lt b a else lex_lt a b.
Proof.
  unfold R. destruct reverse; simpl; rewrite <- lex_lt_spec.
  - rewrite (lex_antisym b a). destruct (lex a b); simpl; split; congruence.
  - reflexivity.
Qed.

Lemma StronglySorted_impl {A} (P Q : A -> A -> Prop) l :
  (forall a b, P a b -> Q a b) -> StronglySorted P l -> StronglySorted Q l.
Proof.
  intros H. induction 1 as [|a l Hs IH Hall]; constructor; [assumption|].
  eapply Forall_impl; [|exact Hall]. auto.
Qed.

Lemma sortrows_ok x k reverse :
  x <> [] -> 0 < k -> Forall (fun r => length r = k) x -> NoDup x ->
  exists r, sortrows x reverse = Ok r /\ Permutation x r /\
            StronglySorted (fun a b => if reverse then lex_lt b a else lex_lt a b) r.
Proof.
  intros Hx Hk Hl Hnd. destruct (@isortM_ok reverse k x Hl Hnd) as (r & E & HP & Hs).
  exists r. split.
  - destruct x as [|r0 x']; [congruence|]. inversion Hl as [|? ? Hr0 _]; subst.
    destruct r0; [simpl in Hk; lia|]. exact E.
  - split; [assumption|]. eapply StronglySorted_impl; [|exact Hs]. intros a b. apply R_lex_lt.
Qed.

Lemma sortrows_dup x k reverse :
  0 < k -> Forall (fun r => length r = k) x -> ~ NoDup x -> sortrows x reverse = UB.
Proof.
  intros Hk Hl Hnd. destruct x as [|r0 x'].
  - exfalso. apply Hnd. constructor.
  - pose proof (@isortM_dup reverse k (r0 :: x') Hl Hnd) as E.
    inversion Hl as [|? ? Hr0 _]; subst. destruct r0; [simpl in Hk; lia|]. exact E.
Qed.

Lemma sortrows_empty x reverse : x = [] \/ hd [] x = [] -> sortrows x reverse = Throw InvalidArgument.
Proof. intros [->|H]; [reflexivity|]. destruct x as [|[|] x]; simpl in *; try reflexivity; discriminate. Qed.
