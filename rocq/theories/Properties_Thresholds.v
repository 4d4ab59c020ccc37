(** C23: the thresholds of fitted trees. *)
From Coq Require Import Reals Lra QArith.
From Verif Require Import Base Tree_Model Tree_Spec Tree_Proofs KDReal_Proofs Impurity_Model Impurity_Spec Impurity_Proofs TreeReal_Proofs UnitsCase_Proofs Properties_Tree.
Local Open Scope R_scope.

(** [th] is half-way between the values [a <= b] that two of the rows [D] have in column [f], and no row
    of [D] has a value strictly between them. *)
Definition half_way (D : list (list R * R)) (f : nat) (th : R) : Prop :=
  exists a b, (exists e, In e D /\ nth_error (fst e) f = Some a) /\ (exists e, In e D /\ nth_error (fst e) f = Some b) /\
    a <= b /\ 2 * th = a + b /\
    forall e v, In e D -> nth_error (fst e) f = Some v -> v <= a \/ b <= v.

Lemma sorted_lower s (i : nat) a v : StronglySorted (fun u w : R => Rltb w u = false) s -> nth_error s i = Some a -> In v (firstn i s) -> v <= a.
Proof.
  intros H. revert i. induction H as [|x s Hs IH Ha]; intros [|i] E Hv; try (cbn in Hv; contradiction).
  cbn in E, Hv. destruct Hv as [<-|Hv]; [|eauto]. rewrite Forall_forall in Ha. apply Rltb_false, Ha. eapply nth_error_In. exact E.
Qed.
Lemma sorted_upper s (i : nat) a v : StronglySorted (fun u w : R => Rltb w u = false) s -> nth_error s i = Some a -> In v (skipn i s) -> a <= v.
Proof.
  intros H. revert i. induction H as [|x s Hs IH Ha]; intros [|i] E Hv; try discriminate.
  - cbn in E, Hv. injection E as <-. destruct Hv as [<-|Hv]; [lra|]. rewrite Forall_forall in Ha. apply Rltb_false, Ha, Hv.
  - cbn in E, Hv. eauto.
Qed.
Lemma candidate_half_way D f th : candidate Rltb Rmid D f th -> half_way D f th.
Proof.
  intros (s & i & a & b & HP & HS & Ha & Hb & ->).
  assert (Hin : forall v, In v s <-> exists e, In e D /\ nth_error (fst e) f = Some v).
  { intros v. split.
    - intros Hv. apply (in_map Some), (Permutation_in _ HP), in_map_iff in Hv. destruct Hv as (e & Ee & He). eauto.
    - intros (e & He & Ee). assert (H : In (Some v) (map Some s)).
      { apply (Permutation_in _ (Permutation_sym HP)), in_map_iff. eauto. }
      apply in_map_iff in H. destruct H as (w & Ew & Hw). now injection Ew as ->. }
  exists a, b. split; [apply Hin; eapply nth_error_In; exact Ha|]. split; [apply Hin; eapply nth_error_In; exact Hb|].
  split; [apply Rltb_false; eapply (sorted_adjacent (Rel := fun u v : R => Rltb v u = false)); eassumption|].
  split; [unfold Rmid; lra|]. intros e v He Ev. assert (Hv : In v s) by (apply Hin; eauto).
  rewrite <- (firstn_skipn (S i) s) in Hv. apply in_app_iff in Hv. destruct Hv as [Hv|Hv].
  - left. assert (Es : firstn (S i) s = firstn i s ++ [a]).
    { clear - Ha. revert i Ha. induction s as [|x s IH]; intros [|i] Ha; try discriminate; [injection Ha as ->; reflexivity|].
      change (x :: firstn (S i) s = x :: (firstn i s ++ [a])). now rewrite (IH i Ha). }
    rewrite Es in Hv. apply in_app_iff in Hv. destruct Hv as [Hv|[<-|[]]]; [|lra]. eapply sorted_lower; eassumption.
  - right. eapply sorted_upper; eassumption.
Qed.

(** Every threshold in a fitted classification or regression tree lies half-way between two neighbouring values
    that its feature takes among the rows that reach the node. *)
Theorem C23_thresholds :
  (forall c P nf seen X y labels (t : dtree R R (list nat * nat)) p i l r f th g,
    matrix nf X -> length y = length X -> classifier_fit c P nf seen X y = Ok (labels, t) ->
    node_at t p = Node i l r -> n_split i = Some (f, th, g) ->
    half_way (rows_at Rltb t p (combine X y)) f th) /\
  (forall c stdev P nf X y (t : dtree R R R) p i l r f th g,
    matrix nf X -> length y = length X -> regressor_fit c stdev P nf X y = Ok t ->
    node_at t p = Node i l r -> n_split i = Some (f, th, g) ->
    half_way (rows_at Rltb t p (combine X y)) f th).
Proof.
  split.
  - intros c P nf seen X y labels t p i l r f th g HM Hl E Hp Hs. unfold classifier_fit in E.
    destruct (fit_labels Rltb seen X y) as [labels'| | |]; try discriminate. cbn [bind] in E.
    destruct (grow _ _ _ _ _ _ _ _ _ _) as [t'| | |] eqn:Eg; cbn [bind] in E; try discriminate. injection E as _ ->.
    destruct (C24_structure _ _ _ _ _ _ _ _ _ _ _ _ _ _ Rltb_order Rgtb_order HM Hl Eg) as (_ & H).
    specialize (H p i l r Hp). cbn zeta in H. rewrite Hs in H. destruct H as (_ & _ & stop & _ & _ & _ & _ & (_ & Hc & _) & _).
    now apply candidate_half_way.
  - intros c stdev P nf X y t p i l r f th g HM Hl E Hp Hs.
    destruct (C24_structure _ _ _ _ _ _ _ _ _ _ _ _ _ _ Rltb_order Rgtb_order HM Hl E) as (_ & H).
    specialize (H p i l r Hp). cbn zeta in H. rewrite Hs in H. destruct H as (_ & _ & stop & _ & _ & _ & _ & (_ & Hc & _) & _).
    now apply candidate_half_way.
Qed.
Print Assumptions C23_thresholds.
(** Three rows with the labels 0, 0 and 1 are split between the second and the third. *)
Example C23_thresholds_case : exists labels t i l r g,
  classifier_fit Gini (Params 2%nat 0%nat 0%nat 0) 1 [] [[1];[2];[5]] [0;0;1] = Ok (labels, t) /\
  node_at t [] = Node i l r /\ n_split i = Some (0%nat, 7 / 2, g) /\ half_way (combine [[1];[2];[5]] [0;0;1]) 0 (7 / 2).
Proof.
  pose proof (three_fit 1 2 5 ltac:(lra) ltac:(lra)) as E.
  replace (Rmid 2 5) with (7 / 2) in E by (unfold Rmid; field).
  do 6 eexists. split; [exact E|]. split; [reflexivity|]. split; [reflexivity|].
  exists 2, 5. split; [exists ([2], 0); split; [simpl; auto|reflexivity]|]. split; [exists ([5], 1); split; [simpl; auto|reflexivity]|].
  split; [lra|]. split; [field|]. intros e v [<-|[<-|[<-|[]]]] Ev; cbn in Ev; injection Ev as <-; lra.
Qed.
