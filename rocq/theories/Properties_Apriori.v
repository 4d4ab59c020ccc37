(** Property theorems for [TransactionEncoder] and [Apriori] (C04-C08).
    Specification: [Apriori_Spec].  A database is a list of transactions (lists of items). *)
From Coq Require Import QArith Qround.
From Verif Require Import Base HashTree_Model Apriori_Model Apriori_Spec Apriori_Proofs
  AprioriLevels_Proofs AprioriRules_Proofs.
Local Open Scope nat_scope.

(** The threshold of a run: floor(n * min_support). *)
Definition threshold (X : list (list Z)) (min_support : Q) : nat :=
  Z.to_nat (Qfloor (inject_Z (Z.of_nat (length X)) * min_support)).
Lemma threshold_ok X ms : support_of X ms = threshold X ms.
Proof. destruct ms as [p q]. reflexivity. Qed.

(** C04 *)
Theorem C04_transaction_encoding :
  forall X : list (list Z), exists items,
    StronglySorted Z.lt items /\ (forall x, In x items <-> exists t, In t X /\ In x t) /\
    sp_rows (encode X) = length X /\ sp_cols (encode X) = length items /\
    (* no coordinate is stored twice *)
    NoDup (map fst (sp_entries (encode X))) /\
    (* what is stored *)
    forall i c x, In (i, c, x) (sp_entries (encode X)) <->
      (exists t, nth_error X i = Some t /\ In x t) /\ nth_error items c = Some x.
Proof.
  exact (fun X => match encode_spec X with
    ex_intro _ items (conj H1 (conj H2 (conj H3 (conj H4 (conj H5 H6))))) =>
      ex_intro _ items (conj H3 (conj (fun x => iff_trans (H4 x) (in_concat X x)) (conj H1 (conj H2 (conj H5 H6))))) end).
Qed.
Print Assumptions C04_transaction_encoding.
Example C04_case : sp_entries (encode [[3;1;3];[2]]%Z) = [(0, 0, 1%Z); (0, 2, 3%Z); (1, 1, 2%Z)].
Proof. reflexivity. Qed.

(** C05: every recorded itemset carries its true support, at least the threshold. *)
Theorem C05_true_supports :
  forall X min_support min_confidence a, ordered_db X ->
    fit_transform min_support min_confidence apriori_new X = Ok a ->
    forall I n, In (I, n) (ap_freq a) ->
      n = support X I /\ threshold X min_support <= n /\ is_set I.
Proof.
  intros X ms mc a HX E I n Hin.
  destruct (proj1 (proj2 (fit_transform_freq _ _ HX E) I n) Hin) as ((H1 & H2 & H3 & H4) & ->).
  exact (conj eq_refl (conj H4 H1)).
Qed.
Print Assumptions C05_true_supports.
(** Without the precondition counts are wrong: {1,2} is contained in both transactions but
    recorded with 1. *)
Theorem C05_unordered_refuted :
  exists X ms mc a I n, fit_transform ms mc apriori_new X = Ok a /\
    In (I, n) (ap_freq a) /\ n <> support X I.
Proof.
  exists [[1;2];[2;1]]%Z, (1#2)%Q, (1#2)%Q.
  eexists; exists [1;2]%Z, 1. split; [vm_compute; reflexivity|].
  split; [vm_compute; auto|vm_compute; discriminate].
Qed.
Print Assumptions C05_unordered_refuted.

(** C06: exactly the frequent itemsets are recorded, each once. *)
Theorem C06_complete :
  forall X min_support min_confidence a, ordered_db X ->
    fit_transform min_support min_confidence apriori_new X = Ok a ->
    NoDup (map fst (ap_freq a)) /\
    forall I, In I (map fst (ap_freq a)) <-> frequent X (threshold X min_support) I.
Proof.
  intros X ms mc a HX E. destruct (fit_transform_freq _ _ HX E) as (H1 & H2).
  split; [exact H1|]. intros I. rewrite in_map_iff. split.
  - intros ((J & n) & <- & H). apply H2 in H. exact (proj1 H).
  - intros H. exists (I, support X I). split; [reflexivity|]. apply H2. split; [exact H|reflexivity].
Qed.
Print Assumptions C06_complete.
(** Without the precondition a frequent itemset can be missed. *)
Theorem C06_unordered_refuted :
  exists X ms mc a I, fit_transform ms mc apriori_new X = Ok a /\
    frequent X (threshold X ms) I /\ ~ In I (map fst (ap_freq a)).
Proof.
  exists [[2;3];[1;2]]%Z, (1#2)%Q, (1#2)%Q.
  eexists; exists [1;2]%Z. split; [vm_compute; reflexivity|]. split.
  - repeat split; try (vm_compute; lia); try discriminate; repeat constructor; lia || idtac.
  - vm_compute. intros [H|[H|[H|[H|[]]]]]; discriminate.
Qed.
Print Assumptions C06_unordered_refuted.

(** A database meeting the precondition on which mining reaches level three. *)
Example ordered_case : ordered_db [[1;2;3];[1;2;3];[2;3]]%Z.
Proof.
  split; [repeat constructor; lia|].
  assert (H : forall x, In x (concat [[1;2;3];[1;2;3];[2;3]]%Z) -> x = 1%Z \/ x = 2%Z \/ x = 3%Z)
    by (simpl; intuition).
  intros x y Hx Hy Hlt. apply H in Hx, Hy.
  destruct Hx as [->|[->| ->]], Hy as [->|[->| ->]]; try lia.
  - exists [], [2;3;1;2;3;2;3]%Z. simpl. intuition.
  - exists [], [2;3;1;2;3;2;3]%Z. simpl. intuition.
  - exists [1]%Z, [3;1;2;3;2;3]%Z. simpl. split; [reflexivity|]. intros [H1|[]]. discriminate.
Qed.
Example mining_case : exists a,
  fit_transform (2#3) (2#3) apriori_new [[1;2;3];[1;2;3];[2;3]]%Z = Ok a /\
  In ([1;2;3]%Z, 2) (ap_freq a) /\ length (ap_freq a) = 7 /\
  In ([2;3]%Z, [1]%Z, (2#3)%Q) (ap_rules a) /\ length (ap_rules a) = 12.
Proof. eexists. split; [vm_compute; reflexivity|]. vm_compute. intuition. Qed.

(** C07: the rules are exactly the splits of frequent itemsets with enough confidence, each
    once. *)
Theorem C07_rules :
  forall X min_support min_confidence a, ordered_db X ->
    fit_transform min_support min_confidence apriori_new X = Ok a ->
    NoDup (map fst (ap_rules a)) /\
    forall A B c, In (A, B, c) (ap_rules a) <->
      is_set A /\ is_set B /\ A <> [] /\ B <> [] /\ (forall x, In x A -> ~ In x B) /\
      exists I, frequent X (threshold X min_support) I /\ 0 < support X I /\
        (forall x, In x I <-> In x A \/ In x B) /\
        c = confidence X I A /\ (min_confidence <= c)%Q.
Proof. exact fit_transform_rules. Qed.
Print Assumptions C07_rules.
(** The hypotheses of C05, C06 and C07 hold for the run of [mining_case]. *)
Example C05_C06_C07_case : exists a,
  fit_transform (2#3) (2#3) apriori_new [[1;2;3];[1;2;3];[2;3]]%Z = Ok a /\
  (forall I n, In (I, n) (ap_freq a) ->
     n = support [[1;2;3];[1;2;3];[2;3]]%Z I /\ threshold [[1;2;3];[1;2;3];[2;3]]%Z (2#3) <= n /\ is_set I) /\
  NoDup (map fst (ap_freq a)) /\ NoDup (map fst (ap_rules a)).
Proof.
  destruct mining_case as (a & E & _). exists a. split; [exact E|].
  split; [exact (C05_true_supports _ _ _ _ ordered_case E)|].
  split; [exact (proj1 (C06_complete _ _ _ _ ordered_case E))|exact (proj1 (C07_rules _ _ _ _ ordered_case E))].
Qed.

(** C08: termination and exceptions.  On every database, after any earlier use of the object, mining
    ends: it returns, or raises [std::runtime_error] (exactly when no single item reaches the
    threshold), or [std::invalid_argument]; it never loops or reads out of bounds. *)
Theorem C08_always_ends :
  forall min_support min_confidence a X,
    (exists a', fit_transform min_support min_confidence a X = Ok a') \/
    fit_transform min_support min_confidence a X = Throw RuntimeError \/
    fit_transform min_support min_confidence a X = Throw InvalidArgument.
Proof.
  intros ms mc a X.
  destruct (fit_transform_outcome ms mc a X) as [(E & _)|[(E & _)|(a' & r & E & _)]]; eauto.
Qed.
Print Assumptions C08_always_ends.
Theorem C08_no_frequent_item :
  forall min_support min_confidence a X,
    fit_transform min_support min_confidence a X = Throw RuntimeError <->
    (forall x, In x (concat X) -> support X [x] < threshold X min_support).
Proof.
  intros ms mc a X. rewrite <- (threshold_ok X ms), <- (fit_data_no_item X (support_of X ms) (ap_freq a)).
  destruct (fit_transform_outcome ms mc a X) as [(E & E2)|[(E & E2)|(a' & r & E & E2)]];
    rewrite E, E2; split; intros; congruence.
Qed.
Print Assumptions C08_no_frequent_item.
(** On ordered databases, exactly when mining completes: some size has exactly one frequent itemset. *)
Theorem C08_completes_iff :
  forall min_support min_confidence a X, ordered_db X ->
    (exists a', fit_transform min_support min_confidence a X = Ok a') <->
    exists k I, 0 < k /\ frequent X (threshold X min_support) I /\ length I = k /\
      forall J, frequent X (threshold X min_support) J -> length J = k -> J = I.
Proof.
  intros ms mc a X HX. pose proof (fit_Ok_iff (support_of X ms) HX (ap_freq a)) as H.
  destruct (fit_transform_outcome ms mc a X) as [(E & E2)|[(E & E2)|(a' & r & E & E2)]];
    rewrite E2 in H; rewrite E.
  - split; [intros (? & ?); discriminate|]. intros Hu. apply H in Hu. destruct Hu as (? & ?). discriminate.
  - split; [intros (? & ?); discriminate|]. intros Hu. apply H in Hu. destruct Hu as (? & ?). discriminate.
  - split; intros _; [apply H; eauto|eauto].
Qed.
Print Assumptions C08_completes_iff.
Example C08_completes_case : exists a,
  fit_transform (2#3) (2#3) apriori_new [[1;2;3];[1;2;3];[2;3]]%Z = Ok a.
Proof. eexists. vm_compute. reflexivity. Qed.
Example C08_completes_iff_case := C08_completes_iff (2#3) (2#3) apriori_new _ ordered_case.
(** ... and exactly when it raises although itemsets were found: at least two frequent itemsets of
    some size and none of the next. *)
Theorem C08_raises_iff :
  forall min_support min_confidence a X, ordered_db X ->
    fit_transform min_support min_confidence a X = Throw InvalidArgument <->
    exists k I J, I <> J /\ frequent X (threshold X min_support) I /\ length I = k /\
      frequent X (threshold X min_support) J /\ length J = k /\
      forall K, frequent X (threshold X min_support) K -> length K <> S k.
Proof.
  intros ms mc a X HX. pose proof (fit_Throw_iff (support_of X ms) HX (ap_freq a)) as H.
  destruct (fit_transform_outcome ms mc a X) as [(E & E2)|[(E & E2)|(a' & r & E & E2)]];
    rewrite E2 in H; rewrite E.
  - split; [discriminate|]. intros Hu. apply H in Hu. discriminate.
  - split; intros _; [now apply H|reflexivity].
  - split; [discriminate|]. intros Hu. apply H in Hu. discriminate.
Qed.
Print Assumptions C08_raises_iff.
Example C08_raises_iff_case := C08_raises_iff (2#3) (2#3) apriori_new _ ordered_case.
(** One database for each of the three outcomes. *)
Example C08_raises_case :
  fit_transform (1#1) (1#2) apriori_new [[1;2];[1];[2]]%Z = Throw RuntimeError /\
  fit_transform (1#2) (1#2) apriori_new [[1];[2]]%Z = Throw InvalidArgument /\
  exists a, fit_transform (1#2) (1#2) apriori_new [[1;2];[1]]%Z = Ok a.
Proof. split; [reflexivity|]. split; [reflexivity|]. eexists. vm_compute. reflexivity. Qed.
