(** C82: nearest-neighbour classification with the "brute" solver, read by its evident meaning. *)
From Coq Require Import Reals String Lia Lra Permutation.
From Verif Require Import Base KDReal_Proofs Stats_Model Loss_Model Knn_Model NbrObjects_Model Brute_Model Brute_Proofs.
Local Open Scope R_scope.

(** The claim "the prediction is the most frequent label among the k nearest samples" fails for every training set and every query: the
    count to beat starts as the largest [std::size_t], so no label wins and -1 is returned.  [order] is any traversal of the hash map. *)
Theorem C82_vote_refuted : forall order mem leaf_size k metric pick nf X y queries,
  (forall l, Permutation l (order l)) -> (metric = "euclidean"%string \/ metric = "manhattan"%string) ->
  (forall x q, In x X -> In q queries -> length q = length x) -> length y = length X -> (k <= length X)%nat -> (Z.of_nat (length X) < 2 ^ 64)%Z ->
  knn_fit_predict order mem (knn_new leaf_size k "brute" metric) pick nf X y queries = Ok (repeat (-1) (length queries)).
Proof.
  intros order mem leaf_size k metric pick nf X y queries P H W Ly K B. unfold knn_fit_predict, knn_object_predict, brute_predict. cbn [knn_new kn_solver kn_metric kn_neighbours String.eqb Ascii.eqb Bool.eqb].
  apply mapM_repeat. intros q Hq. apply brute_force_value; auto. lia.
Qed.
Print Assumptions C82_vote_refuted.
(** So unless -1 is a label, no sample is ever given the label of a training sample. *)
Theorem C82_never_a_label : forall order mem leaf_size k metric pick nf X y queries p,
  (forall l, Permutation l (order l)) -> (metric = "euclidean"%string \/ metric = "manhattan"%string) ->
  (forall x q, In x X -> In q queries -> length q = length x) -> length y = length X -> (k <= length X)%nat -> (Z.of_nat (length X) < 2 ^ 64)%Z -> ~ In (-1) y ->
  knn_fit_predict order mem (knn_new leaf_size k "brute" metric) pick nf X y queries = Ok p -> forall a, In a p -> ~ In a y.
Proof.
  intros order mem leaf_size k metric pick nf X y queries p P H W Ly K B N E a Ha I. rewrite C82_vote_refuted in E by auto. injection E as <-. apply repeat_spec in Ha. now subst a.
Qed.
Print Assumptions C82_never_a_label.
(** Errors: fewer samples than neighbours; another name for the metric, also "chebyshev", which the tree knows; a query of another length. *)
Theorem C82_few_samples : forall order mem leaf_size k metric pick nf X y q queries,
  (metric = "euclidean"%string \/ metric = "manhattan"%string) -> (forall x, In x X -> length q = length x) -> length y = length X -> (length X < k)%nat ->
  knn_fit_predict order mem (knn_new leaf_size k "brute" metric) pick nf X y (q :: queries) = Throw OutOfRange.
Proof.
  intros order mem leaf_size k metric pick nf X y q queries H W Ly K. unfold knn_fit_predict, knn_object_predict, brute_predict.
  cbn [knn_new kn_solver kn_metric kn_neighbours String.eqb Ascii.eqb Bool.eqb mapM]. rewrite brute_force_few by (auto; lia). reflexivity.
Qed.
Print Assumptions C82_few_samples.
Theorem C82_metric : forall order mem leaf_size k metric pick nf X y q queries,
  metric <> "euclidean"%string -> metric <> "manhattan"%string -> X <> [] -> length y = length X ->
  knn_fit_predict order mem (knn_new leaf_size k "brute" metric) pick nf X y (q :: queries) = Throw InvalidArgument.
Proof.
  intros order mem leaf_size k metric pick nf X y q queries H H' N Ly. unfold knn_fit_predict, knn_object_predict, brute_predict.
  cbn [knn_new kn_solver kn_metric kn_neighbours String.eqb Ascii.eqb Bool.eqb mapM]. destruct X as [|x X]; [congruence|]. destruct y as [|b y]; [discriminate Ly|].
  rewrite brute_force_metric by auto. reflexivity.
Qed.
Print Assumptions C82_metric.
Theorem C82_width_refuted : forall order mem leaf_size k metric pick nf x X b y q queries,
  (metric = "euclidean"%string \/ metric = "manhattan"%string) -> length q <> length x ->
  knn_fit_predict order mem (knn_new leaf_size k "brute" metric) pick nf (x :: X) (b :: y) (q :: queries) = UB.
Proof.
  intros order mem leaf_size k metric pick nf x X b y q queries H L. unfold knn_fit_predict, knn_object_predict, brute_predict.
  cbn [knn_new kn_solver kn_metric kn_neighbours String.eqb Ascii.eqb Bool.eqb mapM]. rewrite brute_force_width by auto. reflexivity.
Qed.
Print Assumptions C82_width_refuted.
Lemma two_points : forall x q, In x [[0; 0]; [3; 4]] -> In q [[0; 0]; [1; 1]; [3; 4]] -> length q = length x.
Proof. intros x q [<-|[<-|[]]] [<-|[<-|[<-|[]]]]; reflexivity. Qed.
(** Two samples, labels 0 and 1, asked about themselves. *)
Example C82_case : knn_fit_predict (fun l => l) 2 (knn_new 10 1 "brute" "euclidean") (fun _ => 0%nat) 2 [[0; 0]; [3; 4]] [0; 1] [[0; 0]; [1; 1]; [3; 4]] = Ok [-1; -1; -1].
Proof. apply (C82_vote_refuted (fun l => l) 2 10 1 "euclidean" (fun _ => 0%nat) 2 [[0; 0]; [3; 4]] [0; 1] [[0; 0]; [1; 1]; [3; 4]]); auto; [apply two_points|cbn; lia|reflexivity]. Qed.
Example C82_few_case : knn_fit_predict (fun l => l) 2 (knn_new 10 3 "brute" "manhattan") (fun _ => 0%nat) 2 [[0; 0]; [3; 4]] [0; 1] [[0; 0]] = Throw OutOfRange.
Proof. apply C82_few_samples; auto. intros x Hx. apply two_points; auto. now left. Qed.
Example C82_metric_case : knn_fit_predict (fun l => l) 2 (knn_new 10 1 "brute" "chebyshev") (fun _ => 0%nat) 2 [[0; 0]; [3; 4]] [0; 1] [[0; 0]] = Throw InvalidArgument.
Proof. apply C82_metric; auto; discriminate. Qed.
