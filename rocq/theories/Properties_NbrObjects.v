(** C66 for the neighbour-search objects: the name of the distance, the solver, the default arguments. *)
From Coq Require Import Reals Lra String.
From Verif Require Import Base KDTree_Model KDTree_Spec KDReal_Proofs Properties_KDTree Stats_Model Knn_Model Properties_Knn NbrObjects_Model.
Local Open Scope R_scope.
Local Open Scope string_scope.

Definition names_metric (name : string) (m : metric) : Prop :=
  match m with Manhattan => name = "manhattan" | Euclidean => name = "euclidean" | Chebyshev => name = "chebyshev" end.
Definition known_metric (name : string) : Prop := exists m, names_metric name m.

Lemma named mem name m : names_metric name m -> metric_of_ord (kd_ord mem name) = Some m.
Proof. destruct m; cbn; intros ->; reflexivity. Qed.
Lemma unnamed mem name : ~ known_metric name -> kd_ord mem name = mem.
Proof.
  intros H. unfold kd_ord. destruct (String.eqb_spec name "manhattan") as [->|]; [destruct H; now exists Manhattan|].
  destruct (String.eqb_spec name "euclidean") as [->|]; [destruct H; now exists Euclidean|].
  destruct (String.eqb_spec name "chebyshev") as [->|]; [destruct H; now exists Chebyshev|reflexivity].
Qed.

(** A known name selects its distance, whatever the memory; the one-argument constructor is leaf size 10 with the Euclidean distance. *)
Theorem C66_kdtree : forall mem name m pick leaf_size nf data nodes queries k, names_metric name m -> real_build leaf_size nf data = Ok nodes ->
  kd_object_query mem name pick leaf_size nf data queries k = real_query m pick nodes queries k.
Proof. intros. unfold kd_object_query. rewrite H0. cbn [bind]. now rewrite (named _ _ _ H). Qed.
Print Assumptions C66_kdtree.
Example C66_kdtree_case : exists nodes, kd_object_query 7 "euclidean" (fun _ => 0%nat) 5 2 wide [[11; 2]; [50; 50]] 3 = real_query Euclidean (fun _ => 0%nat) nodes [[11; 2]; [50; 50]] 3.
Proof. destruct C10_case as (nodes & _ & E & _). exists nodes. now apply C66_kdtree. Qed.
Theorem C66_kdtree_default : forall mem pick nf data queries k,
  kd_default_query pick nf data queries k = kd_object_query mem "euclidean" pick 10 nf data queries k.
Proof. reflexivity. Qed.
Print Assumptions C66_kdtree_default.

(** The shape of the root: a branch whose boxes have one bound per feature. *)
Lemma bounds_length (f : list R -> option R) nf (data : list (list R)) (v : list R) : bounds f nf data = Ok v -> length v = nf.
Proof. unfold bounds. intros H. apply mapM_length in H. now rewrite seq_length in H. Qed.
Lemma vset_length' {A} (v : list A) i a v' : vset v i a = Ok v' -> length v' = length v.
Proof.
  unfold vset. destruct (Nat.ltb_spec i (length v)); [|discriminate]. intros E. apply (f_equal (fun o => match o with Ok w => length w | _ => 0%nat end)) in E.
  cbn beta iota in E. rewrite <- E, app_length, firstn_length. change (length (a :: skipn (S i) v)) with (S (length (skipn (S i) v))). rewrite skipn_length. lia.
Qed.
Definition branch_root (nf : nat) (nodes : list (node R)) : Prop :=
  exists root rest lo hi, nodes = root :: rest /\ nd_leaf root = None /\ nd_lrect root = Some (lo, hi) /\ length lo = nf /\ length hi = nf.
Lemma vset_branch nf nodes i parent b ptr nodes' : nth_error nodes i = Some parent -> branch_root nf nodes -> vset nodes i (set_child parent b ptr) = Ok nodes' ->
  branch_root nf nodes'.
Proof.
  intros Hp (root & rest & lo & hi & -> & H1 & H2 & H3 & H4). unfold vset. destruct (Nat.ltb_spec i (length (root :: rest))); [|discriminate].
  intros E. injection E as <-. destruct i as [|i]; cbn [firstn app].
  - cbn in Hp. injection Hp as <-. exists (set_child root b ptr), (skipn 1 (root :: rest)), lo, hi. split; [reflexivity|]. unfold set_child. destruct b; auto.
  - exists root, (firstn i rest ++ set_child parent b ptr :: skipn (S i) rest)%list, lo, hi. auto.
Qed.
Lemma app_branch nf nodes l : branch_root nf nodes -> branch_root nf (nodes ++ l)%list.
Proof. intros (root & rest & lo & hi & -> & H). exists root, (rest ++ l)%list, lo, hi. now split. Qed.
Lemma loop_branch leaf_size nf : forall fuel stk nodes nodes', branch_root nf nodes ->
  build_loop Rltb Rminus Rabs fuel leaf_size nf stk nodes = Ok nodes' -> branch_root nf nodes'.
Proof.
  induction fuel as [|fuel IH]; intros stk nodes nodes' HB; cbn [build_loop]; [discriminate|]. destruct stk as [|it stk]; [intros E; now injection E as <-|].
  destruct (nth_error nodes (it_parent it)) as [p|] eqn:Ep; [|discriminate].
  destruct (vset nodes (it_parent it) _) as [t1| | |] eqn:E1; try discriminate. cbn [bind]. pose proof (vset_branch _ _ _ _ _ _ _ Ep HB E1) as HB1.
  destruct (Datatypes.length (it_data it) <=? leaf_size)%nat; [intros E; eapply IH; [|exact E]; now apply app_branch|].
  destruct (split_rows _ _ _ _ _ _) as [(((axis, val), d'), i')| | |]; try discriminate. cbn [bind].
  destruct (if it_left it then nd_lrect p else nd_rrect p) as [(lo, hi)|]; [|discriminate].
  destruct (vset hi axis val); try discriminate. cbn [bind]. destruct (vset lo axis val); try discriminate. cbn [bind].
  intros E. eapply IH; [|exact E]. now apply app_branch.
Qed.
Lemma build_branch leaf_size nf data nodes : real_build leaf_size nf data = Ok nodes -> branch_root nf nodes.
Proof.
  unfold real_build, build_tree. destruct data as [|r data]; [discriminate|]. set (X := r :: data).
  destruct (bounds (col_min Rltb) nf X) as [lo| | |] eqn:El; try discriminate. cbn [bind].
  destruct (bounds (col_max Rltb) nf X) as [hi| | |] eqn:Eh; try discriminate. cbn [bind].
  destruct (split_rows _ _ _ _ _ _) as [(((axis, val), d'), i')| | |]; try discriminate. cbn [bind].
  destruct (vset hi 0 val) as [hi'| | |] eqn:Eh'; try discriminate. cbn [bind]. destruct (vset lo 0 val) as [lo'| | |] eqn:El'; try discriminate. cbn [bind].
  apply loop_branch. do 4 eexists. split; [reflexivity|]. split; [reflexivity|]. split; [reflexivity|].
  rewrite (vset_length' _ _ _ _ Eh'), (bounds_length _ _ _ _ El), (bounds_length _ _ _ _ Eh). now split.
Qed.

(** Any other name is accepted by the constructor; the first query then uses whatever the memory held: one of the three distances if it held 1, 2 or -1,
    an exception otherwise. *)
Theorem C66_kdtree_metric_refuted : forall name, ~ known_metric name ->
  (forall m pick leaf_size nf data queries k name', names_metric name' m ->
     kd_object_query (match m with Manhattan => 1 | Euclidean => 2 | Chebyshev => -1 end)%Z name pick leaf_size nf data queries k =
     kd_object_query 0 name' pick leaf_size nf data queries k) /\
  (forall mem pick leaf_size nf data queries k, mem <> 1%Z -> mem <> 2%Z -> mem <> (-1)%Z ->
     is_matrix nf queries -> queries <> [] -> (1 <= k)%nat ->
     (exists nodes, real_build leaf_size nf data = Ok nodes) ->
     kd_object_query mem name pick leaf_size nf data queries k = Throw InvalidArgument) /\
  (exists leaf_size nf data queries k pick ans, kd_object_query 1 name pick leaf_size nf data queries k = Ok ans /\
     kd_object_query 0 name pick leaf_size nf data queries k = Throw InvalidArgument).
Proof.
  intros name Hn.
  assert (HT : forall mem pick leaf_size nf data queries k, mem <> 1%Z -> mem <> 2%Z -> mem <> (-1)%Z ->
     is_matrix nf queries -> queries <> [] -> (1 <= k)%nat -> (exists nodes, real_build leaf_size nf data = Ok nodes) ->
     kd_object_query mem name pick leaf_size nf data queries k = Throw InvalidArgument).
  { intros mem pick ls nf data qs k M1 M2 M3 Hq Hne Hk (nodes & E). unfold kd_object_query. rewrite E. cbn [bind]. rewrite (unnamed _ _ Hn).
    unfold metric_of_ord. destruct (Z.eqb_spec mem 2); [easy|]. destruct (Z.eqb_spec mem 1); [easy|]. destruct (Z.eqb_spec mem (-1)); [easy|].
    destruct qs as [|q qs]; [easy|]. cbn [mapM]. destruct (build_branch _ _ _ _ E) as (root & rest & lo & hi & -> & H1 & H2 & H3 & H4).
    unfold kd_bad_query at 1. rewrite H1, H2, H3, H4, (Hq q (or_introl eq_refl)), Nat.leb_refl. destruct k; [lia|reflexivity]. }
  split; [|split].
  - intros m pick ls nf data qs k name' H. unfold kd_object_query. rewrite (named _ _ _ H), (unnamed _ _ Hn). destruct m; reflexivity.
  - intros; now apply HT.
  - destruct wide_ok as (H1 & H2 & H3).
    assert (HQ : is_matrix 2 [[11; 2]]) by (intros r [<-|[]]; reflexivity).
    assert (HB : exists nodes, real_build 5 2 wide = Ok nodes) by (apply (proj2 (C09_defined 5 2 wide H1)); rewrite H3; lia).
    destruct HB as (nodes & EB).
    destruct (C10_completes Manhattan (fun _ => 0%nat) 5 2 wide nodes [[11; 2]] 2 H1 H2 EB HQ) as (ans & EA); try rewrite H3; try lia.
    exists 5%nat, 2%nat, wide, [[11; 2]], 2%nat, (fun _ => 0%nat), ans. split; [|apply HT; [discriminate|discriminate|discriminate|exact HQ|discriminate|lia|now exists nodes]].
    unfold kd_object_query. rewrite EB. cbn [bind]. rewrite (unnamed _ _ Hn). exact EA.
Qed.
Print Assumptions C66_kdtree_metric_refuted.

(** With the tree solver and a known distance the classifier is the one of C52. *)
Theorem C66_knn : forall brute mem leaf_size k name m pick nf X y queries, names_metric name m ->
  knn_object_predict brute mem (knn_new leaf_size k "kdtree" name) pick nf X y queries = knn_predict m pick leaf_size nf X y k queries.
Proof.
  intros brute mem ls k name m pick nf X y qs H. unfold knn_object_predict, knn_predict, kd_object_query. cbn [kn_solver knn_new kn_metric kn_leaf_size kn_neighbours String.eqb Ascii.eqb Bool.eqb].
  destruct (real_build ls nf X); try reflexivity. cbn [bind]. now rewrite (named _ _ _ H).
Qed.
Print Assumptions C66_knn.
(** An unknown solver is accepted: every prediction is an empty vector, without an error. *)
Theorem C66_knn_solver_refuted : forall solver, solver <> "kdtree" -> solver <> "brute" -> forall brute mem leaf_size k name pick nf X y queries,
  knn_object_predict brute mem (knn_new leaf_size k solver name) pick nf X y queries = Ok [] /\
  knn_unfitted_predict brute (knn_new leaf_size k solver name) = Ok [].
Proof.
  intros solver N1 N2 brute mem ls k name pick nf X y qs. unfold knn_object_predict, knn_unfitted_predict. cbn [kn_solver knn_new].
  destruct (String.eqb_spec solver "kdtree"); [easy|]. destruct (String.eqb_spec solver "brute"); [easy|]. now split.
Qed.
Print Assumptions C66_knn_solver_refuted.
(** The object the default constructor builds (15 neighbours) never returns a prediction, for no data and no queries; nor does an unfitted one. *)
Theorem C66_knn_default_refuted : forall brute mem pick nf X y queries labels,
  knn_object_predict brute mem knn_default pick nf X y queries <> Ok labels /\ knn_unfitted_predict brute knn_default = UB.
Proof.
  intros. split; [|reflexivity]. change knn_default with (knn_new 10 15 "kdtree" "euclidean"). rewrite (C66_knn _ _ _ _ _ Euclidean) by reflexivity.
  now apply C52_many_neighbours_refuted.
Qed.
Print Assumptions C66_knn_default_refuted.
Example C66_knn_case : exists label, knn_object_predict UB 7 (knn_new 5 1 "kdtree" "euclidean") (fun _ => 0%nat) 2 wide [0; 0; 0; 1; 1; 1] [[11; 2]; [50; 50]] = Ok [label].
Proof. destruct knn_case as (l & E). exists l. now rewrite (C66_knn _ _ _ _ _ Euclidean). Qed.
