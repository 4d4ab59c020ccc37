(** The neighbour-search objects: which distance a name selects, and which solver.  [mem] is the memory the [KDTree] is constructed in. *)
From Coq Require Import Reals String.
From Verif Require Import Base KDTree_Model KDTree_Spec KDReal_Proofs Stats_Model Knn_Model.
Local Open Scope string_scope.

(** kd_tree.hpp:374-389: [ord_] keeps its memory for any other name; [Eigen::Infinity] is -1. *)
Definition kd_ord (mem : Z) (name : string) : Z :=
  if String.eqb name "manhattan" then 1%Z else if String.eqb name "euclidean" then 2%Z else if String.eqb name "chebyshev" then (-1)%Z else mem.
(** metric.hpp:98-116 and common.hpp:902-921 *)
Definition metric_of_ord (ord : Z) : option metric :=
  if (ord =? 2)%Z then Some Euclidean else if (ord =? 1)%Z then Some Manhattan else if (ord =? -1)%Z then Some Chebyshev else None.
(** One query with an [ord_] that is none of the three.  The root is visited first and has no leaf data (kd_tree.hpp:124-127), so line 310 reads the
    top of the heap, 241-248 clamp, and metric.hpp:99-104 throws; were it a leaf, lines 267-274 would index an empty matrix. *)
Definition kd_bad_query (nodes : list (node R)) (k : nat) (q : list R) : outcome (list (option R * nat)) :=
  match nodes with
  | [] => Throw OutOfRange
  | root :: _ =>
      match nd_leaf root, nd_lrect root with
      | None, Some (lo, hi) => if ((0 <? k) && (length q <=? length lo) && (length q <=? length hi))%nat%bool then Throw InvalidArgument else UB
      | _, _ => UB
      end
  end.
(** kd_tree.hpp:374-389, 403-424 *)
Definition kd_object_query (mem : Z) (name : string) (pick : nat -> nat) (leaf_size nf : nat) (data queries : list (list R)) (k : nat)
  : outcome (list (list (option R * nat))) :=
  let! nodes := real_build leaf_size nf data in
  match metric_of_ord (kd_ord mem name) with
  | Some m => real_query m pick nodes queries k
  | None => mapM (kd_bad_query nodes k) queries
  end.
(** kd_tree.hpp:391-395 *)
Definition kd_default_query (pick : nat -> nat) (nf : nat) (data queries : list (list R)) (k : nat) : outcome (list (list (option R * nat))) :=
  kd_object_query 2 "euclidean" pick 10 nf data queries k.

(** k_nearest_neighbors.hpp:22-29 *)
Record knn := Knn { kn_leaf_size : nat; kn_neighbours : nat; kn_solver : string; kn_metric : string }.
(** k_nearest_neighbors.hpp:80-83 *)
Definition knn_default : knn := Knn 10 15 "kdtree" "euclidean".
(** k_nearest_neighbors.hpp:86-92 *)
Definition knn_new (leaf_size num_neighbors : nat) (solver metric : string) : knn := Knn leaf_size num_neighbors solver metric.
(** k_nearest_neighbors.hpp:95-139: [fit] followed by [predict].  [brute] stands for the solver that does not compile. *)
Definition knn_object_predict (brute : outcome (list R)) (mem : Z) (o : knn) (pick : nat -> nat) (nf : nat) (X : list (list R)) (y : list R)
  (queries : list (list R)) : outcome (list R) :=
  if String.eqb (kn_solver o) "kdtree" then
    let! ans := kd_object_query mem (kn_metric o) pick (kn_leaf_size o) nf X queries (kn_neighbours o) in
    let! pred_indice := mapM (neighbour_labels y) ans in
    let! r := mode Reqb Rltb 0%R (kn_neighbours o) pred_indice 0 in
    if (length r =? 1)%nat then Ok (map fst r) else UB
  else if String.eqb (kn_solver o) "brute" then brute
  else Ok [].
(** [predict] without [fit]: the null tree is dereferenced (k_nearest_neighbors.hpp:116). *)
Definition knn_unfitted_predict (brute : outcome (list R)) (o : knn) : outcome (list R) :=
  if String.eqb (kn_solver o) "kdtree" then UB else if String.eqb (kn_solver o) "brute" then brute else Ok [].
