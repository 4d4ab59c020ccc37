(** Model of [methods/neighbors/k_nearest_neighbors.hpp] with the kdtree solver, over the reals.  The brute solver does
    not compile ([X.row()], [X.rows(i)] and [sample] do not exist) and is not modelled here: the header is read as if that function were
    removed; [Brute_Model] has its evident meaning.  [NbrObjects_Model] has the constructors and the choice of solver. *)
From Coq Require Import Reals.
From Verif Require Import Base KDTree_Model KDTree_Spec KDReal_Proofs Stats_Model.
Local Open Scope R_scope.

(** k_nearest_neighbors.hpp:118-122: [y_(neighbor_indice.row(i), all)]; an index past the labels violates an assertion. *)
Definition neighbour_labels (y : list R) (ans : list (option R * nat)) : outcome (list R) := mapM (fun e => vget y (snd e)) ans.

(** k_nearest_neighbors.hpp:95-139.  [mode] over axis 0 is a matrix of one row and k columns; assigning it to a column
    vector violates an assertion unless k = 1. *)
Definition knn_predict (m : metric) (pick : _) (leaf_size nf : nat) (X : list (list R)) (y : list R) (k : nat) (queries : list (list R))
  : outcome (list R) :=
  let! nodes := real_build leaf_size nf X in
  let! ans := real_query m pick nodes queries k in
  let! pred_indice := mapM (neighbour_labels y) ans in
  let! r := mode Reqb Rltb 0 k pred_indice 0 in
  if (length r =? 1)%nat then Ok (map fst r) else UB.
