(** The "brute" solver of [methods/neighbors/k_nearest_neighbors.hpp] over the reals.  [brute_force] does not compile; it is modelled by its
    evident meaning: [X.row()] is read as [X.rows()], [X.rows(i)] as [X.row(i)], and [sample] as the argument [samples]. *)
From Coq Require Import Reals String.
From Verif Require Import Base KDReal_Proofs Impurity_Model Vec MathFun_Model Stats_Model Loss_Model Knn_Model NbrObjects_Model.
Local Open Scope R_scope.

(** k_nearest_neighbors.hpp:42-53: the difference of two rows of different lengths violates an assertion. *)
Definition brute_distance (metric : string) (current sample : list R) : outcome R :=
  if String.eqb metric "euclidean" then let! d := sub current sample in Ok (sqrt (sqn d))
  else if String.eqb metric "manhattan" then let! d := sub current sample in Ok (Rsum (map Rabs d))
  else Throw InvalidArgument.
(** k_nearest_neighbors.hpp:37-55: [lookup_dist]; a row without a label violates an assertion. *)
Fixpoint lookup_dist (metric : string) (X : list (list R)) (y : list R) (sample : list R) : outcome (list (R * R)) :=
  match X with
  | [] => Ok []
  | x :: X' =>
      match y with
      | [] => UB
      | label :: y' =>
          let! distance := brute_distance metric x sample in
          let! rest := lookup_dist metric X' y' sample in
          Ok ((distance, label) :: rest)
      end
  end.
(** k_nearest_neighbors.hpp:56: [operator<] of pairs. *)
Definition pair_lt (a b : R * R) : bool := Rltb (fst a) (fst b) || (negb (Rltb (fst b) (fst a)) && Rltb (snd a) (snd b)).
(** k_nearest_neighbors.hpp:56: [std::sort]; neither of two pairs is less only if they are equal, so the result is determined. *)
Fixpoint insert_pair (e : R * R) (l : list (R * R)) : list (R * R) :=
  match l with
  | [] => [e]
  | a :: l' => if pair_lt a e then a :: insert_pair e l' else e :: l
  end.
(** k_nearest_neighbors.hpp:56 *)
Definition sort_pairs (l : list (R * R)) : list (R * R) := fold_right insert_pair [] l.
(** k_nearest_neighbors.hpp:57-60: [lookup_dist.at(i).second] for the first [k]. *)
Fixpoint first_labels (k : nat) (l : list (R * R)) : outcome (list R) :=
  match k with
  | O => Ok []
  | S k' => match l with [] => Throw OutOfRange | e :: l' => let! r := first_labels k' l' in Ok (snd e :: r) end
  end.
(** k_nearest_neighbors.hpp:61-64: [++frequency[neighbor]]. *)
Fixpoint count_label (a : R) (m : list (R * nat)) : list (R * nat) :=
  match m with
  | [] => [(a, 1%nat)]
  | (b, n) :: m' => if Reqb a b then (b, S n) :: m' else (b, n) :: count_label a m'
  end.
(** k_nearest_neighbors.hpp:61-64 *)
Definition label_counts (labels : list R) : list (R * nat) := fold_left (fun m a => count_label a m) labels [].
(** k_nearest_neighbors.hpp:65-67: [pred_label.second] is a [std::size_t], so [-1] is its largest value. *)
Definition vote_start : R * Z := (-1, (2 ^ 64 - 1)%Z).
(** k_nearest_neighbors.hpp:68-73 *)
Definition vote (s : R * Z) (kv : R * nat) : R * Z := if (snd s <? Z.of_nat (snd kv))%Z then (fst kv, Z.of_nat (snd kv)) else s.
(** k_nearest_neighbors.hpp:32-76.  [order] is the order in which the [unordered_map] is traversed. *)
Definition brute_force (order : list (R * nat) -> list (R * nat)) (metric : string) (k : nat) (X : list (list R)) (y sample : list R) : outcome R :=
  let! d := lookup_dist metric X y sample in
  let! neighbors := first_labels k (sort_pairs d) in
  Ok (fst (fold_left vote (order (label_counts neighbors)) vote_start)).
(** k_nearest_neighbors.hpp:130-137 *)
Definition brute_predict (order : list (R * nat) -> list (R * nat)) (o : knn) (X : list (list R)) (y : list R) (queries : list (list R)) : outcome (list R) :=
  mapM (brute_force order (kn_metric o) (kn_neighbours o) X y) queries.
(** k_nearest_neighbors.hpp:95-139: [fit] and [predict] with this solver. *)
Definition knn_fit_predict (order : list (R * nat) -> list (R * nat)) (mem : Z) (o : knn) (pick : nat -> nat) (nf : nat) (X : list (list R)) (y : list R)
  (queries : list (list R)) : outcome (list R) :=
  knn_object_predict (brute_predict order o X y queries) mem o pick nf X y queries.
