(** The remaining parts of the KD-tree on IEEE doubles: the norms by name of the metric and radius queries. *)
From Flocq Require Import Core BinarySingleNaN.
From Verif Require Import Base KDTree_Model KDTree_Spec Round_Spec Double_Spec Double_Model.
Set Implicit Arguments.

(** metric.hpp:84-117. [lpNorm<Infinity>]: [cwiseAbs().maxCoeff()], 0 for no entries. *)
Definition dnorm_max (v : list double) : double := fold_right (fun a b => if dlt a b then b else a) zero (map dabs v).
(** metric.hpp:84-117 and kd_tree.hpp:374-389: the norm of a difference for the chosen metric. *)
Definition dlp_norm (ord : nat -> order) (m : metric) (v : list double) : double :=
  match m with Manhattan => dnorm1 ord v | Euclidean => dnorm ord v | Chebyshev => dnorm_max v end.
(** kd_tree.hpp:329-371 on doubles; [d <= radius] is taken as [not (radius < d)], the same for numbers. *)
Definition dquery_radius (ord : nat -> order) (m : metric) := query_radius_single dlt dsub (dlp_norm ord m).
