(** [laplace_matrix] of [methods/cluster/spectral_clustering.hpp] over the reals.  The header does not compile; this function is modelled by
    its evident meaning, [X.cols(j)] read as [X.col(j)].  Nothing in the class calls it. *)
From Coq Require Import Reals.
From Verif Require Import Base Impurity_Model Vec.
Local Open Scope R_scope.

(** spectral_clustering.hpp:41: [X.col(i)]; a column past the last violates an assertion. *)
Definition laplace_column (num_cols : nat) (X : list (list R)) (i : nat) : outcome (list R) :=
  if (i <? num_cols)%nat then Ok (map (fun r => nth i r 0) X) else UB.
(** spectral_clustering.hpp:41.  A [gamma] of 0 divides by 0, which is not modelled. *)
Definition affinity (gamma : R) (u v : list R) : R := exp (Rsum (map (fun a => a ^ 2) (vsub u v)) / (-2 * gamma * gamma)).
(** spectral_clustering.hpp:39-45: [j] starts at [i], and both entries are written. *)
Definition affinity_matrix (gamma : R) (cs : list (list R)) : list (list R) :=
  let n := length cs in
  map (fun i => map (fun j => affinity gamma (nth (Nat.min i j) cs []) (nth (Nat.max i j) cs [])) (seq 0 n)) (seq 0 n).
(** spectral_clustering.hpp:36-49: [num_rows] pairs of columns are read, although X has [num_cols] columns. *)
Definition laplace_matrix (gamma : R) (num_cols : nat) (X : list (list R)) : outcome (list (list R)) :=
  let num_rows := length X in
  let! cs := mapM (laplace_column num_cols X) (seq 0 num_rows) in
  let W := affinity_matrix gamma cs in
  let D := map (fun j => Rsum (map (fun r => nth j r 0) W)) (seq 0 num_rows) in
  Ok (map (fun i => map (fun j => (if (i =? j)%nat then nth i D 0 else 0) - nth j (nth i W []) 0) (seq 0 num_rows)) (seq 0 num_rows)).
