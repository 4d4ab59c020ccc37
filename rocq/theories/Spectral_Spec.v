(** C83: what is said about the Laplacian. *)
From Coq Require Import Reals.
From Verif Require Import Base Impurity_Spec Vec Stats_Spec.
Local Open Scope R_scope.

(** Column [i] of the data. *)
Definition feature (X : list (list R)) (i : nat) : list R := map (fun r => nth i r 0) X.
(** How alike two vectors are: 1 if equal, less with the distance. *)
Definition alike (gamma : R) (u v : list R) : R := exp (- (sqn (vsub u v) / (2 * gamma ^ 2))).
(** [v . L v] for a matrix of [n] rows and columns. *)
Definition form (n : nat) (L : list (list R)) (v : nat -> R) : R :=
  total (map (fun i => total (map (fun j => v i * entry L i j * v j) (seq 0 n))) (seq 0 n)).
