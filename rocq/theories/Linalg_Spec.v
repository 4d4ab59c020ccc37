(** What the theorems about LU, QR and Cholesky factors are stated with. *)
From Coq Require Import Reals.
From Verif Require Import Base Impurity_Spec Vec Stats_Spec.
Local Open Scope R_scope.
Set Implicit Arguments.

(** The entry (i, j) of the product of two matrices, the first of which has [K] columns. *)
Definition product (K : nat) (A B : list (list R)) (i j : nat) : R := total (map (fun t => entry A i t * entry B t j) (seq 0 K)).
(** [A] = B * C, for a [nr] x [nc] matrix A and a matrix B of [K] columns. *)
Definition is_product (nr K nc : nat) (A B C : list (list R)) : Prop :=
  forall i j, (i < nr)%nat -> (j < nc)%nat -> entry A i j = product K B C i j.
Definition lower_triangular (nr nc : nat) (L : list (list R)) : Prop :=
  shape nr nc L /\ forall i j, (i < nr)%nat -> (j < nc)%nat -> (i < j)%nat -> entry L i j = 0.
Definition upper_triangular (nr nc : nat) (U : list (list R)) : Prop :=
  shape nr nc U /\ forall i j, (i < nr)%nat -> (j < nc)%nat -> (j < i)%nat -> entry U i j = 0.
(** Row i of the matrix is the unit vector [nth i p]. *)
Definition permutation_matrix (n : nat) (p : list nat) (P : list (list R)) : Prop :=
  Permutation p (seq 0 n) /\ shape n n P /\ forall i j, (i < n)%nat -> (j < n)%nat -> entry P i j = if (j =? nth i p 0)%nat then 1 else 0.
