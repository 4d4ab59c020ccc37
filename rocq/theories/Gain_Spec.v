(** What a split is worth, independently of the tree code. *)
From Coq Require Import Reals.
From Verif Require Import Base Impurity_Spec.
Local Open Scope R_scope.
Set Implicit Arguments.

(** The share of the rows that a side receives. *)
Definition share {A} (side all : list A) : R := INR (length side) / INR (length all).

(** Mean, sum of squared deviations from it, and variance. *)
Definition mean_of (y : list R) : R := total y / INR (length y).
Definition sse (y : list R) : R := total (map (fun a => (a - mean_of y) * (a - mean_of y)) y).
Definition variance_of (y : list R) : R := sse y / INR (length y).
(** The decrease of the variance: variance before minus the variances of the sides weighted by share. *)
Definition variance_decrease (y l r : list R) : R :=
  variance_of y - (share l y * variance_of l + share r y * variance_of r).
