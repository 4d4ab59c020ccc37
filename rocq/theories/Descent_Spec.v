(** When descent along the gradient is safe: a function between its tangent planes and parabolas over them. *)
From Coq Require Import Reals.
From Verif Require Import Base Impurity_Spec Vec.
Local Open Scope R_scope.
Set Implicit Arguments.

(** [g] is the slope at [w] of a function that lies above its tangents and below parabolas of curvature [L]. *)
Definition tangent (F : list R -> R) (L : R) (w g : list R) : Prop :=
  length g = length w /\ forall v, length v = length w ->
    F w + dot g (vsub v w) <= F v <= F w + dot g (vsub v w) + L / 2 * sqn (vsub v w).

(** Sum of the squares of all entries of the data. *)
Definition sum_squares (X : list (list R)) : R := total (map sqn X).
(** Bounds on the curvature of the mean squared error and of the logistic loss. *)
Definition mse_curvature (lambda : R) (X : list (list R)) : R := (sum_squares X + lambda) / INR (length X).
Definition log_curvature (lambda : R) (X : list (list R)) : R := (sum_squares X / 4 + lambda) / INR (length X).
