(** The determinant. *)
From Coq Require Import Reals.
From Verif Require Import Base Impurity_Spec Stats_Spec.
Local Open Scope R_scope.
Set Implicit Arguments.

(** Laplace expansion along the first column of the matrix with entries [f i j]: the sum over the rows i of
    (-1)^i times the entry times the determinant of what is left without row i and the first column. *)
Definition skip (i a : nat) : nat := if (a <? i)%nat then a else S a.
Fixpoint laplace (d : nat) (f : nat -> nat -> R) : R :=
  match d with
  | O => 1
  | S d' => total (map (fun i => (-1) ^ i * f i 0%nat * laplace d' (fun a b => f (skip i a) (S b))) (seq 0 d))
  end.
(** The determinant of a [d] x [d] matrix given by its rows. *)
Definition det (d : nat) (A : list (list R)) : R := laplace d (entry A).
