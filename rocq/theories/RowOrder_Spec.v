(** The same labelled rows in another order. *)
From Verif Require Import Base.
Set Implicit Arguments.

(** [X'], [y'] hold the labelled rows of [X], [y], each as often, in any order. *)
Definition same_rows {A B} (X : list A) (y : list B) (X' : list A) (y' : list B) : Prop :=
  length y = length X /\ length y' = length X' /\ Permutation (combine X y) (combine X' y').
