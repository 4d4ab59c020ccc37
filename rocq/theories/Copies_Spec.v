(** A data set in which every labelled row occurs several times. *)
From Verif Require Import Base RowOrder_Spec.
Set Implicit Arguments.

(** [k] copies of [l], one after the other. *)
Definition copies {A} (k : nat) (l : list A) : list A := concat (repeat l k).

(** [X'], [y'] hold every labelled row of [X], [y] [k] times as often, in any order. *)
Definition repeated {A B} (k : nat) (X : list A) (y : list B) (X' : list A) (y' : list B) : Prop :=
  0 < k /\ length y = length X /\ same_rows (copies k X) (copies k y) X' y'.
