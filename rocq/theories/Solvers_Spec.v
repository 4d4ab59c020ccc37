(** C79: what it means for two solvers to do the same. *)
From Coq Require Import Reals.
From Verif Require Import Base.
Local Open Scope R_scope.
Set Implicit Arguments.

(** What is left of a result when only a part of it is looked at; failures stay what they are. *)
Definition seen {A B} (f : A -> B) (o : outcome A) : outcome B :=
  match o with Ok a => Ok (f a) | Throw e => Throw e | UB => UB | Fuel => Fuel end.
(** The same schedule with every rate multiplied by [c]. *)
Definition scaled_rates (c : R) (decay : nat -> outcome R) (epoch : nat) : outcome R := seen (Rmult c) (decay epoch).
