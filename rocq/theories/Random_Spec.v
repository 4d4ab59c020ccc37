(** What is expected of the random orders of [core/math/random.hpp] and [core/math/shuffle.hpp]. *)
From Verif Require Import Base.
Set Implicit Arguments.

(** An engine that hands out the numbers of a given list: every run of a shuffle is the run of such an engine. *)
Definition scripted (ds : list nat) (i : nat) : nat * list nat := (hd 0 ds, tl ds).

(** The draws a shuffle of n elements needs: one number from 0..1, one from 0..2, ..., one from 0..n-1; there are n! such
    sequences and a uniform distribution gives each the same probability. *)
Definition draws_for (n : nat) (ds : list nat) : Prop :=
  length ds = n - 1 /\ forall i d, nth_error ds i = Some d -> d <= S i.
