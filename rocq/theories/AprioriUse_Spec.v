(** C80: an [Apriori] object used several times. *)
From Coq Require Import QArith Qround.
From Verif Require Import Base Apriori_Model Apriori_Spec.
Local Open Scope nat_scope.

(** floor(n * min_support) *)
Definition needed (X : list (list Z)) (min_support : Q) : nat := Z.to_nat (Qfloor (inject_Z (Z.of_nat (length X)) * min_support)).
(** A database in which [I] is frequent and occurs. *)
Definition reports (min_support : Q) (X : list (list Z)) (I : list Z) : Prop := frequent X (needed X min_support) I /\ 0 < support X I.

(** [fits Xs a]: a new object has been given the databases [Xs], one after the other, and none of the calls failed. *)
Inductive fits (min_support min_confidence : Q) : list (list (list Z)) -> apriori -> Prop :=
| fits_new : fits min_support min_confidence [] apriori_new
| fits_next Xs a X a' : fits min_support min_confidence Xs a -> fit_transform min_support min_confidence a X = Ok a' -> fits min_support min_confidence (Xs ++ [X]) a'.

(** The support of [I] in the last of the databases that reports it. *)
Definition last_count (min_support : Q) (Xs : list (list (list Z))) (I : list Z) (n : nat) : Prop :=
  exists before X after, Xs = before ++ X :: after /\ reports min_support X I /\ n = support X I /\ forall Y, In Y after -> ~ reports min_support Y I.
