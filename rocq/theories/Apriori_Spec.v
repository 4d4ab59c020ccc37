(** Frequent itemsets and association rules, without any algorithm. *)
From Coq Require Import QArith.
From Verif Require Import Base.
Local Open Scope nat_scope.

(** An itemset is a set of items written in ascending order. *)
Definition is_set (I : list Z) : Prop := StronglySorted Z.lt I.

(** [transaction_has I t]: the transaction contains every item of [I]. *)
Definition transaction_has (I t : list Z) : bool := forallb (fun x => existsb (Z.eqb x) t) I.
Definition support (X : list (list Z)) (I : list Z) : nat := length (filter (transaction_has I) X).

(** [I] is a non-empty set of occurring items contained in at least [s] transactions. *)
Definition frequent (X : list (list Z)) (s : nat) (I : list Z) : Prop :=
  is_set I /\ I <> [] /\ incl I (concat X) /\ s <= support X I.

(** [x] appears (for the first time) in [l] before [y] does. *)
Definition appears_before (l : list Z) (x y : Z) : Prop :=
  exists l1 l2, l = l1 ++ x :: l2 /\ ~ In y l1.

(** The ordering precondition: transactions are ascending without repetition, and smaller items
    appear first in the database. *)
Definition ordered_db (X : list (list Z)) : Prop :=
  Forall is_set X /\
  forall x y, In x (concat X) -> In y (concat X) -> (x < y)%Z -> appears_before (concat X) x y.

(** Confidence of A => B for the itemset I = A + B. *)
Definition confidence (X : list (list Z)) (I A : list Z) : Q :=
  (Z.of_nat (support X I) # Pos.of_nat (support X A))%Q.
