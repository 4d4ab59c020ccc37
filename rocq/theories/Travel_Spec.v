(** What it means that weights classify samples with labels -1 and 1. *)
From Coq Require Import Reals.
From Verif Require Import Base Vec.
Local Open Scope R_scope.

(** Every sample lies strictly on the side its label names. *)
Definition separates (w : list R) (X : list (list R)) (y : list R) : Prop := forall x b, In (x, b) (combine X y) -> 0 < b * dot x w.
(** Every sample lies on the side its label names, with score at least [m]. *)
Definition margin (m : R) (u : list R) (X : list (list R)) (y : list R) : Prop := forall x b, In (x, b) (combine X y) -> m <= b * dot x u.
