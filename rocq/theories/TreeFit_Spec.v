(** How well predictions fit the data, and when two inputs end in the same leaf. *)
From Coq Require Import Reals.
From Verif Require Import Base Tree_Model Tree_Spec KDReal_Proofs Impurity_Spec.
Set Implicit Arguments.

(** [x] and [x'] satisfy the same comparisons on the way to every node of the tree. *)
Definition same_leaf {I V} (t : dtree R I V) (x x' : list R) : Prop :=
  forall p, node_at t p <> Null -> follows Rltb t p x = follows Rltb t p x'.
(** Number of positions where two lists agree. *)
Definition hits (a y : list R) : nat := length (filter (fun p => if Req_EM_T (fst p) (snd p) then true else false) (combine a y)).
(** Sum of the squared differences. *)
Definition squared_errors (a y : list R) : R := total (map (fun p => (fst p - snd p) * (fst p - snd p))%R (combine a y)).
