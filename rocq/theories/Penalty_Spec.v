(** C81: what the theorems about the strength of the penalty are stated with. *)
From Coq Require Import Reals.
From Verif Require Import Base Impurity_Spec Vec Linear_Spec.
Local Open Scope R_scope.
Set Implicit Arguments.

(** What the coefficients [w] predict for the rows of [X]. *)
Definition predictions (intercept : bool) (w : list R) (X : list (list R)) : list R := map (linear_fun intercept w) X.
(** [a] times one list of labels plus [b] times another. *)
Definition mixed (a b : R) (y y' : list R) : list R := vadd (vscale a y) (vscale b y').
(** Column [j] times the labels, summed over the samples. *)
Definition column_labels (j : nat) (X : list (list R)) (y : list R) : R := total (map (fun p => nth j (fst p) 0 * snd p) (combine X y)).
