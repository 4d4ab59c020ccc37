(** Terms used to state how fast coordinate descent approaches the best weights. *)
From Coq Require Import Reals.
From Verif Require Import Base Impurity_Spec Vec Loss_Spec Optim_Spec.
Local Open Scope R_scope.

(** The sum of the squares of feature [j]. *)
Definition column_squares (j : nat) (X : list (list R)) : R := total (map (fun x => nth j x 0 * nth j x 0) X).

(** What the lasso minimises: half the mean squared error plus [lambda] times the sum of the absolute coefficients. *)
Definition lasso_objective (lambda : R) (X : list (list R)) (y : list R) (w : list R) : R := mse_loss 0 X y w + lambda * norm1 w.

(** What logistic regression with the "l1" penalty minimises. *)
Definition log_objective (l2 l1 : R) (X : list (list R)) (y : list R) (w : list R) : R := log_loss l2 X y w + l1 * norm1 w.
