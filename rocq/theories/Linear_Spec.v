(** What the theorems about linear models are stated with. *)
From Coq Require Import Reals.
From Verif Require Import Base Impurity_Spec Vec.
Local Open Scope R_scope.
Set Implicit Arguments.

(** The decision function x.w, or x.w + b where b is the last coefficient. *)
Definition linear_fun (intercept : bool) (w x : list R) : R :=
  if intercept then dot x (removelast w) + last w 0 else dot x w.
(** How many coefficients a model of [d] features has. *)
Definition n_coef (intercept : bool) (d : nat) : nat := if intercept then (d + 1)%nat else d.
(** The sum of the squared residuals, and with a penalty on all coefficients. *)
Definition rss (intercept : bool) (X : list (list R)) (y : list R) (w : list R) : R :=
  total (map (fun p => (snd p - linear_fun intercept w (fst p)) ^ 2) (combine X y)).
Definition penalised_rss (lambda : R) (intercept : bool) (X : list (list R)) (y : list R) (w : list R) : R :=
  rss intercept X y w + lambda * sqn w.
(** [w] is the only vector of [n] entries at which [F] is smallest. *)
Definition unique_minimum (n : nat) (F : list R -> R) (w : list R) : Prop :=
  length w = n /\ forall v, length v = n -> F w <= F v /\ (F v <= F w -> v = w).
(** No non-zero coefficients make the decision function vanish on all samples: the columns are independent. *)
Definition independent (intercept : bool) (d : nat) (X : list (list R)) : Prop :=
  forall w, length w = n_coef intercept d -> (forall x, In x X -> linear_fun intercept w x = 0) -> w = zeros (n_coef intercept d).
