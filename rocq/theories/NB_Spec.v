(** What the naive Bayes theorems are stated with. *)
From Coq Require Import Reals.
From Verif Require Import Base Impurity_Spec Vec Stats_Spec.
Local Open Scope R_scope.
Set Implicit Arguments.

(** The rows of [X] that carry the label [l], in order. *)
Fixpoint rows_with (l : R) (X : list (list R)) (y : list R) : list (list R) :=
  match X, y with
  | x :: X', a :: y' => if Req_EM_T a l then x :: rows_with l X' y' else rows_with l X' y'
  | _, _ => []
  end.
(** Weights divided by their sum. *)
Definition normalise (w : list R) : list R := map (fun a => a / total w) w.
Definition product (l : list R) : R := fold_right Rmult 1 l.
(** The density at [x] of the normal distribution with mean [m] and variance [v]. *)
Definition normal_density (m v x : R) : R := / sqrt (2 * PI * v) * exp (- (x - m) ^ 2 / (2 * v)).
(** Independent normal features: means [ms], variances [vs]. *)
Definition normal_likelihood (nf : nat) (ms vs x : list R) : R :=
  product (map (fun j => normal_density (nth j ms 0) (nth j vs 0) (nth j x 0)) (seq 0 nf)).
(** The smoothed share of feature [j] in the rows [rs]. *)
Definition smoothed_share (alpha : R) (nf : nat) (rs : list (list R)) (j : nat) : R :=
  (total (col j rs) + alpha) / (total (map (fun k => total (col k rs)) (seq 0 nf)) + alpha * INR nf).
(** The multinomial likelihood of the counts [x] up to the coefficient that does not depend on the class. *)
Definition multinomial_likelihood (nf : nat) (theta : nat -> R) (x : list R) : R :=
  product (map (fun j => Rpower (theta j) (nth j x 0)) (seq 0 nf)).
(** Position [k] holds the largest value of [w], and no earlier position does. *)
Definition first_largest (w : list R) (k : nat) : Prop :=
  (k < length w)%nat /\ (forall j, (j < length w)%nat -> nth j w 0 <= nth k w 0) /\ (forall j, (j < k)%nat -> nth j w 0 < nth k w 0).
