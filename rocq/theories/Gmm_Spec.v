(** What the theorems about Cholesky factors and Gaussian mixtures are stated with. *)
From Coq Require Import Reals.
From Verif Require Import Base Impurity_Spec Vec Stats_Spec Decomp_Spec Det_Spec.
Local Open Scope R_scope.
Set Implicit Arguments.

Definition symmetric (d : nat) (A : list (list R)) : Prop := forall i j, (i < d)%nat -> (j < d)%nat -> entry A i j = entry A j i.
Definition positive_definite (d : nat) (A : list (list R)) : Prop :=
  shape d d A /\ symmetric d A /\ forall z, length z = d -> (exists a, In a z /\ a <> 0) -> 0 < dot z (apply A z).
Definition inverse_of (d : nat) (A B : list (list R)) : Prop :=
  shape d d B /\ forall z, length z = d -> apply A (apply B z) = z /\ apply B (apply A z) = z.
(** The density at [x] of the normal distribution with mean [mu] and covariance [A], the inverse of which is [B]. *)
Definition gaussian (d : nat) (mu : list R) (A B : list (list R)) (x : list R) : R :=
  exp (- (1 / 2) * dot (vsub x mu) (apply B (vsub x mu))) / sqrt ((2 * PI) ^ d * det d A).

(** Responsibilities of K components for n samples: positive, with rows that add up to 1. *)
Definition responsibilities (n K : nat) (resp : list (list R)) : Prop :=
  shape n K resp /\ (forall r a, In r resp -> In a r -> 0 < a) /\ forall r, In r resp -> total r = 1.
(** The responsibility of all samples for component [k]. *)
Definition mass (resp : list (list R)) (k : nat) : R := total (map (fun i => entry resp i k) (seq 0 (length resp))).
(** The log density of a sample under a mixture. *)
Definition log_density (ws : list R) (gs : list (list R -> R)) (x : list R) : R := ln (total (map2 (fun w g => w * g x) ws gs)).
(** The sum of the squares of all the entries. *)
Definition frobenius (A : list (list R)) : R := total (map sqn A).
Definition trace (d : nat) (A : list (list R)) : R := total (map (fun i => entry A i i) (seq 0 d)).
(** The weight, mean and covariance of one component, estimated from the responsibilities of the samples for it.  The
    code adds [eps], ten times the epsilon of the number type, to the number of samples of the component, and [reg] to
    the variances. *)
Definition estimated (eps reg : R) (d : nat) (X resp : list (list R)) (k : nat) (w : R) (mu : list R) (A : list (list R)) : Prop :=
  let nk := mass resp k + eps in
  let n := length X in
  w = nk / INR n /\ length mu = d /\ shape d d A /\
  (forall j, (j < d)%nat -> nth j mu 0 = total (map (fun i => entry resp i k * entry X i j) (seq 0 n)) / nk) /\
  (forall a b, (a < d)%nat -> (b < d)%nat -> entry A a b =
    total (map (fun i => entry resp i k * (entry X i a - nth a mu 0) * (entry X i b - nth b mu 0)) (seq 0 n)) / nk + if (a =? b)%nat then reg else 0).
(** The mixture of K normal distributions: positive weights, positive definite covariances [As] and their inverses [Bs];
    the weighted densities of its components at a sample, the density of the mixture being their sum. *)
Definition mixture (K d : nat) (ws : list R) (mus : list (list R)) (As Bs : list (list (list R))) : Prop :=
  length ws = K /\ length mus = K /\ length As = K /\ length Bs = K /\
  forall k, (k < K)%nat -> 0 < nth k ws 0 /\ length (nth k mus []) = d /\ positive_definite d (nth k As []) /\ inverse_of d (nth k As []) (nth k Bs []).
Definition mixture_terms (K d : nat) (ws : list R) (mus : list (list R)) (As Bs : list (list (list R))) (x : list R) : list R :=
  map (fun k => nth k ws 0 * gaussian d (nth k mus []) (nth k As []) (nth k Bs []) x) (seq 0 K).
(** The random numbers drawn to initialise the responsibilities: from [0,1], none of the rows all 0. *)
Definition usable_draw (n K : nat) (draw : list (list R)) : Prop :=
  shape n K draw /\ (forall r a, In r draw -> In a r -> 0 <= a) /\ forall r, In r draw -> 0 < total r.
