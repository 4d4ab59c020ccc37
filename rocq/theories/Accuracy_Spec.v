(** How far results computed on doubles may be from the exact ones. *)
From Coq Require Import Reals.
From Flocq Require Import Core.
From Verif Require Import Base KDTree_Spec Round_Spec.
Local Open Scope R_scope.

(** Half a unit in the last place of 1: 2^-53. *)
Definition ulp_half : R := bpow radix2 (-53).
(** [c] is [x] up to [p] relative errors of at most 2^-53. *)
Definition within_errors (p : nat) (c x : R) : Prop := (1 - ulp_half) ^ p * x <= c <= (1 + ulp_half) ^ p * x.
(** The number of relative errors in a distance of points with [nf] coordinates. *)
Definition distance_errors (m : metric) (nf : nat) : nat := match m with Manhattan => nf | Euclidean => nf + 3 | Chebyshev => 1 end.
(** Coordinates that differ, differ by at least 2^-500: their squares do not underflow. *)
Definition apart (x y : list R) : Prop := forall i, nth i x 0 = nth i y 0 \/ bpow radix2 (-500) <= Rabs (nth i x 0 - nth i y 0).
(** [nf] numbers of the format *)
Definition double_row (nf : nat) (x : list R) : Prop := length x = nf /\ Forall (representable binary64) x.
(** [ans] lists [k] rows of [data] by row number, with distances to [q] no greater than those of other rows up to [2 p] errors. *)
Definition almost_nearest (p : nat) (m : metric) (data : list (list R)) (q : list R) (k : nat) (ans : list nat) : Prop :=
  length ans = k /\ NoDup ans /\ (forall i, In i ans -> (i < length data)%nat) /\
  (forall i j r s, In i ans -> ~ In j ans -> nth_error data i = Some r -> nth_error data j = Some s ->
     (1 - ulp_half) ^ p * dist m r q <= (1 + ulp_half) ^ p * dist m s q).

(** The value of a linear model with weights [w] and intercept [b] on a row, and the sum of the sizes of its terms. *)
Definition linear_value (w : list R) (b : R) (r : list R) : R := sum (map (fun p => fst p * snd p) (combine r w)) + b.
Definition linear_size (w : list R) (b : R) (r : list R) : R := sum (map (fun p => Rabs (fst p * snd p)) (combine r w)) + Rabs b.
(** A bound of the error for [d] features: [d + 1] relative errors of every term, and underflow of the products. *)
Definition linear_error (d : nat) (w : list R) (b : R) (r : list R) : R :=
  ((1 + ulp_half) ^ S d - 1) * linear_size w b r + INR d * (1 + ulp_half) ^ d * bpow radix2 (-1075).
Definition mean_of (y : list R) : R := sum y / INR (length y).
Definition mean_error (y : list R) : R := ((1 + ulp_half) ^ length y - 1) * mean_of (map Rabs y) + bpow radix2 (-1075).
