(** Doubles of moderate size, on which sums of squares cannot overflow, and nearest rows by the distances computed on doubles. *)
From Coq Require Import Reals.
From Flocq Require Import Core BinarySingleNaN.
From Verif Require Import Base KDTree_Spec Round_Spec Double_Spec.
Local Open Scope R_scope.

(** The real number a finite double stands for. *)
Definition value (x : double) : R := B2R x.
(** Finite, and at most 2^480 in absolute value. *)
Definition moderate (x : double) : Prop := finite x /\ Rabs (value x) <= bpow radix2 480.
(** operator== *)
Definition deq (a b : double) : bool := Beqb a b.
Definition dgreater (a b : double) : double := if dlt a b then b else a.
(** The distances as they are computed, in the order of addition that is used for that many columns. *)
Definition dmetric_norm (ord : nat -> order) (m : metric) (v : list double) : double :=
  match m with
  | Manhattan => dsum ord (map dabs v)
  | Euclidean => dsqrt (dsum ord (map (fun x => dmul x x) v))
  | Chebyshev => fold_right dgreater zero (map dabs v)
  end.
Definition ddistance (ord : nat -> order) (m : metric) (x y : list double) : double :=
  dmetric_norm ord m (map (fun p => dsub (fst p) (snd p)) (combine x y)).
(** [ans] lists [k] rows of [data], by distance and row number, nearest first, and no other row is nearer to [q] than one listed. *)
Definition dnearest (dist : list double -> list double -> double) (data : list (list double)) (q : list double) (k : nat) (ans : list (double * nat)) : Prop :=
  length ans = k /\ NoDup (map snd ans) /\
  (forall d i, In (d, i) ans -> exists r, nth_error data i = Some r /\ deq d (dist r q) = true) /\
  StronglySorted (fun a b => dle a b = true) (map fst ans) /\
  (forall i r, nth_error data i = Some r -> ~ In i (map snd ans) -> forall d, In d (map fst ans) -> dle d (dist r q) = true).
(** [ans] lists rows within the radius, each at most once, and all that are nearer. *)
Definition dwithin (dist : list double -> list double -> double) (data : list (list double)) (q : list double) (radius : double) (ans : list (double * nat)) : Prop :=
  NoDup (map snd ans) /\
  (forall d i, In (d, i) ans -> exists r, nth_error data i = Some r /\ deq d (dist r q) = true /\ dle d radius = true) /\
  (forall i r, nth_error data i = Some r -> dlt (dist r q) radius = true -> In i (map snd ans)).
(** The rows as rows of real numbers. *)
Definition values (X : list (list double)) : list (list R) := map (map value) X.
