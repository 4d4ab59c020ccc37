(** What k-means must do: nearest centroids, means, objective. *)
From Coq Require Import Reals List.
From Verif Require Import Impurity_Spec.
Import ListNotations.
Local Open Scope R_scope.
Set Implicit Arguments.

(** Squared Euclidean distance of two rows. *)
Fixpoint sqdist (u v : list R) : R :=
  match u, v with a :: u', b :: v' => (a - b) ^ 2 + sqdist u' v' | _, _ => 0 end.

Definition rows (nf : nat) (X : list (list R)) : Prop := forall r, In r X -> length r = nf.

(** [k] is the first index of a centroid at minimal distance from [x]. *)
Definition first_nearest (C : list (list R)) (x : list R) (k : nat) : Prop :=
  exists c, nth_error C k = Some c /\
    forall j d, nth_error C j = Some d -> sqdist x c <= sqdist x d /\ ((j < k)%nat -> sqdist x c < sqdist x d).

(** Squared distance of [x] to its nearest centroid, and the sum over the samples. *)
Fixpoint nearest_cost (x c : list R) (C : list (list R)) : R :=
  match C with [] => sqdist x c | d :: C' => Rmin (sqdist x c) (nearest_cost x d C') end.
Definition cost (C : list (list R)) (x : list R) : R := match C with [] => 0 | c :: C' => nearest_cost x c C' end.
Definition objective (X C : list (list R)) : R := total (map (cost C) X).

(** [m] is the coordinate-wise mean of the rows [xs]. *)
Definition is_mean (nf : nat) (xs : list (list R)) (m : list R) : Prop :=
  length m = nf /\ forall j v, nth_error m j = Some v -> v = total (map (fun x => nth j x 0) xs) / INR (length xs).

(** [k] is the sample drawn by the number [r] in [0,1]: the first one at which the running sum of
    the costs reaches the fraction [r] of the objective. *)
Definition drawn (X C : list (list R)) (r : R) (k : nat) : Prop :=
  let costs := map (cost C) X in
  (k < length X)%nat /\ r * objective X C <= total (firstn (S k) costs) /\
  forall j, (j < k)%nat -> total (firstn (S j) costs) < r * objective X C.

(** A chain of [n] steps. *)
Inductive chain {A} (step : A -> A -> Prop) : nat -> A -> A -> Prop :=
| chain_0 a : chain step 0 a a
| chain_S n a b c : chain step n a b -> step b c -> chain step (S n) a c.
