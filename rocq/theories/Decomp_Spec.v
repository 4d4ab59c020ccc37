(** What the theorems about matrix decompositions are stated with. *)
From Coq Require Import Reals.
From Verif Require Import Base Impurity_Spec Vec Stats_Spec.
Local Open Scope R_scope.
Set Implicit Arguments.

(** Vectors of [d] entries, of length 1 and orthogonal to each other. *)
Definition orthonormal (d : nat) (vs : list (list R)) : Prop :=
  width d vs /\
  forall i j, (i < length vs)%nat -> (j < length vs)%nat -> dot (nth i vs []) (nth j vs []) = if (i =? j)%nat then 1 else 0.

(** A = U diag(s) V^T, for a [nr] x [nc] matrix A given by its rows and U, V given by their columns; these are
    orthonormal, and the singular values are not negative and in decreasing order.  This is what Eigen documents of its
    JacobiSVD and BDCSVD, with thin ([full = false]) or full factors. *)
Definition is_svd (full : bool) (nr nc : nat) (A : list (list R)) (f : list (list R) * list R * list (list R)) : Prop :=
  let '(U, s, V) := f in
  length s = Nat.min nr nc /\
  length U = (if full then nr else Nat.min nr nc) /\ length V = (if full then nc else Nat.min nr nc) /\
  orthonormal nr U /\ orthonormal nc V /\
  (forall j, (j < length s)%nat -> 0 <= nth j s 0) /\
  (forall i j, (i <= j)%nat -> (j < length s)%nat -> nth j s 0 <= nth i s 0) /\
  (forall i k, (i < nr)%nat -> (k < nc)%nat ->
    entry A i k = total (map (fun j => nth j s 0 * nth i (nth j U []) 0 * nth k (nth j V []) 0) (seq 0 (length s)))).

(** The matrix times a vector. *)
Definition apply (A : list (list R)) (w : list R) : list R := map (fun r => dot r w) A.
(** The combination sum c_j v_j. *)
Definition comb (d : nat) (c : nat -> R) (vs : list (list R)) : list R :=
  vsum d (map (fun j => vscale (c j) (nth j vs [])) (seq 0 (length vs))).

(** The data minus the mean of each column. *)
Definition deviations (d : nat) (X : list (list R)) : list (list R) := map (fun r => vsub r (map avg (cols_of d X))) X.
(** The sum of the squared lengths of the projections of the rows on [w]. *)
Definition energy (X : list (list R)) (w : list R) : R := total (map (fun r => dot r w ^ 2) X).
Definition sample_variance (v : list R) : R := total (map (fun a => (a - avg v) ^ 2) v) / (INR (length v) - 1).
(** The variance of the data: the sum of the variances of the features. *)
Definition total_variance (d : nat) (X : list (list R)) : R := total (map sample_variance (cols_of d X)).
(** The sample covariance of features [i] and [j]. *)
Definition sample_cov (X : list (list R)) (i j : nat) : R :=
  total (map (fun r => (nth i r 0 - avg (col i X)) * (nth j r 0 - avg (col j X))) X) / (INR (length X) - 1).

(** [t] are the coordinates of the point of the span of [vs] closest to [x]. *)
Definition closest_coordinates (d : nat) (vs : list (list R)) (x t : list R) : Prop :=
  length t = length vs /\
  forall c, length c = length vs ->
    sqn (vsub x (comb d (fun j => nth j t 0) vs)) <= sqn (vsub x (comb d (fun j => nth j c 0) vs)) /\
    (sqn (vsub x (comb d (fun j => nth j c 0) vs)) <= sqn (vsub x (comb d (fun j => nth j t 0) vs)) -> c = t).

(** P is the Moore-Penrose inverse of the [nr] x [nc] matrix A. *)
Definition pseudo_inverse (nr nc : nat) (A P : list (list R)) : Prop :=
  shape nc nr P /\
  (forall w, length w = nc -> apply A (apply P (apply A w)) = apply A w) /\
  (forall z, length z = nr -> apply P (apply A (apply P z)) = apply P z) /\
  (forall z z', length z = nr -> length z' = nr -> dot (apply A (apply P z)) z' = dot z (apply A (apply P z'))) /\
  (forall w w', length w = nc -> length w' = nc -> dot (apply P (apply A w)) w' = dot w (apply P (apply A w'))).
