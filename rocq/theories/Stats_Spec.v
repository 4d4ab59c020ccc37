(** Textbook definitions the statistics theorems are stated with. *)
From Coq Require Import Reals.
From Verif Require Import Base Impurity_Spec Vec.
Local Open Scope R_scope.
Set Implicit Arguments.

(** The matrix [x], given by its rows, is [nr] x [nc]. *)
Definition shape {T} (nr nc : nat) (x : list (list T)) : Prop := length x = nr /\ forall r, In r x -> length r = nc.
Definition entry (x : list (list R)) (i j : nat) : R := nth j (nth i x []) 0.
Definition col (j : nat) (x : list (list R)) : list R := map (fun r => nth j r 0) x.
Definition cols_of (nc : nat) (x : list (list R)) : list (list R) := map (fun j => col j x) (seq 0 nc).

Definition avg (v : list R) : R := total v / INR (length v).
Definition mean_sq_dev (v : list R) : R := avg (map (fun a => (a - avg v) ^ 2) v).

(** exp(a) / sum exp, and the logarithm of the sum of exponentials. *)
Definition softmax_of (v : list R) : list R := map (fun a => exp a / total (map exp v)) v.
Definition lse_of (v : list R) : R := ln (total (map exp v)).

(** At least half of the values are <= m and at least half are >= m. *)
Definition count_if (p : R -> bool) (v : list R) : nat := length (filter p v).
Definition is_median (v : list R) (m : R) : Prop :=
  (length v <= 2 * count_if (fun a => if Rle_dec a m then true else false) v)%nat /\
  (length v <= 2 * count_if (fun a => if Rle_dec m a then true else false) v)%nat.

(** A most frequent value with its number of occurrences. *)
Definition is_mode {T} (eq_dec : forall a b : T, {a = b} + {a <> b}) (v : list T) (m : T) (c : nat) : Prop :=
  count_occ eq_dec v m = c /\ (0 < c)%nat /\ forall e, (count_occ eq_dec v e <= c)%nat.

(** Distance functions of the metrics, on vectors of one size. *)
Definition d1 (u v : list R) : R := total (map Rabs (vsub u v)).
Definition d2 (u v : list R) : R := sqrt (total (map (fun a => a ^ 2) (vsub u v))).
Definition dinf (u v : list R) : R := fold_right Rmax 0 (map Rabs (vsub u v)).
Definition is_metric (n : nat) (d : list R -> list R -> R) : Prop :=
  (forall u v, length u = n -> length v = n -> 0 <= d u v) /\
  (forall u v, length u = n -> length v = n -> (d u v = 0 <-> u = v)) /\
  (forall u v, length u = n -> length v = n -> d u v = d v u) /\
  (forall u v w, length u = n -> length v = n -> length w = n -> d u w <= d u v + d v w).
