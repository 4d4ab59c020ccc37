(** The same data with the features in another order. *)
From Coq Require Import Reals.
From Verif Require Import Base Vec.
Local Open Scope R_scope.
Set Implicit Arguments.

(** [s] lists every one of the columns 0 .. d-1 once. *)
Definition column_order (d : nat) (s : list nat) : Prop := Permutation (seq 0 d) s.
(** The entries of [v] in the order [s]. *)
Definition reorder {A} (dflt : A) (s : list nat) (v : list A) : list A := map (fun j => nth j v dflt) s.
(** The columns of the matrix [X] in the order [s]. *)
Definition reorder_columns (s : list nat) (X : list (list R)) : list (list R) := map (reorder 0 s) X.
(** [v'] is the vector [v] of [d] entries in the order [s]. *)
Definition reordered (d : nat) (s : list nat) (v v' : list R) : Prop := length v = d /\ v' = reorder 0 s v.
(** With an intercept, which stays last. *)
Definition keep_last (intercept : bool) (d : nat) (s : list nat) : list nat := if intercept then s ++ [d] else s.
(** A result that may be missing. *)
Definition reordered_option (d : nat) (s : list nat) (a b : option (list R)) : Prop :=
  match a, b with None, None => True | Some w, Some w' => reordered d s w w' | _, _ => False end.
(** A matrix whose [d] rows belong to the features. *)
Definition reordered_rows (d : nat) (s : list nat) (W W' : list (list R)) : Prop := length W = d /\ W' = reorder [] s W.
