(** What a KD-tree over real data must do, without reference to how it works.
    A data set is a list of rows; a row is a list of [nf] coordinates. *)
From Coq Require Import Reals List.
From Verif Require Import Base KDTree_Model.
Import ListNotations.
Local Open Scope R_scope.

(** The three metrics of the constructor (kd_tree.hpp:376-388). *)
Inductive metric := Manhattan | Euclidean | Chebyshev.
Definition sum (v : list R) : R := fold_right Rplus 0 v.
(** The norms [lpNorm<1>], [lpNorm<2>], [lpNorm<Infinity>]. *)
Definition norm_of (m : metric) (v : list R) : R :=
  match m with
  | Manhattan => sum (map Rabs v)
  | Euclidean => sqrt (sum (map Rsqr v))
  | Chebyshev => fold_right Rmax 0 (map Rabs v)
  end.
Definition dist (m : metric) (x y : list R) : R := norm_of m (map (fun p => fst p - snd p) (combine x y)).

Definition is_matrix (nf : nat) (data : list (list R)) : Prop := forall r, In r data -> length r = nf.

(** Column [j], and its spread: greatest minus least value. *)
Definition column (j : nat) (data : list (list R)) : list R := map (fun r => nth j r 0) data.
Definition spread (c : list R) (s : R) : Prop :=
  exists lo hi, In lo c /\ In hi c /\ (forall x, In x c -> lo <= x <= hi) /\ s = hi - lo.
(** No column is spread wider than column 0. *)
Definition first_column_widest (nf : nat) (data : list (list R)) : Prop :=
  forall j s0 sj, (j < nf)%nat -> spread (column 0 data) s0 -> spread (column j data) sj -> sj <= s0.

(** Abstract binary trees with boxes (lower corner, upper corner) for both children, and the rows
    with their numbers in the leaves. *)
Inductive bsp (T : Type) :=
| Leaf (rows : list (list T * nat))
| Cut (lbox rbox : list T * list T) (l r : bsp T).
Arguments Leaf {T}. Arguments Cut {T}.
Fixpoint rows_below {T} (t : bsp T) : list (list T * nat) :=
  match t with Leaf rs => rs | Cut _ _ l r => rows_below l ++ rows_below r end.
Fixpoint node_count {T} (t : bsp T) : nat :=
  match t with Leaf _ => 1 | Cut _ _ l r => S (node_count l + node_count r) end.
Fixpoint leaf_sizes {T} (t : bsp T) : list nat :=
  match t with Leaf rs => [length rs] | Cut _ _ l r => leaf_sizes l ++ leaf_sizes r end.

(** Node number [i] of the node vector is the root of [t], following the child numbers. *)
Inductive tree_at {T} (nodes : list (node T)) : nat -> bsp T -> Prop :=
| at_leaf i nd d idx : nth_error nodes i = Some nd -> nd_leaf nd = Some (d, idx) -> length d = length idx ->
    tree_at nodes i (Leaf (combine d idx))
| at_cut i nd a b lb rb l r : nth_error nodes i = Some nd -> nd_leaf nd = None ->
    nd_left nd = Some a -> nd_right nd = Some b -> nd_lrect nd = Some lb -> nd_rrect nd = Some rb ->
    tree_at nodes a l -> tree_at nodes b r -> tree_at nodes i (Cut lb rb l r).

(** Every cut separates: some coordinate is at most [v] on the left and at least [v] on the right. *)
Fixpoint separated (nf : nat) (t : bsp R) : Prop :=
  match t with
  | Leaf _ => True
  | Cut _ _ l r =>
      (exists j v, (j < nf)%nat /\ (forall p, In p (rows_below l) -> nth j (fst p) 0 <= v) /\
                   (forall p, In p (rows_below r) -> v <= nth j (fst p) 0)) /\
      separated nf l /\ separated nf r
  end.
Definition in_box (nf : nat) (r : list R) (b : list R * list R) : Prop :=
  forall j, (j < nf)%nat -> nth j (fst b) 0 <= nth j r 0 <= nth j (snd b) 0.
(** Every box contains the rows of its child. *)
Fixpoint boxed (nf : nat) (t : bsp R) : Prop :=
  match t with
  | Leaf _ => True
  | Cut lb rb l r =>
      (forall p, In p (rows_below l) -> in_box nf (fst p) lb) /\
      (forall p, In p (rows_below r) -> in_box nf (fst p) rb) /\ boxed nf l /\ boxed nf r
  end.

(** [ans] lists [k] rows of [data], by distance and row number, nearest first, and no other row is
    nearer to [q] than one listed. *)
Definition k_nearest (m : metric) (data : list (list R)) (q : list R) (k : nat) (ans : list (R * nat)) : Prop :=
  length ans = k /\ NoDup (map snd ans) /\
  (forall d i, In (d, i) ans -> exists r, nth_error data i = Some r /\ d = dist m r q) /\
  StronglySorted Rle (map fst ans) /\
  (forall i r, nth_error data i = Some r -> ~ In i (map snd ans) -> forall d, In d (map fst ans) -> d <= dist m r q).

(** [ans] lists rows within the radius, each at most once ([sound]); and every row nearer than
    the radius ([complete_inside]). *)
Definition radius_sound (m : metric) (data : list (list R)) (q : list R) (radius : R) (ans : list (R * nat)) : Prop :=
  NoDup (map snd ans) /\
  forall d i, In (d, i) ans -> exists r, nth_error data i = Some r /\ d = dist m r q /\ d <= radius.
Definition radius_complete_inside (m : metric) (data : list (list R)) (q : list R) (radius : R) (ans : list (R * nat)) : Prop :=
  forall i r, nth_error data i = Some r -> dist m r q < radius -> In i (map snd ans).
(** The full property: rows at exactly the radius too. *)
Definition radius_complete (m : metric) (data : list (list R)) (q : list R) (radius : R) (ans : list (R * nat)) : Prop :=
  forall i r, nth_error data i = Some r -> dist m r q <= radius -> In i (map snd ans).
