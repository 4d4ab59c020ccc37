(** Arithmetic with rounding.  A rounding is any monotone odd function on the real numbers; [binary64] and [binary32] are
    the roundings to the nearest number of the formats double and float (without their upper limit: results that
    overflow are not covered). *)
From Coq Require Import Reals List.
From Flocq Require Import Core.
From Verif Require Import Base KDTree_Spec.
Import ListNotations.
Local Open Scope R_scope.

Definition rounding (rnd : R -> R) : Prop := (forall a b, a <= b -> rnd a <= rnd b) /\ (forall a, rnd (- a) = - rnd a).
Definition binary64 : R -> R := round radix2 (FLT_exp (-1074) 53) ZnearestE.
Definition binary32 : R -> R := round radix2 (FLT_exp (-149) 24) ZnearestE.
(** The numbers of the format. *)
Definition representable (rnd : R -> R) (a : R) : Prop := rnd a = a.

(** Rounding twice is rounding once, doubling a number of the format gives one, and 1 and 1/2 are numbers of it.  (There
    is no overflow: doubles are short of their largest number.) *)
Definition number_format (rnd : R -> R) : Prop :=
  rounding rnd /\ (forall a, representable rnd (rnd a)) /\ (forall a, representable rnd a -> representable rnd (2 * a)) /\
  representable rnd 1 /\ representable rnd (/ 2).
(** Integers up to [n] are numbers of the format. *)
Definition exact_integers (rnd : R -> R) (n : Z) : Prop := forall z, (Z.abs z <= n)%Z -> representable rnd (IZR z).
(** What is asked of the computed exponential: monotone, not negative, exact at 0, results in the format. *)
Definition computed_exp (rnd ex : R -> R) : Prop :=
  (forall a b, a <= b -> ex a <= ex b) /\ (forall a, 0 <= ex a) /\ ex 0 = 1 /\ (forall a, representable rnd (ex a)).

(** The order in which the entries of a vector are added up: a compiler may choose any. *)
Inductive order := Entry (i : nat) | Add (l r : order).
Fixpoint entries_of (s : order) : list nat := match s with Entry i => [i] | Add l r => entries_of l ++ entries_of r end.
Fixpoint add_up (rnd : R -> R) (s : order) (v : list R) : R :=
  match s with Entry i => nth i v 0 | Add l r => rnd (add_up rnd l v + add_up rnd r v) end.

(** The norms and distances as they are computed: every operation but absolute value and maximum is rounded. *)
Definition computed_norm (rnd : R -> R) (s : order) (m : metric) (v : list R) : R :=
  match m with
  | Manhattan => add_up rnd s (map Rabs v)
  | Euclidean => rnd (sqrt (add_up rnd s (map (fun x => rnd (x * x)) v)))
  | Chebyshev => fold_right Rmax 0 (map Rabs v)
  end.
Definition computed_dist (rnd : R -> R) (s : order) (m : metric) (x y : list R) : R :=
  computed_norm rnd s m (map (fun p => rnd (fst p - snd p)) (combine x y)).

(** [ans] lists [k] rows of [data], by distance and row number, nearest first, and no other row is
    nearer to [q] than one listed, for a given notion of distance. *)
Definition nearest_by (dist : list R -> list R -> R) (data : list (list R)) (q : list R) (k : nat) (ans : list (R * nat)) : Prop :=
  length ans = k /\ NoDup (map snd ans) /\
  (forall d i, In (d, i) ans -> exists r, nth_error data i = Some r /\ d = dist r q) /\
  StronglySorted Rle (map fst ans) /\
  (forall i r, nth_error data i = Some r -> ~ In i (map snd ans) -> forall d, In d (map fst ans) -> d <= dist r q).
(** [ans] lists rows within the radius, each at most once, and all that are nearer. *)
Definition within_by (dist : list R -> list R -> R) (data : list (list R)) (q : list R) (radius : R) (ans : list (R * nat)) : Prop :=
  NoDup (map snd ans) /\
  (forall d i, In (d, i) ans -> exists r, nth_error data i = Some r /\ d = dist r q /\ d <= radius) /\
  (forall i r, nth_error data i = Some r -> dist r q < radius -> In i (map snd ans)).
