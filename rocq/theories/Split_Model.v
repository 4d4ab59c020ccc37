(** Models of [core/data/split.hpp] and [core/math/shuffle.hpp]. *)
From Coq Require Import QArith Qround.
From Verif Require Import Base.
Local Open Scope nat_scope.
Set Implicit Arguments.

(** split.hpp:59-84. Position of [j] in a list of indices. *)
Fixpoint index_of (j : nat) (p : list nat) : option nat :=
  match p with
  | [] => None
  | i :: p' => if i =? j then Some 0 else option_map S (index_of j p')
  end.

(** shuffle.hpp:48-65. [Eigen::PermutationMatrix * X] on rows: row [i] of [X] becomes row [p(i)]; Eigen asserts that
    the sizes agree. *)
Definition permute_rows {A} (p : list nat) (X : list A) : outcome (list A) :=
  if length p =? length X
  then mapM (fun j => match index_of j p with Some i => vget X i | None => UB end) (seq 0 (length p))
  else UB.

(** shuffle.hpp:48-65 (rows of both) with the random permutation [p] of the row numbers given. *)
Definition shuffle_both {A B} (p : list nat) (X : list A) (y : list B) : outcome (list A * list B) :=
  let! X' := permute_rows p X in
  let! y' := permute_rows p y in
  Ok (X', y').

(** shuffle.hpp:15-46 on rows; [else if (axis = 1)] makes every axis but 0 mean rows.  Columns:
    [X * P] has column [p(i)] of X as column i. *)
Definition permute_columns {A} (p : list nat) (X : list (list A)) : outcome (list (list A)) :=
  mapM (fun r => if length p =? length r then mapM (vget r) p else UB) X.
(** shuffle.hpp:15-46 *)
Definition shuffle_axis {A} (axis : nat) (p : list nat) (X : list (list A)) : outcome (list (list A)) :=
  if axis =? 0 then permute_columns p X else permute_rows p X.

(** split.hpp:36. [int num_train_samples = num_samples * train_size]: truncation towards zero. *)
Definition trunc (q : Q) : Z := if Qle_bool 0 q then Qfloor q else Qceiling q.
(** split.hpp:39-42. [m.topRows(k)], [m.bottomRows(k)]: Eigen asserts 0 <= k <= rows. *)
Definition top_rows {A} (X : list A) (k : Z) : outcome (list A) :=
  if (0 <=? k)%Z && (k <=? Z.of_nat (length X))%Z then Ok (firstn (Z.to_nat k) X) else UB.
(** split.hpp:39-42 *)
Definition bottom_rows {A} (X : list A) (k : Z) : outcome (list A) :=
  if (0 <=? k)%Z && (k <=? Z.of_nat (length X))%Z then Ok (skipn (length X - Z.to_nat k) X) else UB.

(** split.hpp:21-45.  [shuffle] is the permutation drawn if shuffling is on. *)
Definition train_test_split {A B} (X : list A) (y : list B) (train_size : Q) (shuffle : option (list nat))
  : outcome (list A * list A * list B * list B) :=
  let! (X', y') := match shuffle with
                   | Some p => shuffle_both p X y
                   | None => Ok (X, y)
                   end in
  let num_train := trunc (inject_Z (Z.of_nat (length X)) * train_size) in
  let num_test := (Z.of_nat (length X) - num_train)%Z in
  let! X_train := top_rows X' num_train in
  let! X_test := bottom_rows X' num_test in
  let! y_train := top_rows y' num_train in
  let! y_test := bottom_rows y' num_test in
  Ok (X_train, X_test, y_train, y_test).

Section Divide.
  Variable T : Type.
  Variable leb : T -> T -> bool.      (* operator<= *)
  (** split.hpp:59-84; the matrices are lists of rows. *)
  Fixpoint divide_loop (X : list (list T)) (i feature : nat) (threshold : T) (keep drop : list nat)
    : outcome (list nat * list nat) :=
    match X with
    | [] => Ok (keep, drop)
    | r :: X' =>
        let! v := vget r feature in
        if leb v threshold then divide_loop X' (S i) feature threshold (keep ++ [i]) drop
        else divide_loop X' (S i) feature threshold keep (drop ++ [i])
    end.
  (** split.hpp:59-84 *)
  Definition divide_on_feature (X : list (list T)) (feature : nat) (threshold : T)
    : outcome (list nat * list nat) := divide_loop X 0 feature threshold [] [].
End Divide.
