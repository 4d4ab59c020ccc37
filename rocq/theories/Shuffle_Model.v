(** Model of [core/math/shuffle.hpp].  The random permutation is an argument: [p] is the index vector of the
    PermutationMatrix, and row i of the argument becomes row p(i) of the product. *)
From Verif Require Import Base Common_Model.
Set Implicit Arguments.

(** shuffle.hpp:15-46. Eigen's [index_permut * X] on the rows of X, also when the result replaces X: sizes that differ violate an assertion. *)
Definition permute {A} (p : list nat) (x : list A) : outcome (list A) :=
  if length p =? length x then Ok (fold_left (fun out ia => set_nth out (fst ia) (snd ia)) (combine p x) x) else UB.

(** shuffle.hpp:15-46. Eigen's [X * index_permut]: column p(j) of X becomes column j of the product. *)
Definition permute_cols {A} (p : list nat) (x : list (list A)) : outcome (list (list A)) := mapM (fun r => mapM (vget r) p) x.

(** shuffle.hpp:15-46: [else if (axis = 1)] assigns, so that every axis other than 0 means rows; [nc] columns,
    permutation oracles for either size. *)
Definition shuffle_data1 {A} (p : nat -> list nat) (nc : nat) (x : list (list A)) (axis : Z) : outcome (list (list A)) :=
  if (axis =? 0)%Z then permute_cols (p nc) x else permute (p (length x)) x.

(** shuffle.hpp:48-65: the same permutation, of the size of X, for both. *)
Definition shuffle_data2 {A B} (p : list nat) (x : list A) (y : list B) : outcome (list A * list B) :=
  let! sx := permute p x in let! sy := permute p y in Ok (sx, sy).
