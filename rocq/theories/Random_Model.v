(** Model of [core/math/random.hpp] and of the generation of the permutations in [core/math/shuffle.hpp].  The
    random engine is a parameter: a type of states and the call of the distribution that draws one number and
    moves the state on.  What the distributions of <random> promise about the numbers is a hypothesis of the theorems. *)
From Verif Require Import Base Common_Model Shuffle_Model.
Set Implicit Arguments.

(** shuffle.hpp:33-36, 58-61 and random.hpp:70-72. [std::iter_swap] of two positions of an array. *)
Definition swap_at {A} (l : list A) (i j : nat) : outcome (list A) :=
  let! a := vget l i in
  let! b := vget l j in
  Ok (set_nth (set_nth l i b) j a).

Section Engine.
  Variable state : Type.
  (** [uniform_int_distribution<size_t>(0, i)(engine)] *)
  Variable draw : state -> nat -> nat * state.

  (** shuffle.hpp:33-36, 58-61 and random.hpp:70-72. std::shuffle of libstdc++ (bits/stl_algo.h): position i, from the second on, is exchanged with a position drawn
      from 0..i.  That some versions of it draw two numbers by one call of the engine is left to [draw]. *)
  Fixpoint shuffle_loop {A} (k i : nat) (l : list A) (s : state) : outcome (list A * state) :=
    match k with
    | 0 => Ok (l, s)
    | S k' => let (d, s') := draw s i in
              let! l' := swap_at l i d in
              shuffle_loop k' (S i) l' s'
    end.
  (** shuffle.hpp:33-36, 58-61 and random.hpp:70-72 *)
  Definition std_shuffle {A} (l : list A) (s : state) : outcome (list A * state) := shuffle_loop (length l - 1) 1 l s.

  (** random.hpp:58-77: the indices of an identity permutation matrix, shuffled by a new engine of state [s]. *)
  Definition permutation (size : nat) (s : state) : outcome (list nat) :=
    let! (index, _) := std_shuffle (seq 0 size) s in Ok index.

  (** shuffle.hpp:48-65: the same for the rows of X, applied to X and to y. *)
  Definition shuffle_data {A B} (x : list A) (y : list B) (s : state) : outcome (list A * list B) :=
    let! (p, _) := std_shuffle (seq 0 (length x)) s in shuffle_data2 p x y.

  (** kmeans.hpp:113-117: the first k of the permuted row numbers; k beyond their number violates an assertion. *)
  Definition random_rows {A} (x : list A) (k : nat) (s : state) : outcome (list A) :=
    let! index := permutation (length x) s in
    if k <=? length index then mapM (vget x) (firstn k index) else UB.
End Engine.

(** random.hpp:83-102 and random.hpp:12-28: a matrix filled column by column with draws between the two limits.  The
    distributions require low <= high. *)
Section Fill.
  Variables (state T : Type).
  Variable leb : T -> T -> bool.
  Variable draw : state -> T -> T -> T * state.
  (** random.hpp:12-28, 35-51 *)
  Fixpoint fill (k : nat) (low high : T) (s : state) : list T * state :=
    match k with
    | 0 => ([], s)
    | S k' => let (a, s1) := draw s low high in
              let (l, s2) := fill k' low high s1 in (a :: l, s2)
    end.
  (** random.hpp:12-28, 35-51 *)
  Fixpoint fill_cols (k nrows : nat) (low high : T) (s : state) : list (list T) :=
    match k with
    | 0 => []
    | S k' => let (c, s') := fill nrows low high s in c :: fill_cols k' nrows low high s'
    end.
  (** kmeans.hpp:40. The columns of the matrix. *)
  Definition random_columns (nrows ncols : nat) (low high : T) (s : state) : outcome (list (list T)) :=
    if leb low high then Ok (fill_cols ncols nrows low high s) else UB.
End Fill.

(** kmeans.hpp:40: the row number of the first centre, [randint(1, 1, 0, num_samples - 1)] with std::size_t
    arithmetic; read as entry (0,0). *)
Definition first_center {state} (draw : state -> Z -> Z -> Z * state) (num_samples : nat) (s : state) : outcome Z :=
  let! cols := random_columns Z.leb draw 1 1 0%Z ((Z.of_nat num_samples - 1) mod 2 ^ 64)%Z s in
  let! c := vget cols 0 in vget c 0.
