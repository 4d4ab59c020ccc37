(** What the utilities of [core/common.hpp] are supposed to return, in terms of
    positions and values only. *)
From Verif Require Import Base.

(** [i] is the first position of the greatest / least value of [l]. *)
Definition first_max (l : list Z) (i : nat) : Prop :=
  i < length l /\ (forall j, j < length l -> (nth j l 0%Z <= nth i l 0%Z)%Z) /\
  (forall j, j < i -> (nth j l 0%Z < nth i l 0%Z)%Z).
Definition first_min (l : list Z) (i : nat) : Prop :=
  i < length l /\ (forall j, j < length l -> (nth i l 0%Z <= nth j l 0%Z)%Z) /\
  (forall j, j < i -> (nth i l 0%Z < nth j l 0%Z)%Z).

(** [idx] lists the positions of [line], each once, so that the values ascend (descend). *)
Definition sorting_indices (reverse : bool) (line : list Z) (idx : list nat) : Prop :=
  Permutation idx (seq 0 (length line)) /\
  StronglySorted (fun i j => if reverse then (nth i line 0%Z >= nth j line 0%Z)%Z
                             else (nth i line 0%Z <= nth j line 0%Z)%Z) idx.

(** [out] is the multiset [line] in ascending (descending) order. *)
Definition sorted_version (reverse : bool) (line out : list Z) : Prop :=
  Permutation line out /\ StronglySorted (if reverse then Z.ge else Z.le) out.

(** Column [j] of a list of rows. *)
Definition column (j : nat) (x : list (list Z)) : list Z := map (fun r => nth j r 0%Z) x.

(** Strict lexicographic order of rows. *)
Inductive lex_lt : list Z -> list Z -> Prop :=
| lex_lt_nil b l : lex_lt [] (b :: l)
| lex_lt_head a b l1 l2 : (a < b)%Z -> lex_lt (a :: l1) (b :: l2)
| lex_lt_tail a l1 l2 : lex_lt l1 l2 -> lex_lt (a :: l1) (a :: l2).

(** [p] is the position of the first occurrence of [v]. *)
Definition first_position (l : list Z) (v : Z) (p : nat) : Prop :=
  nth_error l p = Some v /\ forall q, q < p -> nth_error l q <> Some v.

(** Ascending lists of [k] positions below [n], and their lexicographic order. *)
Definition position_choice (n k : nat) (ps : list nat) : Prop :=
  StronglySorted lt ps /\ Forall (fun i => i < n) ps /\ length ps = k.
Inductive pos_lt : list nat -> list nat -> Prop :=
| pos_lt_head a b l1 l2 : a < b -> pos_lt (a :: l1) (b :: l2)
| pos_lt_tail a l1 l2 : pos_lt l1 l2 -> pos_lt (a :: l1) (a :: l2).
