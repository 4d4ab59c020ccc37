(** [common::argsort] of one column over any ordered value type (the matrix form over [Z] is in
    [Common_Model]). *)
From Verif Require Import Base Sorting Common_Model.
Set Implicit Arguments.

Section Argsort.
  Variable A : Type.
  Variable lt : A -> A -> bool.

  (** Comparator of common.hpp:248-252; positions outside the line never reach it (see below). *)
  Definition pos_lt_by (line : list A) (i j : nat) : bool :=
    match nth_error line i, nth_error line j with
    | Some a, Some b => lt a b
    | _, _ => false
    end.

  (** common.hpp:211-286 for one column, axis 0, ascending: index array [LinSpaced(n, 0, n)], then
      stable sort.  Two or more indices of which one is outside the column is an out-of-range
      read; one index is never compared. *)
  Definition argsort_col (line : list A) : outcome (list nat) :=
    let idx := lin_spaced_0_n (length line) in
    if length idx <=? 1 then Ok idx
    else if forallb (fun i => i <? length line) idx then Ok (isort (pos_lt_by line) idx) else UB.
End Argsort.
