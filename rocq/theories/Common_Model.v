(** Model of [core/common.hpp] over integers.

    Data are [Z]: the functions below only compare and copy values, so any
    totally ordered scalar type without NaN behaves alike.  [std::vector]s are
    lists; Eigen matrices are lists of rows with an explicit column count. *)
From Verif Require Import Base Sorting.

(** common.hpp:29-37 *)
Record mat := Mat { mcols : nat; mrows : list (list Z) }.
(** common.hpp:29-37 *)
Definition mat_ok (m : mat) : Prop := Forall (fun r => length r = mcols m) (mrows m).
(** common.hpp:29-37 *)
Definition col (m : mat) (j : nat) : list Z := map (fun r => nth j r 0%Z) (mrows m).
(** common.hpp:29-37 *)
Definition cols (m : mat) : list (list Z) := map (col m) (seq 0 (mcols m)).

(** common.hpp:12-20 (max_element on pairs): [std::max_element] keeps the first of
    several maximal entries; dereferencing the end of an empty container is UB. *)
Fixpoint max_by_second {K} (best : K * Z) (l : list (K * Z)) : K * Z :=
  match l with
  | [] => best
  | e :: l' => if (snd best <? snd e)%Z then max_by_second e l' else max_by_second best l'
  end.
(** common.hpp:12-20 *)
Definition max_element {K} (l : list (K * Z)) : outcome (K * Z) :=
  match l with [] => UB | e :: l' => Ok (max_by_second e l') end.

(** common.hpp:29-37 *)
Definition hstack (x1 x2 : mat) : outcome mat :=
  if length (mrows x1) =? length (mrows x2)
  then Ok (Mat (mcols x1 + mcols x2) (map (fun p => fst p ++ snd p) (combine (mrows x1) (mrows x2))))
  else Throw InvalidArgument.

(** common.hpp:47-56 *)
Definition vstack (x1 x2 : mat) : outcome mat :=
  if mcols x1 =? mcols x2
  then Ok (Mat (mcols x1) (mrows x1 ++ mrows x2))
  else Throw InvalidArgument.

(** common.hpp:62-67 *)
Definition flatten_vec (v : list (list Z)) : list Z :=
  fold_left (fun dest src => dest ++ src) v [].

(** common.hpp:76-81: the data of the transposed (column-major) copy, i.e. row-major order. *)
Definition flatten_mat (m : mat) : list Z := concat (mrows m).

(** common.hpp:93-104; other axis values return the default-constructed (empty) matrix. *)
Definition repeat_mat (m : mat) (repeats : nat) (axis : Z) : mat :=
  if (axis =? 0)%Z then Mat (mcols m) (concat (repeat (mrows m) repeats))
  else if (axis =? 1)%Z then Mat (mcols m * repeats) (map (fun r => concat (repeat r repeats)) (mrows m))
  else Mat 0 [].

(** common.hpp:118-193. Eigen's [maxCoeff(&i)] / [minCoeff(&i)]: a sequential visitor that replaces the best
    value only when strictly better; empty input violates an assertion. *)
Fixpoint arg_scan (better : Z -> Z -> bool) (l : list Z) (i best_i : nat) (best : Z) : nat :=
  match l with
  | [] => best_i
  | x :: l' => if better x best then arg_scan better l' (S i) i x
               else arg_scan better l' (S i) best_i best
  end.
(** common.hpp:118-193 *)
Definition arg_coeff (better : Z -> Z -> bool) (l : list Z) : outcome nat :=
  match l with [] => UB | x :: l' => Ok (arg_scan better l' 1 0 x) end.

(** common.hpp:118-193 *)
Definition argext (better : Z -> Z -> bool) (m : mat) (axis : Z) : outcome (list nat) :=
  if (axis =? 1)%Z then mapM (arg_coeff better) (mrows m)
  else if (axis =? 0)%Z then mapM (arg_coeff better) (cols m)
  else if (axis =? -1)%Z then let! i := arg_coeff better (flatten_mat m) in Ok [i]
  else Throw InvalidArgument.
(** common.hpp:118-149 *)
Definition argmax := argext (fun x best => best <? x)%Z.
(** common.hpp:162-193 *)
Definition argmin := argext (fun x best => x <? best)%Z.

(** common.hpp:221, 225. Eigen 3.4 [LinSpaced(n, 0, n)] for an integer scalar: one element is [high]; otherwise
    step [(high-low)/(n-1)] by integer division. *)
Definition lin_spaced_0_n (n : nat) : list nat :=
  match n with
  | 0 => []
  | 1 => [1]
  | S n' => map (fun i => i * (n / n')) (seq 0 n)
  end.

(** common.hpp:239, 250, 263, 274. [std::stable_sort] of an index array by the values of one line.  With at least
    two indices every index is passed to the comparator, so an index outside the
    line is an out-of-range read; one index is never compared. *)
Definition sort_idx (lt : Z -> Z -> bool) (line : list Z) (idx : list nat) : outcome (list nat) :=
  if length idx <=? 1 then Ok idx
  else if forallb (fun i => i <? length line) idx
       then Ok (isort (fun i j => lt (nth i line 0%Z) (nth j line 0%Z)) idx)
       else UB.

(** common.hpp:236-283: the index array is not reset between lines. *)
Fixpoint argsort_lines (lt : Z -> Z -> bool) (lines : list (list Z)) (idx : list nat)
  : outcome (list (list nat)) :=
  match lines with
  | [] => Ok []
  | l :: lines' =>
      let! idx' := sort_idx lt l idx in
      let! r := argsort_lines lt lines' idx' in Ok (idx' :: r)
  end.
(** common.hpp:211-286.  The result is given line by line: one index list per row
    (axis 1) or per column (axis 0). *)
Definition argsort (m : mat) (axis : Z) (reverse : bool) : outcome (list (list nat)) :=
  let lt := if reverse then (fun a b => b <? a)%Z else Z.ltb in
  if (axis =? 1)%Z then argsort_lines lt (mrows m) (lin_spaced_0_n (mcols m))
  else if (axis =? 0)%Z then argsort_lines lt (cols m) (lin_spaced_0_n (length (mrows m)))
  else Throw InvalidArgument.

(** common.hpp:300-343, line by line as above. *)
Definition sort_mat (m : mat) (axis : Z) (reverse : bool) : outcome (list (list Z)) :=
  let srt := if reverse then zsort_desc else zsort in
  if (axis =? 1)%Z then Ok (map srt (mrows m))
  else if (axis =? 0)%Z then Ok (map srt (cols m))
  else Throw InvalidArgument.

(** common.hpp:350-352 *)
Definition fmin_mat (m : mat) (y : Z) : mat :=
  Mat (mcols m) (map (map (fun x => if (y <=? x)%Z then y else x)) (mrows m)).

(** common.hpp:364-385: [vec.at(0)] throws on an empty argument, [&vec[0][0]] is undefined on
    an empty first row, a later row of another size throws. *)
Definition vec2mat (v : list (list Z)) : outcome mat :=
  match v with
  | [] => Throw OutOfRange
  | r0 :: _ =>
      if length r0 =? 0 then UB
      else if forallb (fun r => length r =? length r0) v then Ok (Mat (length r0) v)
           else Throw InvalidArgument
  end.

(** common.hpp:423-434: one scan of the sorted copy; [hash_map.insert] succeeds only for a new key.
    Returns the values in order of discovery and the set of positions. *)
Fixpoint unique_scan (l : list Z) (i : nat) (seen : list (Z * nat)) : list Z * list nat :=
  match l with
  | [] => ([], [])
  | x :: l' =>
      match om_find Z.compare x seen with
      | Some _ => unique_scan l' (S i) seen
      | None =>
          let '(vs, ps) := unique_scan l' (S i) (om_set Z.compare x i seen) in
          (x :: vs, i :: ps)
      end
  end.
(** common.hpp:408-441 for a column vector.  Positions are discovered in increasing
    order, which is the iteration order of the [std::set]. *)
Definition unique (x : list Z) : list Z * list nat := unique_scan (zsort x) 0 [].

(** common.hpp:449-458 *)
Fixpoint where_from (l : list bool) (i : nat) : list nat :=
  match l with
  | [] => []
  | b :: l' => if b then i :: where_from l' (S i) else where_from l' (S i)
  end.
(** common.hpp:449-458 *)
Definition where_ (l : list bool) : list nat := where_from l 0.

(** common.hpp:466-468: arguments in the order (max, min). *)
Definition clip (l : list Z) (max min : Z) : list Z := map (fun x => Z.max (Z.min x max) min) l.

(** common.hpp:509. [std::prev_permutation] on booleans.  The recursion finds the last position [i] with
    [b[i] > b[i+1]] (nothing in a tail without predecessor), swaps it with the
    last smaller element of the tail and reverses the tail. *)
Fixpoint swap_last_false (l : list bool) : option (list bool) :=
  (* replace the last [false] of [l] by [true] *)
  match l with
  | [] => None
  | b :: l' =>
      match swap_last_false l' with
      | Some r => Some (b :: r)
      | None => if b then None else Some (true :: l')
      end
  end.
(** common.hpp:509 *)
Fixpoint prev_permutation (l : list bool) : option (list bool) :=
  match l with
  | [] => None
  | b :: l' =>
      match prev_permutation l' with
      | Some r => Some (b :: r)
      | None =>
          if b then
            match swap_last_false l' with
            | Some r => Some (false :: rev r)
            | None => None
            end
          else None
      end
  end.

(** common.hpp:502-507: the elements of [x] whose bit is set. *)
Fixpoint select {A} (x : list A) (bits : list bool) : list A :=
  match x, bits with
  | a :: x', true :: b' => a :: select x' b'
  | a :: x', false :: b' => select x' b'
  | _, _ => []
  end.

(** common.hpp:501-509: the do-while loop. *)
Fixpoint comb_loop {A} (fuel : nat) (x : list A) (bits : list bool) : outcome (list (list A)) :=
  match fuel with
  | O => Fuel
  | S fuel' =>
      match prev_permutation bits with
      | Some bits' => let! r := comb_loop fuel' x bits' in Ok (select x bits :: r)
      | None => Ok [select x bits]
      end
  end.
(** common.hpp:490-512 *)
Definition combinations {A} (x : list A) (k : nat) : outcome (list (list A)) :=
  if length x <? k then Ok []
  else comb_loop (2 ^ length x) x (repeat true k ++ repeat false (length x - k)).

(** common.hpp:521-536 *)
Definition contains (v1 v2 : list Z) : bool := forallb (fun i => existsb (Z.eqb i) v2) v1.

(** common.hpp:545-566 *)
Fixpoint merge {A} (v1 v2 : list A) : list A :=
  match v1, v2 with
  | a :: v1', b :: v2' => a :: b :: merge v1' v2'
  | [], _ => v2
  | _, [] => v1
  end.

(** common.hpp:591-612 (axis 0 of the 2-d vector sort): rows are reordered by column [i] and
    column [i] is copied out, for every column of the first row.  A row with
    fewer columns is read out of range. *)
Definition sort_rows_by (reverse : bool) (i : nat) (x : list (list Z)) : list (list Z) :=
  isort (fun v1 v2 => if reverse then (nth i v2 0 <? nth i v1 0)%Z else (nth i v1 0 <? nth i v2 0)%Z) x.
(** common.hpp:591-612 *)
Fixpoint set_nth {A} (l : list A) (i : nat) (v : A) : list A :=
  match l, i with
  | [], _ => []
  | _ :: l', O => v :: l'
  | a :: l', S i' => a :: set_nth l' i' v
  end.
(** common.hpp:591-612 *)
Fixpoint sort2d_cols (reverse : bool) (is_ : list nat) (copy_x result : list (list Z)) : list (list Z) :=
  match is_ with
  | [] => result
  | i :: is' =>
      let copy_x' := sort_rows_by reverse i copy_x in
      let result' := map (fun p => set_nth (fst p) i (nth i (snd p) 0%Z)) (combine result copy_x') in
      sort2d_cols reverse is' copy_x' result'
  end.
(** common.hpp:580-641 *)
Definition sort2d (x : list (list Z)) (axis : Z) (reverse : bool) : outcome (list (list Z)) :=
  match x with
  | [] => Throw InvalidArgument
  | [] :: _ => Throw InvalidArgument
  | r0 :: _ =>
      if (axis =? 0)%Z then
        if forallb (fun r => length r0 <=? length r) x
        then Ok (sort2d_cols reverse (seq 0 (length r0)) x x) else UB
      else if (axis =? 1)%Z then Ok (map (if reverse then zsort_desc else zsort) x)
      else Throw InvalidArgument
  end.

(** common.hpp:656-686: the mutable state of the duplicate search. *)
Record rdr := { rd_ind : list bool; rd_uniq : list nat; rd_num : nat; rd_cur : nat; rd_it : nat }.

(** common.hpp:667-670 *)
Fixpoint next_unmarked (fuel : nat) (ind : list bool) (cur : nat) : outcome nat :=
  match fuel with
  | O => Fuel
  | S f => let! b := vget ind cur in if b then next_unmarked f ind (S cur) else Ok cur
  end.

(** common.hpp:681-685 *)
Definition list_Z_eqb (a b : list Z) : bool := match lex a b with Eq => true | _ => false end.

(** common.hpp:681-685 *)
Definition rdr_scan (X : list (list Z)) (s : rdr) : outcome rdr :=
  let! marked := vget (rd_ind s) (rd_it s) in
  if marked then Ok {| rd_ind := rd_ind s; rd_uniq := rd_uniq s; rd_num := rd_num s;
                       rd_cur := rd_cur s; rd_it := S (rd_it s) |}
  else
    let! a := vget X (rd_cur s) in
    let! b := vget X (rd_it s) in
    if list_Z_eqb a b
    then Ok {| rd_ind := set_nth (rd_ind s) (rd_it s) true; rd_uniq := rd_uniq s;
               rd_num := S (rd_num s); rd_cur := rd_cur s; rd_it := S (rd_it s) |}
    else Ok {| rd_ind := rd_ind s; rd_uniq := rd_uniq s; rd_num := rd_num s;
               rd_cur := rd_cur s; rd_it := S (rd_it s) |}.

(** common.hpp:664-686 *)
Fixpoint rdr_loop (fuel : nat) (X : list (list Z)) (s : rdr) : outcome rdr :=
  match fuel with
  | O => Fuel
  | S f =>
      let nrows := length X in
      if rd_num s <? nrows then
        if nrows <=? rd_it s then
          let! c := next_unmarked (S (length (rd_ind s))) (rd_ind s) (S (rd_cur s)) in
          let s1 := {| rd_ind := rd_ind s; rd_uniq := rd_uniq s ++ [c]; rd_num := S (rd_num s);
                       rd_cur := c; rd_it := S c |} in
          if (nrows <=? rd_it s1) && (nrows =? rd_num s1) then Ok s1
          else let! s2 := rdr_scan X s1 in rdr_loop f X s2
        else let! s2 := rdr_scan X s in rdr_loop f X s2
      else Ok s
  end.

(** common.hpp:650-697 *)
Definition remove_duplicate_rows (X : list (list Z)) : outcome (list (list Z)) :=
  match X with
  | [] => Throw InvalidArgument
  | [] :: _ => Throw InvalidArgument
  | _ =>
      let n := length X in
      let! s := rdr_loop (S (n * n + n)) X
                  {| rd_ind := set_nth (repeat false n) 0 true; rd_uniq := [0]; rd_num := 1;
                     rd_cur := 0; rd_it := 1 |} in
      mapM (vget X) (rd_uniq s)
  end.

(** common.hpp:706-709: three-iterator [std::mismatch] reads [y] past its end if [x] is longer
    and [y] is a prefix of it. *)
Fixpoint is_equal (x y : list Z) : outcome bool :=
  match x, y with
  | [], [] => Ok true
  | [], _ :: _ => Ok false
  | _ :: _, [] => UB
  | a :: x', b :: y' => if (a =? b)%Z then is_equal x' y' else Ok false
  end.

(** common.hpp:731-752: the comparators; running off the end of the loop leaves the
    function without a return value, and [v2] may be shorter. *)
Fixpoint row_less (reverse : bool) (v1 v2 : list Z) : outcome bool :=
  match v1, v2 with
  | [], _ => UB
  | _ :: _, [] => UB
  | a :: v1', b :: v2' =>
      if (a =? b)%Z then row_less reverse v1' v2'
      else Ok (if reverse then (b <? a)%Z else (a <? b)%Z)
  end.
(** common.hpp:754-759. Insertion sort with that comparator: every pair that is adjacent in the result is
    compared, as in any comparison sort. *)
Fixpoint insM (reverse : bool) (x : list Z) (l : list (list Z)) : outcome (list (list Z)) :=
  match l with
  | [] => Ok [x]
  | y :: l' =>
      let! b := row_less reverse y x in
      if b then let! r := insM reverse x l' in Ok (y :: r) else Ok (x :: y :: l')
  end.
(** common.hpp:754-759 *)
Fixpoint isortM (reverse : bool) (l : list (list Z)) : outcome (list (list Z)) :=
  match l with
  | [] => Ok []
  | x :: l' => let! r := isortM reverse l' in insM reverse x r
  end.
(** common.hpp:722-761 *)
Definition sortrows (x : list (list Z)) (reverse : bool) : outcome (list (list Z)) :=
  match x with
  | [] => Throw InvalidArgument
  | [] :: _ => Throw InvalidArgument
  | _ => isortM reverse x
  end.

(** common.hpp:785-786. [std::unique]: drops every element equal to its predecessor. *)
Fixpoint std_unique (l : list Z) : list Z :=
  match l with
  | [] => []
  | x :: l' => match l' with
               | [] => [x]
               | y :: _ => if (x =? y)%Z then std_unique l' else x :: std_unique l'
               end
  end.
(** common.hpp:785-786. [std::set_difference] *)
Fixpoint set_difference (l1 l2 : list Z) : list Z :=
  let fix aux (l2 : list Z) : list Z :=
    match l1 with
    | [] => []
    | a :: l1' =>
        match l2 with
        | [] => l1
        | b :: l2' =>
            if (a <? b)%Z then a :: set_difference l1' l2
            else if (b <? a)%Z then aux l2' else set_difference l1' l2'
        end
    end in aux l2.
(** common.hpp:768-788; the flag [sorted] means "sort the copies first". *)
Definition difference (v1 v2 : list Z) (sorted : bool) : list Z :=
  let c1 := if sorted then zsort v1 else v1 in
  let c2 := if sorted then zsort v2 else v2 in
  set_difference (std_unique c1) c2.

(** common.hpp:802-826: writes [indices[i]] of an empty vector. *)
Definition argsort1d (x : list Z) (reverse : bool) : outcome (list nat) :=
  match x with [] => Ok [] | _ => UB end.

(** common.hpp:845-852, 883. Unsigned 64-bit subtraction. *)
Definition wsub (a b : nat) : Z := ((Z.of_nat a - Z.of_nat b) mod 2 ^ 64)%Z.

(** common.hpp:864, 893. Iterator-range copy [v.begin()+a .. v.begin()+b]. *)
Definition range_copy {A} (v : list A) (a b : nat) : outcome (list A) :=
  if (a <=? b) && (b <=? length v) then Ok (firstn (b - a) (skipn a v)) else UB.

(** common.hpp:839-868 *)
Definition slice2d (x : list (list Z)) (start_row end_row start_col end_col : nat)
  : outcome (list (list Z)) :=
  if (end_row <? start_row) || (wsub (length x) 1 <? wsub end_row start_row)%Z then Throw InvalidArgument
  else if (wsub (length x) 1 <? wsub end_col start_col)%Z then Throw InvalidArgument
  else mapM (fun i => let! r := vget x i in range_copy r start_col (S end_col))
            (seq start_row (S end_row - start_row)).

(** common.hpp:879-896: the end iterator is [x.end() + end_index + 1]. *)
Definition slice1d (x : list Z) (start_index end_index : nat) : outcome (list Z) :=
  if (wsub (length x) 1 <? wsub end_index start_index)%Z then Throw InvalidArgument
  else range_copy x start_index (length x + end_index + 1).
