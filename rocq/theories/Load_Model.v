(** Model of [core/data/load.hpp]: reading a table of numbers from a text file.

    A file is [None] when it cannot be opened and otherwise its characters.  The extraction of one number,
    [str_stream >> elem], is a parameter [get]: given the characters left in the stream it returns the number and the
    characters after it, or [None] when the stream fails.  Below are the two instances used: signed integers and
    floating point numbers, the latter as real numbers without rounding or overflow. *)
From Coq Require Import Ascii Reals.
From Verif Require Import Base.
Set Implicit Arguments.

(** load.hpp:27, 57, 84 *)
Definition text := list ascii.
(** load.hpp:27, 57, 84 *)
Definition newline : ascii := "010"%char.
(** load.hpp:31, 61, 88. Characters skipped by [>>]: space, \t, \n, \v, \f, \r ([std::isspace] in the "C" locale). *)
Definition is_space (c : ascii) : bool :=
  let n := nat_of_ascii c in ((n =? 32) || ((9 <=? n) && (n <=? 13)))%nat.

(** [for (std::string line; std::getline(fin, line); )]: the lines of the file.  A newline ends a line; characters after
    the last newline form a line, but nothing after it does not.  (load.hpp:27, 57, 84) *)
Fixpoint get_lines (s : text) : list text :=
  match s with
  | [] => []
  | c :: s' => if Ascii.eqb c newline then [] :: get_lines s' else match get_lines s' with [] => [[c]] | l :: ls => (c :: l) :: ls end
  end.

(** load.hpp:31, 61, 88 *)
Fixpoint skip_spaces (s : text) : text := match s with c :: s' => if is_space c then skip_spaces s' else s | [] => [] end.

Section Load.
  Variable T : Type.
  Variable zero : T.
  Variable get : text -> option (T * text).

  (** load.hpp:31-33, 61-63, 88-90 [for (DataType elem; str_stream >> elem; ) row.push_back(elem)] *)
  Fixpoint get_row (fuel : nat) (s : text) : outcome (list T) :=
    match fuel with
    | O => Fuel
    | S f => match get s with None => Ok [] | Some (v, s') => let! r := get_row f s' in Ok (v :: r) end
    end.
  (** load.hpp:31-33, 61-63, 88-90 *)
  Definition read_rows (s : text) : outcome (list (list T)) := mapM (fun l => get_row (S (length l)) l) (get_lines s).

  (** load.hpp:14-46, the overload for Eigen matrices: [stdmat[0]] of an empty file is out of range, [&stdmat[i][0]] of an
      empty line too; [VecType::Map(&stdmat[i][0], n_cols)] reads [n_cols] elements of a row that may have fewer. *)
  Definition map_row (n_cols : nat) (row : list T) : outcome (list T) :=
    if (length row =? 0)%nat then UB else if (length row <? n_cols)%nat then UB else Ok (firstn n_cols row).
  (** load.hpp:14-46 *)
  Definition loadtxt_eigen (file : option text) : outcome (list (list T) * list T) :=
    match file with
    | None => Throw RuntimeError
    | Some s =>
        let! stdmat := read_rows s in
        let! first := vget stdmat 0 in
        let n_cols := length first in
        let! mat := mapM (map_row n_cols) stdmat in
        Ok (map (firstn (n_cols - 1)) mat, map (fun r => nth (n_cols - 1) r zero) mat)
    end.

  (** load.hpp:48-66, the overload for a vector of vectors: the rows are appended to [X]. *)
  Definition loadtxt_rows (file : option text) (X : list (list T)) : outcome (list (list T)) :=
    match file with None => Throw RuntimeError | Some s => let! rows := read_rows s in Ok (X ++ rows) end.

  (** load.hpp:72-102, the overload for vectors with labels.  [std::vector<DataType>(ncols - 1)] with [ncols = 0] asks for
      2^64 - 1 elements.  [X.resize] keeps the rows [X] already has. *)
  Definition resize_rows (X : list (list T)) (nrows : nat) (row : list T) : list (list T) :=
    firstn nrows X ++ repeat row (nrows - length X).
  (** load.hpp:97-99. [X[i][j] = stdmat[i][j]] for j < m *)
  Definition copy_row (m : nat) (old row : list T) : outcome (list T) :=
    if (length old <? m)%nat || (length row <? m)%nat then UB else Ok (firstn m row ++ skipn m old).
  (** load.hpp:100. [y.emplace_back(stdmat[i].back())] *)
  Definition back (row : list T) : outcome T := match row with [] => UB | _ => Ok (last row zero) end.
  (** load.hpp:72-102 *)
  Definition loadtxt_split (file : option text) (X : list (list T)) (y : list T) : outcome (list (list T) * list T) :=
    match file with
    | None => Throw RuntimeError
    | Some s =>
        let! stdmat := read_rows s in
        let! first := vget stdmat 0 in
        let ncols := length first in
        if (ncols =? 0)%nat then Throw LengthError
        else
          let X1 := resize_rows X (length stdmat) (repeat zero (ncols - 1)) in
          let! rows := mapM (fun e => let! r := copy_row (ncols - 1) (fst e) (snd e) in let! b := back (snd e) in Ok (r, b)) (combine X1 stdmat) in
          Ok (map fst rows, y ++ map snd rows)
    end.
End Load.

(** * Extraction of numbers *)
(** load.hpp:31, 61, 88 *)
Definition digit (c : ascii) : option Z :=
  let n := nat_of_ascii c in if ((48 <=? n) && (n <=? 57))%nat then Some (Z.of_nat n - 48)%Z else None.
(** load.hpp:31, 61, 88. The longest prefix of digits, read with the value [acc] so far: value, number of digits, rest. *)
Fixpoint digits (acc : Z) (n : nat) (s : text) : Z * nat * text :=
  match s with
  | c :: s' => match digit c with Some d => digits (10 * acc + d) (S n) s' | None => (acc, n, s) end
  | [] => (acc, n, s)
  end.
(** load.hpp:31, 61, 88 *)
Definition sign_of (s : text) : Z * text :=
  match s with
  | c :: s' => if Ascii.eqb c "-"%char then (-1, s')%Z else if Ascii.eqb c "+"%char then (1, s')%Z else (1, s)%Z
  | [] => (1, [])%Z
  end.

(** load.hpp:31, 61, 88. [>>] into a signed integer type with the range [lo, hi]: an optional sign and digits; without digits, or outside the
    range, the stream fails. *)
Definition get_int (lo hi : Z) (s : text) : option (Z * text) :=
  let (sg, s1) := sign_of (skip_spaces s) in
  let '(v, n, s2) := digits 0 0 s1 in
  if (n =? 0)%nat then None
  else let r := (sg * v)%Z in if (lo <=? r)%Z && (r <=? hi)%Z then Some (r, s2) else None.

(** load.hpp:31, 61, 88. [>>] into a floating point type: an optional sign, digits, possibly a point and digits, possibly an exponent; no
    digits before the exponent or in it make the stream fail.  The value is exact: no rounding, no range. *)
Definition get_real (s : text) : option (R * text) :=
  let (sg, s1) := sign_of (skip_spaces s) in
  let '(m1, n1, s2) := digits 0 0 s1 in
  let '(m2, n2, s3) := match s2 with c :: s2' => if Ascii.eqb c "."%char then digits m1 0 s2' else (m1, O, s2) | [] => (m1, O, s2) end in
  if (n1 + n2 =? 0)%nat then None
  else
    match s3 with
    | c :: s4 =>
        if Ascii.eqb c "e"%char || Ascii.eqb c "E"%char then
          let (eg, s5) := sign_of s4 in
          let '(e, ne, s6) := digits 0 0 s5 in
          if (ne =? 0)%nat then None else Some (IZR (sg * m2) * powerRZ 10 (eg * e - Z.of_nat n2), s6)%R
        else Some (IZR (sg * m2) * powerRZ 10 (- Z.of_nat n2), s3)%R
    | [] => Some (IZR (sg * m2) * powerRZ 10 (- Z.of_nat n2), [])%R
    end.
