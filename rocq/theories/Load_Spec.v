(** What a text with a table of numbers is. *)
From Coq Require Import Ascii Reals List.
Import ListNotations.
Set Implicit Arguments.

(** Space, tab, vertical tab, form feed, carriage return: white space within a line. *)
Definition blank (c : ascii) : Prop := In c [" "%char; "009"%char; "011"%char; "012"%char; "013"%char].
Definition blanks (l : list ascii) : Prop := forall c, In c l -> blank c.

Section Table.
  Variable T : Type.
  (** [denotes t v]: the characters [t] are a way to write the number [v]. *)
  Variable denotes : list ascii -> T -> Prop.

  (** A line with the numbers [vs], separated (and possibly surrounded) by white space. *)
  Inductive line_of : list ascii -> list T -> Prop :=
  | line_end w : blanks w -> line_of w []
  | line_number w t v rest vs : blanks w -> denotes t v -> (rest = [] \/ exists c r, rest = c :: r /\ blank c) -> line_of rest vs ->
      line_of (w ++ t ++ rest) (v :: vs).
  (** A line with the numbers [vs] separated by commas. *)
  Inductive comma_line_of : list ascii -> list T -> Prop :=
  | comma_end t v : denotes t v -> comma_line_of t [v]
  | comma_number t v rest vs : denotes t v -> comma_line_of rest vs -> comma_line_of (t ++ ","%char :: rest) (v :: vs).

  (** Lines of some kind, each ended by a newline; the last one need not be. *)
  Inductive text_of (line : list ascii -> list T -> Prop) : list ascii -> list (list T) -> Prop :=
  | text_end : text_of line [] []
  | text_last l r : l <> [] -> line l r -> text_of line l [r]
  | text_line l r s rs : line l r -> text_of line s rs -> text_of line (l ++ "010"%char :: s) (r :: rs).

  (** What [stream >> number] must do on a stream with the characters [s], if the numbers are written as [denotes] says:
      skip white space, take the number up to a blank, a comma or the end; fail at the end, at a comma and at a letter. *)
  Record reads (get : list ascii -> option (T * list ascii)) : Prop := {
    reads_number : forall w t v rest, blanks w -> denotes t v -> (rest = [] \/ exists c r, rest = c :: r /\ (blank c \/ c = ","%char)) -> get (w ++ t ++ rest) = Some (v, rest);
    reads_nothing : forall w, blanks w -> get w = None;
    reads_comma : forall r, get (","%char :: r) = None;
    reads_letter : forall w c r, blanks w -> (65 <= nat_of_ascii c <= 122)%nat -> get (w ++ c :: r) = None;
    reads_shrinks : forall s v r, get s = Some (v, r) -> (length r < length s)%nat;
    reads_inline : forall t v, denotes t v -> ~ In "010"%char t }.
End Table.
Arguments reads_number {T denotes get} _ w t v rest.
Arguments reads_nothing {T denotes get} _ w.
Arguments reads_comma {T denotes get} _ r.
Arguments reads_letter {T denotes get} _ w c r.
Arguments reads_shrinks {T denotes get} _ s v r.
Arguments reads_inline {T denotes get} _ t v.

(** * Ways to write numbers *)
Definition is_digit (c : ascii) (d : Z) : Prop := nth_error ["0"; "1"; "2"; "3"; "4"; "5"; "6"; "7"; "8"; "9"]%char (Z.to_nat d) = Some c /\ (0 <= d)%Z.
(** The digits [ds] read as a number, most significant first. *)
Inductive number : list ascii -> Z -> Prop :=
| number_nil : number [] 0
| number_snoc ds n c d : number ds n -> is_digit c d -> number (ds ++ [c]) (10 * n + d).
Inductive sign : list ascii -> Z -> Prop := sign_none : sign [] 1 | sign_plus : sign ["+"%char] 1 | sign_minus : sign ["-"%char] (-1).

Definition integer (lo hi : Z) (t : list ascii) (v : Z) : Prop :=
  exists s ds sg n, t = s ++ ds /\ sign s sg /\ number ds n /\ ds <> [] /\ v = (sg * n)%Z /\ (lo <= v <= hi)%Z.

(** Scientific notation: sign, integer part, fraction, exponent. *)
Definition fraction (t ds : list ascii) : Prop := t = [] /\ ds = [] \/ t = "."%char :: ds.
Definition exponent (t : list ascii) (e : Z) : Prop :=
  t = [] /\ e = 0%Z \/ exists c s ds sg n, (c = "e"%char \/ c = "E"%char) /\ t = c :: s ++ ds /\ sign s sg /\ number ds n /\ ds <> [] /\ e = (sg * n)%Z.
Definition real_number (t : list ascii) (v : R) : Prop :=
  exists s ip f fp ex sg i n e, t = s ++ ip ++ f ++ ex /\ sign s sg /\ number ip i /\ fraction f fp /\ number fp n /\ ip ++ fp <> [] /\ exponent ex e /\
    v = (IZR sg * (IZR i + IZR n / 10 ^ length fp) * powerRZ 10 e)%R.
