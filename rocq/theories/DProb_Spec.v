(** What is assumed of the library's [exp] and [log] on doubles. *)
From Coq Require Import Reals.
From Flocq Require Import Core BinarySingleNaN.
From Verif Require Import Base Double_Spec Bounded_Spec.
Local Open Scope R_scope.

Definition minus_inf : double := B754_infinity true.
(** A finite double in [0, 1]. *)
Definition in_unit (p : double) : Prop := finite p /\ 0 <= value p <= 1.
(** [exp] of a number that is not positive lies in [0, 1]; of zero it is 1; of at least -32 it is at least 2^-52; of at most -64 it is
    at most 2^-60 and of at most -1100 it is zero (the smallest positive double is 2^-1074); NaN stays NaN.  Any library function
    whose result is off by less than a few units in the last place will do. *)
Definition good_exp (dexp : double -> double) : Prop :=
  (forall x, is_number x -> dle x zero = true -> in_unit (dexp x)) /\
  (forall x, finite x -> value x = 0 -> value (dexp x) = 1) /\
  (forall x, finite x -> -32 <= value x <= 0 -> bpow radix2 (-52) <= value (dexp x)) /\
  (forall x, finite x -> value x <= -64 -> value (dexp x) <= bpow radix2 (-60)) /\
  (forall x, finite x -> value x <= -1100 -> dexp x = zero) /\
  dexp nan = nan.
(** [log] of a positive finite double is finite and at most 2048 in absolute value, not negative from 1 on; of zero it is -infinity;
    NaN stays NaN. *)
Definition good_log (dlog : double -> double) : Prop :=
  (forall x, finite x -> 0 < value x -> finite (dlog x) /\ Rabs (value (dlog x)) <= 2048) /\
  (forall x, finite x -> 1 <= value x -> 0 <= value (dlog x)) /\
  (forall x, finite x -> value x = 0 -> dlog x = minus_inf) /\
  dlog nan = nan.
(** Log-probabilities: finite, or -infinity for what is impossible; something is possible. *)
Definition log_probs (v : list double) : Prop := Forall (fun a => finite a \/ a = minus_inf) v /\ exists a, In a v /\ finite a.
(** Finite and at most 2^300 in absolute value. *)
Definition modest (x : double) : Prop := finite x /\ Rabs (value x) <= bpow radix2 300.
(** A sample classified rightly and beyond doubt: label 1 and a computed margin of at least 64, or label 0 and at most -1100. *)
Definition beyond_doubt (margin label : double) : Prop :=
  finite margin /\ finite label /\ (value label = 1 /\ 64 <= value margin \/ value label = 0 /\ value margin <= -1100).
(** The largest of the finite entries. *)
Definition largest (v : list double) (m : R) : Prop := (exists a, In a v /\ finite a /\ value a = m) /\ forall a, In a v -> finite a -> value a <= m.
(** Along axis 1 the rows, along axis 0 the columns of the table, and with axis -1 all its entries. *)
Definition slices (nc : nat) (x : list (list double)) (axis : Z) : list (list double) :=
  if (axis =? 1)%Z then x else if (axis =? 0)%Z then map (fun j => map (fun r => nth j r zero) x) (seq 0 nc) else [concat x].
