(** IEEE 754 doubles with infinities and NaN, as formalised by Flocq; every operation rounds to nearest even. *)
From Coq Require Import Reals.
From Flocq Require Import Core BinarySingleNaN.
From Verif Require Import Base Tree_Model Round_Spec.

Definition prec_pos : Prec_gt_0 53 := eq_refl.
Definition prec_small : Prec_lt_emax 53 1024 := eq_refl.
Definition double : Type := binary_float 53 1024.
Definition dadd : double -> double -> double := @Bplus 53 1024 prec_pos prec_small mode_NE.
Definition dsub : double -> double -> double := @Bminus 53 1024 prec_pos prec_small mode_NE.
Definition dmul : double -> double -> double := @Bmult 53 1024 prec_pos prec_small mode_NE.
Definition ddiv : double -> double -> double := @Bdiv 53 1024 prec_pos prec_small mode_NE.
Definition dsqrt : double -> double := @Bsqrt 53 1024 prec_pos prec_small mode_NE.
Definition dabs : double -> double := @Babs 53 1024.
(** operator< and operator<=: false when an operand is NaN. *)
Definition dlt : double -> double -> bool := @Bltb 53 1024.
Definition dle : double -> double -> bool := @Bleb 53 1024.
Definition nan : double := B754_nan.
Definition inf : double := B754_infinity false.
Definition zero : double := B754_zero false.
(** The double nearest to m * 2^e. *)
Definition dbl (m e : Z) : double := binary_normalize 53 1024 prec_pos prec_small mode_NE m e false.
(** Conversion of a count. *)
Definition dnat (n : nat) : double := dbl (Z.of_nat n) 0.
(** The largest double. *)
Definition dmax : double := dbl (2 ^ 53 - 1) 971.

Definition is_number (x : double) : Prop := is_nan x = false.
Definition finite (x : double) : Prop := is_finite x = true.
Definition has_nan (v : list double) : Prop := In nan v.

(** Sums, in an order that depends on the number of terms only. *)
Fixpoint dadd_up (s : order) (v : list double) : double :=
  match s with Entry i => nth i v zero | Add l r => dadd (dadd_up l v) (dadd_up r v) end.
Definition dsum (ord : nat -> order) (v : list double) : double := match v with [] => zero | _ => dadd_up (ord (length v)) v end.
(** Every term is added exactly once. *)
Definition fair (ord : nat -> order) : Prop := forall n, 0 < n -> Permutation (entries_of (ord n)) (seq 0 n).
(** Left to right. *)
Fixpoint left_to_right (n : nat) : order := match n with O => Entry 0 | S O => Entry 0 | S n' => Add (left_to_right n') (Entry n') end.
(** The computed Euclidean and Manhattan distances of two points. *)
Definition dist2 (ord : nat -> order) (x c : list double) : double :=
  dsqrt (dsum ord (map (fun p => dmul (dsub (fst p) (snd p)) (dsub (fst p) (snd p))) (combine x c))).
(** A table with one row per sample and [nf] columns. *)
Definition table (nf : nat) (X : list (list double)) : Prop := Forall (fun r => length r = nf) X.
(** No threshold of the tree is +infinity; every threshold is a number. *)
Fixpoint no_inf_split {I V} (t : dtree double I V) : Prop :=
  match t with Null => True | Node i l r => (match n_split i with Some (_, v, _) => v <> inf | None => True end) /\ no_inf_split l /\ no_inf_split r end.
Fixpoint number_splits {I V} (t : dtree double I V) : Prop :=
  match t with Null => True | Node i l r => (match n_split i with Some (_, v, _) => is_number v | None => True end) /\ number_splits l /\ number_splits r end.
