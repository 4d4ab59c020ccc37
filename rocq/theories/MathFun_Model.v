(** Models over the reals of [core/math/extmath.hpp] (sigmoid, row_norms, softmax), of logsumexp in
    [core/math/linalg.hpp] and of gaussian_fn in [core/math/proba.hpp].  A matrix is the list of its rows; where the
    number of columns is observable it is passed as [nc].  Rounding, overflow and NaN are not modelled. *)
From Coq Require Import Reals.
From Verif Require Import Base KDReal_Proofs Impurity_Model Vec.
Local Open Scope R_scope.
Set Implicit Arguments.

(** core/common.hpp:348-352. [x >= y] as a boolean. *)
Definition Rgeb (x y : R) : bool := negb (Rltb x y).

(** core/common.hpp:348-352 [(x.array() >= y).select(y, x)] for one entry. *)
Definition fmin (x y : R) : R := if Rgeb x y then y else x.
(** extmath.hpp:16-22 for one entry; [fmin] replaces entries >= 0 by 0 first. *)
Definition sigmoid1 (x : R) : R := exp (fmin x 0) / (1 + exp (- Rabs x)).
(** extmath.hpp:16-22 on a vector and on a matrix. *)
Definition sigmoid (x : list R) : list R := map sigmoid1 x.
(** extmath.hpp:16-22 *)
Definition sigmoid_mat (x : list (list R)) : list (list R) := map sigmoid x.

(** extmath.hpp:234-270. Eigen's [maxCoeff()]: no coefficients violate an assertion. *)
Definition max_coeff (v : list R) : outcome R :=
  match v with [] => UB | a :: v' => Ok (fold_left Rmax v' a) end.
(** extmath.hpp:234-270. [colwise().maxCoeff()] *)
Definition col_max (x : list (list R)) : outcome (list R) :=
  match x with [] => UB | r :: x' => Ok (fold_left (map2 Rmax) x' r) end.
(** extmath.hpp:234-270. [colwise().sum()] *)
Definition col_sum (nc : nat) (x : list (list R)) : list R := fold_left vadd x (zeros nc).
(** extmath.hpp:234-270. [(x - c).array().exp()] row by row. *)
Definition exp_sub (r c : list R) : list R := map exp (vsub r c).

(** extmath.hpp:234-270.  An axis other than 0, 1, -1 leaves [c] without a shape, so that [x - c] violates an
    assertion. *)
Definition softmax (nc : nat) (x : list (list R)) (axis : Z) : outcome (list (list R)) :=
  let nr := length x in
  if (nr =? 1)%nat || (nc =? 1)%nat then Throw InvalidArgument
  else if (axis =? 0)%Z then
    let! c := col_max x in
    let e := map (fun r => exp_sub r c) x in
    let div := col_sum nc e in
    Ok (map (fun r => map2 Rdiv r div) e)
  else if (axis =? 1)%Z then
    let! c := mapM max_coeff x in
    let e := map2 (fun r a => map exp (map (fun b => b - a) r)) x c in
    let div := map Rsum e in
    Ok (map2 (fun r s => map (fun b => b / s) r) e div)
  else if (axis =? -1)%Z then
    let! m := max_coeff (concat x) in
    let e := map (map (fun b => exp (b - m))) x in
    let s := Rsum (map Rsum e) in
    Ok (map (map (fun b => b / s)) e)
  else UB.

(** linalg.hpp:283-305.  For another axis the function ends without a return statement. *)
Definition logsumexp (nc : nat) (x : list (list R)) (axis : Z) : outcome (list R) :=
  if (axis =? 1)%Z then
    let! c := mapM max_coeff x in
    Ok (vadd (map2 (fun r a => ln (Rsum (map (fun b => exp (b - a)) r))) x c) c)
  else if (axis =? 0)%Z then
    let! c := col_max x in
    Ok (vadd (map ln (col_sum nc (map (fun r => exp_sub r c) x))) c)
  else if (axis =? -1)%Z then
    let! c := max_coeff (concat x) in
    Ok [ln (Rsum (map (fun b => exp (b - c)) (concat x))) + c]
  else UB.

(** extmath.hpp:211-223 *)
Definition row_norms (x : list (list R)) (squared : bool) : list R :=
  let s := map (fun r => Rsum (map (fun a => a * a) r)) x in
  if squared then s else map sqrt s.

(** proba.hpp:18-25 *)
Definition gaussian_fn (x u v : R) : R := -1 * (x - u) ^ 2 / (2 * v) - ln (sqrt (2 * PI * v)).
