(** Models over the reals of [core/math/ops.hpp] and of [core/metric.hpp].  A matrix is the list of its rows; [nc] is
    its number of columns.  A mean of nothing is 0/0 (NaN) in the code and is not modelled: the theorems assume data.
    [median] and [mode] are over any ordered type. *)
From Coq Require Import Reals.
From Verif Require Import Base Sorting KDReal_Proofs Impurity_Model Vec MathFun_Model.
Local Open Scope R_scope.
Set Implicit Arguments.

(** ops.hpp:304-310, 326-332. [==] on numbers *)
Definition Reqb (a b : R) : bool := if Req_EM_T a b then true else false.

(** ops.hpp:99-116 *)
Definition mean1 (v : list R) : R := Rsum v / INR (length v).
(** ops.hpp:196-199. [colwise().mean()] *)
Definition col_means (nc : nat) (x : list (list R)) : list R := map (fun s => s / INR (length x)) (col_sum nc x).

(** ops.hpp:19-24.  Entry (i, j) of [(centered.adjoint() * centered) / (rows - 1)]. *)
Definition center (nc : nat) (x : list (list R)) : list (list R) :=
  let m := col_means nc x in map (fun r => vsub r m) x.
(** ops.hpp:19-24 *)
Definition cov (nc : nat) (x : list (list R)) : list (list R) :=
  let c := center nc x in
  map (fun i => map (fun j => Rsum (map (fun r => nth i r 0 * nth j r 0) c) / (INR (length x) - 1)) (seq 0 nc)) (seq 0 nc).

(** ops.hpp:38-66 *)
Definition sq (a : R) : R := a * a.
(** ops.hpp:38-66 *)
Definition var (nc : nat) (x : list (list R)) (axis : Z) : outcome (list (list R)) :=
  if (axis =? 0)%Z then
    let colmean := col_means nc x in
    let x_squared_mean := col_means nc (map (map sq) x) in
    Ok [vsub x_squared_mean (map sq colmean)]
  else if (axis =? 1)%Z then
    let rowmean := map mean1 x in
    let x_squared_mean := map mean1 (map (map sq) x) in
    Ok (map (fun v => [v]) (vsub x_squared_mean (map sq rowmean)))
  else if (axis =? -1)%Z then
    let m := mean1 (concat x) in
    let x_squared_mean := mean1 (map sq (concat x)) in
    Ok [[x_squared_mean - m ^ 2]]
  else Throw InvalidArgument.

(** ops.hpp:74-91 *)
Definition sum (nc : nat) (x : list (list R)) (axis : Z) : outcome (list (list R)) :=
  if (axis =? 0)%Z then Ok [col_sum nc x]
  else if (axis =? 1)%Z then Ok (map (fun r => [Rsum r]) x)
  else if (axis =? -1)%Z then Ok [[Rsum (concat x)]]
  else Throw InvalidArgument.

(** ops.hpp:99-116 *)
Definition mean (nc : nat) (x : list (list R)) (axis : Z) : outcome (list (list R)) :=
  if (axis =? 0)%Z then Ok [col_means nc x]
  else if (axis =? 1)%Z then Ok (map (fun r => [mean1 r]) x)
  else if (axis =? -1)%Z then Ok [[mean1 (concat x)]]
  else Throw InvalidArgument.

(** ops.hpp:124-187 *)
Definition column {T} (dflt : T) (j : nat) (x : list (list T)) : list T := map (fun r => nth j r dflt) x.

(** ops.hpp:137-146 and its copies 154-164, 170-184.  [std::nth_element] leaves at the position asked for the element
    that sorting would put there; reading position 0 of nothing violates an assertion. *)
Definition median1 (v : list R) : outcome R :=
  let s := isort Rltb v in
  let n := length v in
  let index := (n / 2)%nat in
  let! value := vget s index in
  if (n mod 2 =? 0)%nat then let! w := vget s (index - 1) in Ok ((value + w) / 2) else Ok value.
(** ops.hpp:124-187.  For another axis the function ends without a return statement. *)
Definition median (nc : nat) (x : list (list R)) (axis : Z) : outcome (list R) :=
  if (axis =? 0)%Z then mapM (fun j => median1 (column 0 j x)) (seq 0 nc)
  else if (axis =? 1)%Z then mapM median1 x
  else if (axis =? -1)%Z then let! m := median1 (concat x) in Ok [m]
  else UB.

(** ops.hpp:230-233 on one entry *)
Definition sign1 (a : R) : R := if Rltb 0 a then 1 else if Rltb a 0 then -1 else 0.
(** ops.hpp:230-233 *)
Definition sign (x : list (list R)) : list (list R) := map (map sign1) x.

(** ops.hpp:238-246; for another axis the function ends without a return statement. *)
Definition norm_axis (nc : nat) (x : list (list R)) (axis : Z) : outcome (list R) :=
  if (axis =? 0)%Z then Ok (map sqrt (col_sum nc (map (map sq) x)))
  else if (axis =? 1)%Z then Ok (map (fun r => sqrt (Rsum (map sq r))) x)
  else UB.

(** ops.hpp:262, 270, 278. [std::partial_sum] *)
Fixpoint partial_sum_from (s : R) (v : list R) : list R :=
  match v with [] => [] | a :: v' => (s + a) :: partial_sum_from (s + a) v' end.
(** ops.hpp:262, 270, 278 *)
Definition partial_sum (v : list R) : list R := match v with [] => [] | a :: v' => a :: partial_sum_from a v' end.
(** ops.hpp:254-282. [cum_sum.col(j) = colsum] for j = 0, 1, ...: the matrix with the given columns. *)
Definition of_columns (nr : nat) (cs : list (list R)) : list (list R) := map (fun i => map (fun c => nth i c 0) cs) (seq 0 nr).
(** ops.hpp:254-282.  The flattened sum is a column.  For another axis an uninitialised matrix is returned. *)
Definition cumsum (nc : nat) (x : list (list R)) (axis : Z) : outcome (list (list R)) :=
  if (axis =? 0)%Z then Ok (of_columns (length x) (map (fun j => partial_sum (column 0 j x)) (seq 0 nc)))
  else if (axis =? 1)%Z then Ok (map partial_sum x)
  else if (axis =? -1)%Z then Ok (map (fun a => [a]) (partial_sum (concat x)))
  else UB.

Section Mode.
  Context {T : Type}.
  Variable eqb : T -> T -> bool.
  Variable ltb : T -> T -> bool.

  (** ops.hpp:304-310, 326-332. [++lookups[elem]], an unordered map; the new count is returned too. *)
  Fixpoint bump (m : list (T * nat)) (e : T) : list (T * nat) * nat :=
    match m with
    | [] => ([(e, 1%nat)], 1%nat)
    | (k, c) :: m' => if eqb k e then ((k, S c) :: m', S c) else let (m2, c2) := bump m' e in ((k, c) :: m2, c2)
    end.
  (** ops.hpp:304-310, 326-332; [most_frequent_elem] starts uninitialised. *)
  Definition mode_step (s : list (T * nat) * (nat * option T)) (e : T) : list (T * nat) * (nat * option T) :=
    let '(lookups, (best, el)) := s in
    let (lookups', f) := bump lookups e in
    (lookups', if (best <? f)%nat then (f, Some e) else (best, el)).
  (** ops.hpp:300-315, 322-337. Eigen's [minCoeff()] *)
  Definition min_coeff (v : list T) : outcome T :=
    match v with [] => UB | a :: v' => Ok (fold_left (fun m b => if ltb b m then b else m) v' a) end.
  (** ops.hpp:300-315, 322-337; reading the uninitialised element (no data) is undefined. *)
  Definition mode1 (v : list T) : outcome (T * nat) :=
    let '(_, (max_frequency, el)) := fold_left mode_step v ([], (0%nat, None)) in
    match el with
    | None => UB
    | Some e => if (max_frequency =? 1)%nat then let! m := min_coeff v in Ok (m, max_frequency) else Ok (e, max_frequency)
    end.
  (** ops.hpp:293-341: the 1 x cols or rows x 1 results as lists; another axis yields two empty matrices. *)
  Definition mode (dflt : T) (nc : nat) (x : list (list T)) (axis : Z) : outcome (list (T * nat)) :=
    if (axis =? 0)%Z then mapM (fun j => mode1 (column dflt j x)) (seq 0 nc)
    else if (axis =? 1)%Z then mapM mode1 x
    else Ok [].
End Mode.

(** * core/metric.hpp *)
(** metric.hpp:16-23 *)
Definition same_size (u v : list R) : bool := (length u =? length v)%nat.
(** metric.hpp:16-23; vectors of different sizes violate an assertion. *)
Definition mean_absolute_error (y_true y_pred : list R) : outcome R :=
  if same_size y_true y_pred then Ok (Rsum (map sq (vsub y_true y_pred)) / INR (length y_true)) else UB.
(** metric.hpp:32-45 *)
Definition explained_variance_score (y_true y_pred : list R) : outcome R :=
  if same_size y_pred y_true then
    let y_diff := vsub y_pred y_true in
    let y_diff_var := mean1 (map sq y_diff) - mean1 y_diff ^ 2 in
    let y_var := mean1 (map sq y_true) - mean1 y_true ^ 2 in
    Ok (1 - y_diff_var / y_var)
  else UB.
(** metric.hpp:50-57: [std::transform] reads as many elements of b as a has. *)
Definition transform2 (f : R -> R -> R) (a b : list R) : outcome (list R) :=
  if (length a <=? length b)%nat then Ok (map2 f a b) else UB.
(** metric.hpp:50-57 *)
Definition euclidean_distance (a b : list R) : outcome R :=
  let! aux := transform2 (fun x1 x2 => (x1 - x2) ^ 2) a b in Ok (sqrt (Rsum aux)).
(** metric.hpp:62-69 *)
Definition manhattan_distance (a b : list R) : outcome R :=
  let! aux := transform2 (fun x1 x2 => Rabs (x1 - x2)) a b in Ok (Rsum aux).
(** metric.hpp:84-117.  [Eigen::Infinity] is the integer -1; matrices are given by their shape and row-major entries.
    [lpNorm<Infinity>] of no entries is 0. *)
Definition minkowski_distance (x y : nat * nat * list R) (p : Z) : outcome R :=
  let '(xr, xc, xs) := x in
  let '(yr, yc, ys) := y in
  if negb (length xs =? length ys)%nat then Throw InvalidArgument
  else if negb (xr =? yr)%nat || negb (xc =? yc)%nat then Throw InvalidArgument
  else if negb ((p =? 1)%Z || (p =? 2)%Z || (p =? -1)%Z) then Throw InvalidArgument
  else if (p =? 2)%Z then Ok (sqrt (Rsum (map sq (vsub xs ys))))
  else if (p =? 1)%Z then Ok (Rsum (map Rabs (vsub xs ys)))
  else Ok (fold_left Rmax (map Rabs (vsub xs ys)) 0).
