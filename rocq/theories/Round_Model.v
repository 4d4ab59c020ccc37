(** Models with rounded arithmetic of sigmoid and softmax ([core/math/extmath.hpp]), of the class probabilities inside the
    softmax loss, of [train_test_split], of the thresholds of decision trees, of mean and variance ([core/math/ops.hpp]), of the
    choice of a candidate in k-means++ and of the truncation of [core/optimizer/sgd/tg.hpp].
    [rnd] rounds the result of one operation, [ex] is the computed exponential and an [order] says how a sum is added
    up.  Overflow is not modelled. *)
From Coq Require Import Reals.
From Verif Require Import Base KDReal_Proofs Split_Model Vec MathFun_Model KMeans_Model Round_Spec.
Local Open Scope R_scope.
Set Implicit Arguments.

Section Rounded.
  Variable rnd : R -> R.
  Variable ex : R -> R.

  (** extmath.hpp:16-22. One division: by zero the result is infinite or NaN, written [None]. *)
  Definition fdiv (a b : R) : option R := if Req_EM_T b 0 then None else Some (rnd (a / b)).

  (** extmath.hpp:16-22 for one entry (compare [sigmoid1]). *)
  Definition sigmoid_r (x : R) : option R := fdiv (ex (fmin x 0)) (rnd (1 + ex (- Rabs x))).

  (** extmath.hpp:234-270, axis 1, for one row (compare [softmax]). *)
  Definition softmax_row_r (s : order) (r : list R) : outcome (list (option R)) :=
    let! m := max_coeff r in
    let e := map (fun b => ex (rnd (b - m))) r in
    Ok (map (fun b => fdiv b (add_up rnd s e)) e).
  (** extmath.hpp:234-270, axis 1. *)
  Definition softmax_r (s : order) (nc : nat) (x : list (list R)) : outcome (list (list (option R))) :=
    if (length x =? 1)%nat || (nc =? 1)%nat then Throw InvalidArgument else mapM (softmax_row_r s) x.

  (** softmax_loss.hpp:40-45 and 78-84 from the matrix [xw] on: exponentials relative to the largest entry of the whole
      matrix, and (56, 80) their ratio to the sum of the row. *)
  Definition loss_probs_r (s : order) (xw : list (list R)) : outcome (list (list (option R))) :=
    let! m := max_coeff (concat xw) in
    Ok (map (fun r => let e := map (fun b => ex (rnd (b - m))) r in map (fun b => fdiv b (add_up rnd s e)) e) xw).
  (** softmax_loss.hpp:41, 79 [X * W], every entry of the product added up in the order [s]; [W] is the list of its rows. *)
  Definition matmul_r (s : order) (nc : nat) (X W : list (list R)) : list (list R) :=
    map (fun r => map (fun j => add_up rnd s (map2 (fun a w => rnd (a * nth j w 0)) r W)) (seq 0 nc)) X.

  (** split.hpp:36. Conversion of a double to an integer: truncation towards zero. *)
  Definition trunc_r (v : R) : Z := if Rle_dec 0 v then Int_part v else (- Int_part (- v))%Z.
  (** split.hpp:21-45 (compare [train_test_split]); the product of line 36 is rounded. *)
  Definition train_test_split_r {A B} (X : list A) (y : list B) (train_size : R) (shuffle : option (list nat))
    : outcome (list A * list A * list B * list B) :=
    let! (X', y') := match shuffle with
                     | Some p => shuffle_both p X y
                     | None => Ok (X, y)
                     end in
    let num_train := trunc_r (rnd (INR (length X) * train_size)) in
    let num_test := (Z.of_nat (length X) - num_train)%Z in
    let! X_train := top_rows X' num_train in
    let! X_test := bottom_rows X' num_test in
    let! y_train := top_rows y' num_train in
    let! y_test := bottom_rows y' num_test in
    Ok (X_train, X_test, y_train, y_test).

  (** tree/base.hpp:31 [(a + b) / 2] (compare [Rmid]). *)
  Definition mid_r (a b : R) : R := rnd (rnd (a + b) / 2).

  (** Eigen's [mean()] of a vector, and ops.hpp:57-62 (compare [mean_vec], [var_vec]); [std::pow(mean, 2)] is the rounded square. *)
  Definition mean_r (s : order) (y : list R) : outcome R :=
    match y with [] => UB | _ => Ok (rnd (add_up rnd s y / INR (length y))) end.
  (** ops.hpp:57-62 *)
  Definition var_r (s : order) (y : list R) : outcome R :=
    let! m := mean_r s y in
    let! m2 := mean_r s (map (fun v => rnd (v * v)) y) in
    Ok (rnd (m2 - rnd (m * m))).

  (** ops.hpp:274-280 (compare [cumsum]): the running sums start from the first entry. *)
  Fixpoint cumsum_from_r (s : R) (l : list R) : list R :=
    match l with [] => [] | a :: l' => rnd (s + a) :: cumsum_from_r (rnd (s + a)) l' end.
  (** ops.hpp:274-280 *)
  Definition cumsum_r (l : list R) : list R := match l with [] => [] | a :: l' => a :: cumsum_from_r a l' end.
  (** kmeans.hpp:62-77 (compare [candidate_index]): [draw] is the random number, [pot] the potential. *)
  Definition candidate_index_r (closest_dist : list R) (pot draw : R) : outcome nat :=
    let! k := lower_bound (cumsum_r closest_dist) (rnd (draw * pot)) in
    Ok (if (length closest_dist - 1 <? k)%nat then (length closest_dist - 1)%nat else k).

  (** tg.hpp:29-49 for one coordinate (compare [truncate1]); [cum_l1] is zero whenever the function is called. *)
  Definition truncate1_r (max_cum_l1 w_j : R) : R :=
    if Rltb 0 w_j then Rmax 0 (rnd (w_j - rnd (max_cum_l1 + 0)))
    else if Rltb w_j 0 then Rmin 0 (rnd (w_j + rnd (max_cum_l1 - 0)))
    else w_j.
End Rounded.
