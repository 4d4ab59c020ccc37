(** Predictions of the linear models with a rounding after every operation; the sums of a product [X * w] are added up in the order [s]. *)
From Coq Require Import Reals.
From Verif Require Import Base Vec KDReal_Proofs Round_Spec.
Local Open Scope R_scope.
Section AccuracyModel.
  Variable rnd : R -> R.
  (** linear_model/base.hpp:40-54. Eigen's [X * w] (compare [mv]) *)
  Definition mv_r (s : order) (X : list (list R)) (w : list R) : outcome (list R) :=
    mapM (fun r => if (length r =? length w)%nat then Ok (add_up rnd s (map2 (fun a b => rnd (a * b)) r w)) else UB) X.
  (** linear_model/base.hpp:40-54 (compare [predict_label]) *)
  Definition predict_label_r (s : order) (intercept : bool) (w : list R) (d : nat) (X : list (list R)) : outcome (list R) :=
    if intercept then
      if (d <=? length w)%nat then
        let! p := mv_r s X (firstn d w) in
        let! b := vget w (length w - 1) in
        Ok (map (fun a => rnd (a + b)) p)
      else UB
    else if (d =? length w)%nat then mv_r s X w else UB.
  (** perceptron.hpp:137-150 (compare [perceptron_predict]) *)
  Definition perceptron_predict_r (s : order) (intercept : bool) (w : list R) (d : nat) (X : list (list R)) : outcome (list R) :=
    let! p := predict_label_r s intercept w d X in
    Ok (map (fun v => if Rltb 0 v then 1 else 0) p).
End AccuracyModel.
