(** Models over the reals of [core/loss/*.hpp].  X is the list of its rows (the samples), y and W are lists.
    [n = X.rows()]; a division by n = 0 is a NaN in the code and is not modelled (every theorem has n > 0). *)
From Coq Require Import Reals.
From Verif Require Import Base Common_Model KDReal_Proofs Impurity_Model Vec MathFun_Model.
Local Open Scope R_scope.
Set Implicit Arguments.

(** mean_squared_error.hpp:30-46. Eigen's [X * W]: inner sizes that differ violate an assertion. *)
Definition mv (X : list (list R)) (W : list R) : outcome (list R) :=
  mapM (fun x => if (length x =? length W)%nat then Ok (dot x W) else UB) X.
(** mean_squared_error.hpp:54-71. Eigen's [X.transpose() * v]; [d = X.cols()]. *)
Definition tmv (d : nat) (X : list (list R)) (v : list R) : outcome (list R) :=
  if (length X =? length v)%nat then Ok (vsum d (map2 vscale v X)) else UB.
(** mean_squared_error.hpp:30-46. Sums and differences of vectors of different sizes violate an assertion. *)
Definition sub (u v : list R) : outcome (list R) := if (length u =? length v)%nat then Ok (vsub u v) else UB.
(** mean_squared_error.hpp:30-46 *)
Definition add (u v : list R) : outcome (list R) := if (length u =? length v)%nat then Ok (vadd u v) else UB.
(** log_loss.hpp:32-55. Coefficient-wise product. *)
Definition mul (u v : list R) : outcome (list R) := if (length u =? length v)%nat then Ok (map2 Rmult u v) else UB.
(** log_loss.hpp:32-55 *)
Definition cols (X : list (list R)) (W : list R) : nat := match X with [] => length W | x :: _ => length x end.

(** mean_squared_error.hpp:42-43, log_loss.hpp:51-52, hinge_loss.hpp:48-49, huber_loss.hpp:53-54 *)
Definition reg_term (n : R) (W : list R) : R := dot W W / (n * 2).
(** mean_squared_error.hpp:67-70, log_loss.hpp:78-81, hinge_loss.hpp:84-86, huber_loss.hpp:87-89 *)
Definition with_reg (lambda n : R) (grad W : list R) : outcome (list R) :=
  add grad (vscale lambda (map (fun w => w / n) W)).

(** mean_squared_error.hpp:30-46 *)
Definition mse_evaluate (lambda : R) (X : list (list R)) (y W : list R) : outcome R :=
  let n := INR (length X) in
  let! y_hat := mv X W in
  let! diff := sub y y_hat in
  let loss := (1 / 2) * Rsum (map (fun a => a ^ 2) diff) / n in
  Ok (loss + reg_term n W * lambda).
(** mean_squared_error.hpp:54-71 *)
Definition mse_gradient (lambda : R) (X : list (list R)) (y W : list R) : outcome (list R) :=
  let n := INR (length X) in
  let! y_hat := mv X W in
  let! diff := sub y_hat y in
  let! g := tmv (cols X W) X diff in
  with_reg lambda n (map (fun a => a / n) g) W.

(** log_loss.hpp:32-55 *)
Definition log_evaluate (lambda : R) (X : list (list R)) (y W : list R) : outcome R :=
  let n := INR (length X) in
  let! X_w := mv X W in
  let y_hat := sigmoid X_w in
  let! tmp1 := mul (map (fun a => -1 * a) y) (map ln y_hat) in
  let! tmp2 := mul (map (fun a => 1 - a) y) (map (fun a => ln (1 - a)) y_hat) in
  let! tmp3 := sub tmp1 tmp2 in
  let loss := Rsum tmp3 / n in
  Ok (loss + reg_term n W * lambda).
(** log_loss.hpp:63-82 *)
Definition log_gradient (lambda : R) (X : list (list R)) (y W : list R) : outcome (list R) :=
  let n := INR (length X) in
  let! X_w := mv X W in
  let! diff := sub (sigmoid X_w) y in
  let! g := tmv (cols X W) X diff in
  with_reg lambda n (map (fun a => a / n) g) W.

(** hinge_loss.hpp:33-52 *)
Definition hinge_evaluate (lambda threshold : R) (X : list (list R)) (y W : list R) : outcome R :=
  let n := INR (length X) in
  let! X_w := mv X W in
  let! m := mul X_w y in
  let loss := fold_left (fun s a => s + Rmax 0 (threshold - a)) m 0 in
  Ok (loss + reg_term n W * lambda).
(** hinge_loss.hpp:60-87.  [grad0] is what the freshly allocated [VecType grad(num_features)] holds: Eigen does not
    initialise it and the loop adds to it. *)
Definition hinge_gradient (grad0 : list R) (lambda threshold : R) (X : list (list R)) (y W : list R) : outcome (list R) :=
  let n := INR (length X) in
  let! X_w := mv X W in
  let! grad := foldM (fun g i =>
      let! xw := vget X_w i in
      let! yi := vget y i in
      let! x := vget X i in
      if Rltb threshold (xw * yi) then add g (zeros (cols X W)) else add g (vscale (- yi) x))
    (seq 0 (length X)) grad0 in
  with_reg lambda n grad W.

(** huber_loss.hpp:33-57. [norm()] *)
Definition norm2 (v : list R) : R := sqrt (Rsum (map (fun a => a * a) v)).
(** huber_loss.hpp:33-57 *)
Definition Rsign (a : R) : R := if Rltb 0 a then 1 else if Rltb a 0 then -1 else 0.
(** huber_loss.hpp:33-57 (as written [array().norm()] is not an Eigen method; [matrix().norm()] is meant) *)
Definition huber_evaluate (lambda delta : R) (X : list (list R)) (y W : list R) : outcome R :=
  let n := INR (length X) in
  let! X_w := mv X W in
  let! r := sub y X_w in
  let condition := norm2 r in
  let loss := if negb (Rltb delta condition) then (1 / 2) * condition
              else delta * Rsum (map (fun a => Rabs (a - (1 / 2) * delta)) r) in
  Ok (loss + reg_term n W * lambda).
(** huber_loss.hpp:65-90 *)
Definition huber_gradient (lambda delta : R) (X : list (list R)) (y W : list R) : outcome (list R) :=
  let n := INR (length X) in
  let! X_w := mv X W in
  let! r := sub y X_w in
  let condition := norm2 r in
  let! d := sub X_w y in
  let! grad :=
    if negb (Rltb delta condition) then let! t := tmv (cols X W) X d in Ok (map (fun a => a / n) t)
    else let! t := tmv (cols X W) X (map Rsign d) in Ok (map (fun a => a * (delta / n)) t) in
  with_reg lambda n grad W.

(** softmax_loss.hpp:40-52 and 78-90. Matrix-valued parameters: W is the list of its [d] rows, each with one entry per class.  Eigen's [X * W]. *)
Definition row_mul (K : nat) (W : list (list R)) (x : list R) : outcome (list R) :=
  if (length x =? length W)%nat then Ok (vsum K (map2 vscale x W)) else UB.
(** softmax_loss.hpp:40-52 and 78-90.  Labels are the values [static_cast<std::size_t>(y(i, 0))]. *)
Definition softmax_exp (K : nat) (X W : list (list R)) : outcome (list (list R)) :=
  let! xw := mapM (row_mul K W) X in
  let! m := max_coeff (concat xw) in
  Ok (map (map (fun a => exp (a - m))) xw).
(** softmax_loss.hpp:33-63. [(W.transpose() * W).array().sum()]: the sum of all entries of the K x K product. *)
Definition gram_sum (K : nat) (W : list (list R)) : R :=
  Rsum (map (fun k => Rsum (map (fun l => Rsum (map (fun w => nth k w 0 * nth l w 0) W)) (seq 0 K))) (seq 0 K)).
(** softmax_loss.hpp:33-63 *)
Definition softmax_evaluate (K : nat) (lambda : R) (X : list (list R)) (y : list nat) (W : list (list R)) : outcome R :=
  let n := INR (length X) in
  let! e := softmax_exp K X W in
  let! p := mapM (fun i => let! c := vget y i in let! r := vget e i in let! a := vget r c in Ok (a / Rsum r))
                 (seq 0 (length X)) in
  let loss := - Rsum (map ln p) in
  Ok (loss / n + gram_sum K W / (n * 2) * lambda).
(** softmax_loss.hpp:71-99.  The gradient is d x K: row j is the sum over the samples of x_j times the sample's
    row of residuals. *)
Definition softmax_gradient (K : nat) (lambda : R) (X : list (list R)) (y : list nat) (W : list (list R)) : outcome (list (list R)) :=
  let n := INR (length X) in
  let! e := softmax_exp K X W in
  let! p := mapM (fun i =>
      let! c := vget y i in
      let! r := vget e i in
      let q := map (fun a => a / Rsum r) r in
      let! a := vget q c in
      Ok (set_nth q c (a - 1))) (seq 0 (length X)) in
  let! g := mapM (fun j =>
      let! xs := mapM (fun x => vget x j) X in
      Ok (vscale (1 / n) (vsum K (map2 vscale xs p)))) (seq 0 (length W)) in
  Ok (map2 (fun gj w => vadd gj (vscale lambda (map (fun a => a / n) w))) g W).
