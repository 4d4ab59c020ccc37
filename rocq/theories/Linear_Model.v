(** Models over the reals of [methods/linear_model/*.hpp].  X is the list of its rows; [d] is [X.cols()], which a list
    of no rows does not tell.  Printing is not modelled. *)
From Coq Require Import Reals String.
From Verif Require Import Base Common_Model KDReal_Proofs Impurity_Model Vec MathFun_Model Loss_Model Shuffle_Model Optim_Model Lbfgs_Model NB_Model.
Local Open Scope R_scope.
Set Implicit Arguments.

(** linear_regression.hpp:25-46 and ridge_regression.hpp:43. Linear systems.  Eigen's [inverse()] of a dynamic square matrix is [PartialPivLU]: elimination that takes, in every
    column, the remaining row whose coefficient there has the largest absolute value.  In exact arithmetic the result
    is determined by the matrix, so the order of the other rows is left as it is (Eigen swaps two rows).  A pivot of 0
    makes Eigen divide by 0 and fill the result with infinities and NaN: [None]. *)
Definition equation := (list R * R)%type.
(** linear_regression.hpp:25-46 and ridge_regression.hpp:43 *)
Definition lead (e : equation) : R := hd 0 (fst e).
(** linear_regression.hpp:25-46 and ridge_regression.hpp:43 *)
Fixpoint take_pivot (e : equation) (es : list equation) : equation * list equation :=
  match es with
  | [] => (e, [])
  | e' :: es' => if Rltb (Rabs (lead e)) (Rabs (lead e')) then let (p, r) := take_pivot e' es' in (p, e :: r)
                 else let (p, r) := take_pivot e es' in (p, e' :: r)
  end.
(** linear_regression.hpp:25-46 and ridge_regression.hpp:43 *)
Definition eliminate (p e : equation) : equation :=
  let f := lead e / lead p in (vsub (tl (fst e)) (vscale f (tl (fst p))), snd e - f * snd p).
(** linear_regression.hpp:25-46 and ridge_regression.hpp:43 *)
Fixpoint solve (d : nat) (es : list equation) : option (list R) :=
  match d, es with
  | O, _ => Some []
  | S d', [] => None
  | S d', e :: es' =>
      let (p, rest) := take_pivot e es' in
      if Req_EM_T (lead p) 0 then None
      else match solve d' (map (eliminate p) rest) with
           | None => None
           | Some x => Some ((snd p - dot (tl (fst p)) x) / lead p :: x)
           end
  end.
(** linear_regression.hpp:25-46 and ridge_regression.hpp:43 *)
Definition basis (d j : nat) : list R := set_nth (zeros d) j 1.
(** linear_regression.hpp:25-46 and ridge_regression.hpp:43. The columns of the inverse. *)
Fixpoint all_some {A} (l : list (option A)) : option (list A) :=
  match l with
  | [] => Some []
  | None :: _ => None
  | Some a :: r => match all_some r with None => None | Some r' => Some (a :: r') end
  end.
(** linear_regression.hpp:25-46 and ridge_regression.hpp:43 *)
Definition inverse_cols (d : nat) (A : list (list R)) : option (list (list R)) :=
  all_some (map (fun j => solve d (combine A (basis d j))) (seq 0 d)).

(** linear_regression.hpp:25-46. [X.transpose() * X], and with [lambda] on the diagonal. *)
Definition gram (d : nat) (X : list (list R)) : list (list R) :=
  map (fun i => map (fun j => Rsum (map (fun r => nth i r 0 * nth j r 0) X)) (seq 0 d)) (seq 0 d).
(** linear_regression.hpp:25-46 *)
Definition add_diag (lambda : R) (d : nat) (A : list (list R)) : list (list R) :=
  map2 (fun i r => vadd r (vscale lambda (basis d i))) (seq 0 d) A.
(** The column of ones of linear_regression.hpp:31-36, ridge_regression.hpp:29-34, lasso_regression.hpp:35-40,
    perceptron.hpp:49-54, logistic_regression.hpp:51-55, softmax_regression.hpp:45-50 *)
Definition with_ones (intercept : bool) (X : list (list R)) : list (list R) :=
  if intercept then map (fun x => x ++ [1]) X else X.
(** linear_regression.hpp:31-36 *)
Definition ncols (intercept : bool) (d : nat) : nat := if intercept then S d else d.
(** linear_regression.hpp:25-46. [inverse * X_new.transpose() * y]; computed from the right, which is the same over the reals. *)
Definition normal_solution (d : nat) (A X : list (list R)) (y : list R) : outcome (option (list R)) :=
  let! b := tmv d X y in
  Ok (match inverse_cols d A with None => None | Some cs => Some (vsum d (map2 vscale b cs)) end).
(** linear_regression.hpp:25-46 *)
Definition linear_fit (intercept : bool) (d : nat) (X : list (list R)) (y : list R) : outcome (option (list R)) :=
  let X_new := with_ones intercept X in
  let dn := ncols intercept d in
  normal_solution dn (gram dn X_new) X_new y.
(** ridge_regression.hpp:22-46 *)
Definition ridge_fit (lambda : R) (intercept : bool) (d : nat) (X : list (list R)) (y : list R) : outcome (option (list R)) :=
  let X_new := with_ones intercept X in
  let dn := ncols intercept d in
  normal_solution dn (add_diag lambda dn (gram dn X_new)) X_new y.

(** linear_model/base.hpp:40-54 (predict_label; also [predict] of the regressions).  [topRows] of more rows than there are and
    [bottomRows(1)] of none violate assertions. *)
Definition predict_label (intercept : bool) (w : list R) (d : nat) (X : list (list R)) : outcome (list R) :=
  if intercept then
    if (d <=? length w)%nat then
      let! p := mv X (firstn d w) in
      let! b := vget w (length w - 1) in
      Ok (map (fun a => a + b) p)
    else UB
  else if (d =? length w)%nat then mv X w else UB.

(** lasso_regression.hpp:27-58: the optimizer is given [X], not [X_new]. *)
Definition lasso_fit (lambda0 lambda l1_ratio : R) (perm : nat -> list nat) (shuffle : bool) (max_iter : nat) (intercept : bool)
  (d : nat) (X : list (list R)) (y : list R) : outcome (list R) :=
  scd_optimize (mse_gradient lambda0) lambda l1_ratio d perm shuffle max_iter X y (zeros (ncols intercept d)).

(** perceptron.hpp:42-81; [w0] is [setRandom]'s draw, [grad0] what [HingeLoss] finds in its uninitialised vector. *)
Definition perceptron_fit (grad0 w0 : list R) (lambda alpha gamma : R) (step_size : nat) (perm : nat -> list nat) (shuffle : bool)
  (batch_size num_iters_no_change : nat) (tol : R) (max_iter : nat) (X : list (list R)) (y : list R) : outcome (list R) :=
  optimize (sgd_step (hinge_gradient grad0 lambda 0) (hinge_evaluate lambda 0) clip_grad vanilla_update)
    (step_decay alpha gamma step_size) perm shuffle batch_size num_iters_no_change tol max_iter X y w0.
(** perceptron.hpp:137-150 *)
Definition perceptron_predict (intercept : bool) (w : list R) (d : nat) (X : list (list R)) : outcome (list R) :=
  let! p := predict_label intercept w d X in
  Ok (map (fun v => if Rltb 0 v then 1 else 0) p).

(** softmax_regression.hpp:39-79. Matrices of weights, by rows. *)
Definition mat_clip (G : list (list R)) : list (list R) := map clip_grad G.
(** softmax_regression.hpp:39-79 *)
Definition mat_update (W G : list (list R)) (lr : R) : outcome (list (list R)) :=
  if (length W =? length G)%nat then mapM (fun p => vanilla_update (fst p) (snd p) lr) (combine W G) else UB.
(** softmax_regression.hpp:39-79: [W0] has one row more than [X] has columns, and the optimizer is given [X]. *)
Definition softmax_fit (K : nat) (W0 : list (list R)) (lambda alpha gamma : R) (step_size : nat) (perm : nat -> list nat) (shuffle : bool)
  (batch_size num_iters_no_change : nat) (tol : R) (max_iter : nat) (X : list (list R)) (y : list nat) : outcome (list (list R)) :=
  optimize (sgd_step (softmax_gradient K lambda) (softmax_evaluate K lambda) mat_clip mat_update)
    (step_decay alpha gamma step_size) perm shuffle batch_size num_iters_no_change tol max_iter X y W0.
(** softmax_regression.hpp:81-96 with [intercept_], which every constructor sets *)
Definition softmax_boundary (K : nat) (W : list (list R)) (d : nat) (X : list (list R)) : outcome (list (list R)) :=
  if (d <=? length W)%nat then mapM (row_mul K (firstn d W)) X else UB.
(** softmax_regression.hpp:167-171 *)
Definition softmax_predict_prob (K : nat) (W : list (list R)) (d : nat) (X : list (list R)) : outcome (list (list R)) :=
  let! z := softmax_boundary K W d X in
  softmax K z 1.
(** softmax_regression.hpp:150-157 *)
Definition softmax_predict (K : nat) (W : list (list R)) (d : nat) (X : list (list R)) : outcome (list R) :=
  let! p := softmax_predict_prob K W d X in
  let! i := argmax_rows p in
  Ok (map INR i).

(** logistic_regression.hpp:41-152.  The four optimizers are arguments; [solver] and [penalty] choose. *)
Inductive solver_kind := UseSGD | UseSAG | UseLBFGS | UseSCD.
(** logistic_regression.hpp:41-152 *)
Definition logistic_solver (solver penalty : string) : outcome solver_kind :=
  if (String.eqb penalty "l2" || String.eqb penalty "None")%bool then
    if String.eqb solver "sgd" then Ok UseSGD
    else if String.eqb solver "sag" then Ok UseSAG
    else if String.eqb solver "lbfgs" then Ok UseLBFGS
    else Throw InvalidArgument
  else if String.eqb penalty "l1" then
    if String.eqb solver "scd" then Ok UseSCD else Throw InvalidArgument
  else Throw InvalidArgument.
(** logistic_regression.hpp:17-35. What [fit] reads: the parameters a constructor does not set are whatever memory holds. *)
Record logistic_params := LogisticParams {
  lp_lambda : R; lp_alpha : R; lp_gamma : R; lp_step_size : nat; lp_l1_ratio : R; lp_tol : R; lp_batch : nat; lp_max_iter : nat; lp_no_change : nat;
  lp_shuffle : bool; lp_lbfgs : list (list R) -> list R -> list R -> outcome (option (list R)) }.
(** logistic_regression.hpp:41-152 *)
Definition logistic_fit (P : logistic_params) (solver penalty : string) (perm : nat -> list nat) (w0 : list R) (d : nat) (X : list (list R)) (y : list R)
  : outcome (option (list R)) :=
  let X_new := with_ones true X in
  let! k := logistic_solver solver penalty in
  let gradient := log_gradient (lp_lambda P) in
  let evaluate := log_evaluate (lp_lambda P) in
  let decay := step_decay (lp_alpha P) (lp_gamma P) (lp_step_size P) in
  match k with
  | UseSGD =>
      let! w := optimize (sgd_step gradient evaluate clip_grad vanilla_update) decay perm (lp_shuffle P) (lp_batch P) (lp_no_change P) (lp_tol P)
                         (lp_max_iter P) X_new y w0 in Ok (Some w)
  | UseSAG =>
      let! s := optimize (sag_step gradient evaluate vanilla_update (lp_batch P)) decay perm (lp_shuffle P) (lp_batch P) (lp_no_change P) (lp_tol P)
                         (lp_max_iter P) X_new y (sag_init w0 (S d) (length X / lp_batch P)) in Ok (Some (sg_w s))
  | UseSCD =>
      let! w := scd_optimize gradient (lp_lambda P) (lp_l1_ratio P) (S d) perm (lp_shuffle P) (lp_max_iter P) X_new y w0 in Ok (Some w)
  | UseLBFGS => lp_lbfgs P X_new y w0
  end.
(** logistic_regression.hpp:268-284 *)
Definition logistic_predict (w : list R) (d : nat) (X : list (list R)) : outcome (list R) :=
  let! z := predict_label true w d X in
  Ok (map (fun v => if Rltb (1 / 2) v then 0 else 1) (sigmoid z)).
(** logistic_regression.hpp:154-170, 286-300 *)
Definition logistic_predict_prob (w : list R) (d : nat) (X : list (list R)) : outcome (list (list R)) :=
  let! z := predict_label true w d X in
  Ok (map (fun v => [v; 1 - v]) (sigmoid z)).
