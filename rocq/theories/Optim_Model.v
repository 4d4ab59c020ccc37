(** Models over the reals of [core/optimizer/sgd/*.hpp] and its policies.  Printing ([verbose_]) is not modelled.
    The loss is an arbitrary pair of functions that may fail; weights are of any type where nothing depends on it. *)
From Coq Require Import Reals.
From Verif Require Import Base Common_Model KDReal_Proofs Impurity_Model Vec Loss_Model Shuffle_Model.
Local Open Scope R_scope.
Set Implicit Arguments.

(** step_decay.hpp:35-39; division of integers by zero is undefined.  Overflow of [1 + epoch] is not modelled. *)
Definition step_decay (base_lr gamma : R) (step_size epoch : nat) : outcome R :=
  if (step_size =? 0)%nat then UB else Ok (base_lr * gamma ^ ((1 + epoch) / step_size)).
(** exponential_decay.hpp:31-34 *)
Definition exponential_decay (base_lr gamma : R) (epoch : nat) : outcome R := Ok (base_lr * exp (gamma * INR epoch)).

(** vanilla_update.hpp:19-24 on a column of weights *)
Definition vanilla_update (W grad : list R) (lr : R) : outcome (list R) := sub W (vscale lr grad).
(** momentum_update.hpp:24-33: [V] is a local variable. *)
Definition momentum_update (mu : R) (W grad : list R) (lr : R) : outcome (list R) :=
  let V := zeros (length W) in
  let! V := add (map (fun v => v * mu) V) (map (fun g => g * lr) grad) in
  sub W V.
(** nesterov_momentum_update.hpp:24-36.  [MatType V(nrows)] does not compile when the function is instantiated (and
    base.hpp does not include the file); modelled with V a column of [nrows] entries. *)
Definition nesterov_update (mu : R) (W grad : list R) (lr : R) : outcome (list R) :=
  let V := zeros (length W) in
  let prev_V := V in
  let! V := add (vscale mu V) (vscale lr grad) in
  let! D := sub V prev_V in
  let! V := add V (vscale mu D) in
  sub W V.

(** common.hpp:465-468 with the bounds of optimizer/base.hpp:40-41 *)
Definition clip_grad (g : list R) : list R := map (fun a => Rmax (Rmin a (10 ^ 10)) (- 10 ^ 10)) g.

(** sgd.hpp:76-96. [middleRows(begin, n)]: rows outside the matrix violate an assertion. *)
Definition middle_rows {A} (x : list A) (begin n : nat) : outcome (list A) :=
  if (begin + n <=? length x)%nat then Ok (firstn n (skipn begin x)) else UB.

Section Loop.
  Context {Row Lab S : Type}.
  (** What one batch does: state, learning rate, batch number, samples, labels; the new state and the loss. *)
  Variable step : S -> R -> nat -> list Row -> list Lab -> outcome (S * R).
  Variable decay : nat -> outcome R.
  (** The permutation drawn in each epoch (used if [shuffle]). *)
  Variable perm : nat -> list nat.
  Variable shuffle : bool.
  Variable batch_size num_iters_no_change : nat.
  Variable tol : R.

  (** sgd.hpp:76-96, sag.hpp:69-93, tg.hpp:100-129: the batches of one epoch.  [loss_history] is summed in order. *)
  Definition run_batch (lr : R) (X : list Row) (y : list Lab) (s : S * list R) (j : nat) : outcome (S * list R) :=
    let begin := (j * batch_size)%nat in
    let! X_batch := middle_rows X begin batch_size in
    let! y_batch := middle_rows y begin batch_size in
    let! r := step (fst s) lr j X_batch y_batch in
    Ok (fst r, snd s ++ [snd r]).
  (** sgd.hpp:76-96 *)
  Definition run_epoch (iter : nat) (X : list Row) (y : list Lab) (s : S) : outcome (S * R) :=
    let! lr := decay iter in
    let! r := foldM (run_batch lr X y) (seq 0 (length X / batch_size)) (s, []) in
    Ok (fst r, Rsum (snd r)).

  (** sgd.hpp:73-75, sag.hpp:66-68, tg.hpp:97-99, scd.hpp:55-57 *)
  Definition reshuffle (iter : nat) (X : list Row) (y : list Lab) : outcome (list Row * list Lab) :=
    if shuffle then shuffle_data2 (perm iter) X y else Ok (X, y).

  (** sgd.hpp:72-129. [best_loss] starts at infinity, here [None]. *)
  Definition not_improved (sum_loss : R) (best : option R) : bool :=
    match best with None => false | Some b => Rltb (b - tol * INR batch_size) sum_loss end.
  (** sgd.hpp:72-129 *)
  Definition better (sum_loss : R) (best : option R) : option R :=
    match best with None => Some sum_loss | Some b => if Rltb sum_loss b then Some sum_loss else Some b end.

  (** sgd.hpp:72-129, sag.hpp:65-126, tg.hpp:96-162.  The remaining epochs are a list; when none is left the code
      throws. *)
  Fixpoint epochs (iters : list nat) (X : list Row) (y : list Lab) (best : option R) (no_improvement_count : nat) (s : S) : outcome S :=
    match iters with
    | [] => Throw RuntimeError
    | iter :: rest =>
        let! XY := reshuffle iter X y in
        let! r := run_epoch iter (fst XY) (snd XY) s in
        let sum_loss := snd r in
        let count := if not_improved sum_loss best then Datatypes.S no_improvement_count else 0%nat in
        if (num_iters_no_change <=? count)%nat then Ok (fst r)
        else epochs rest (fst XY) (snd XY) (better sum_loss best) count (fst r)
    end.
  (** sgd.hpp:50-130, sag.hpp:48-127, tg.hpp:81-163: [num_samples / batch_size_] with 0 is undefined. *)
  Definition optimize (max_iter : nat) (X : list Row) (y : list Lab) (s : S) : outcome S :=
    if (batch_size =? 0)%nat then UB else epochs (seq 0 max_iter) X y None 0 s.
End Loop.

Section Steps.
  Context {Row Lab W : Type}.
  Variable gradient : list Row -> list Lab -> W -> outcome W.
  Variable evaluate : list Row -> list Lab -> W -> outcome R.
  Variable clip : W -> W.
  Variable update : W -> W -> R -> outcome W.
  (** sgd.hpp:87-93 *)
  Definition sgd_step (w : W) (lr : R) (j : nat) (Xb : list Row) (yb : list Lab) : outcome (W * R) :=
    let! grad := gradient Xb yb w in
    let! w' := update w (clip grad) lr in
    let! loss := evaluate Xb yb w' in
    Ok (w', loss).
End Steps.

Section Vector.
  Context {Row Lab : Type}.
  Variable gradient : list Row -> list Lab -> list R -> outcome (list R).
  Variable evaluate : list Row -> list Lab -> list R -> outcome R.
  Variable update : list R -> list R -> R -> outcome (list R).
  Variable batch_size : nat.

  (** sag.hpp:59-62. The state of SAG: weights, average gradient, table of gradients by batch number. *)
  Record sag_state := { sg_w : list R; sg_avg : list R; sg_hist : list (list R) }.
  (** sag.hpp:59-62.  The mean over no batches is 0/0 and never used. *)
  Definition sag_init (w : list R) (num_features num_batch : nat) : sag_state :=
    {| sg_w := w; sg_avg := zeros num_features; sg_hist := repeat (zeros num_features) num_batch |}.
  (** sag.hpp:80-91 *)
  Definition sag_step (s : sag_state) (lr : R) (j : nat) (Xb : list Row) (yb : list Lab) : outcome (sag_state * R) :=
    let! grad := gradient Xb yb (sg_w s) in
    let grad := clip_grad grad in
    let! old := vget (sg_hist s) j in
    let! diff := sub grad old in
    let! avg := add (sg_avg s) (map (fun a => a / INR batch_size) diff) in
    let hist := set_nth (sg_hist s) j grad in
    let! w := update (sg_w s) avg lr in
    let! loss := evaluate Xb yb w in
    Ok ({| sg_w := w; sg_avg := avg; sg_hist := hist |}, loss).

  (** tg.hpp:29-49: one coordinate with its [cum_l1]; the new [cum_l1] is zeroed before the function returns. *)
  Definition truncate1 (max_cum_l1 w_j cum_j : R) : R :=
    if Rltb 0 w_j then Rmax 0 (w_j - (max_cum_l1 + cum_j))
    else if Rltb w_j 0 then Rmin 0 (w_j + (max_cum_l1 - cum_j))
    else w_j.
  (** tg.hpp:29-49 *)
  Definition truncate (w cum_l1 : list R) (max_cum_l1 : R) : outcome (list R * list R) :=
    if (length w <=? length cum_l1)%nat then Ok (map2 (truncate1 max_cum_l1) w cum_l1, zeros (length cum_l1)) else UB.

  (** tg.hpp:111-126. The state of TruncatedGradient: weights, [cum_l1], [max_cum_l1]. *)
  Record tg_state := { tg_w : list R; tg_cum : list R; tg_max : R }.
  (** tg.hpp:111-126 *)
  Definition tg_init (w : list R) (num_features : nat) : tg_state := {| tg_w := w; tg_cum := zeros num_features; tg_max := 0 |}.
  (** tg.hpp:111-126 *)
  Definition tg_step (alpha l1_ratio : R) (s : tg_state) (lr : R) (j : nat) (Xb : list Row) (yb : list Lab) : outcome (tg_state * R) :=
    let! grad := gradient Xb yb (tg_w s) in
    let! w := update (tg_w s) (clip_grad grad) lr in
    let m := tg_max s + l1_ratio * lr * alpha in
    let! t := truncate w (tg_cum s) m in
    let! loss := evaluate Xb yb (fst t) in
    Ok ({| tg_w := fst t; tg_cum := snd t; tg_max := m |}, loss).

  (** scd.hpp:67-75.  A division by [l1_ratio_ = 0] gives infinities or NaN and is not modelled. *)
  Definition scd_eta (lambda l1_ratio x g : R) : R :=
    if Rltb (lambda / l1_ratio) (x - g / l1_ratio) then - g / l1_ratio - lambda / l1_ratio
    else if Rltb (x - g / l1_ratio) (- lambda / l1_ratio) then - g / l1_ratio + lambda / l1_ratio
    else - x.
  (** scd.hpp:77-80 *)
  Definition scd_descent (lambda l1_ratio x g eta : R) : R :=
    - eta * g - l1_ratio / 2 * eta * eta - lambda * Rabs (x + eta) + lambda * Rabs x.
  (** scd.hpp:66-88: best descent so far, its coordinate and its step. *)
  Definition scd_pick (lambda l1_ratio : R) (w grad : list R) (s : R * nat * R) (j : nat) : outcome (R * nat * R) :=
    let! x := vget w j in
    let! g := vget grad j in
    let eta := scd_eta lambda l1_ratio x g in
    let pred_descent := scd_descent lambda l1_ratio x g eta in
    if Rltb (fst (fst s)) pred_descent then Ok (pred_descent, j, eta) else Ok s.
  (** scd.hpp:59-92 without the shuffle and the printing *)
  Definition scd_step (lambda l1_ratio : R) (num_features : nat) (X : list Row) (y : list Lab) (w : list R) : outcome (list R) :=
    let! grad := gradient X y w in
    let! best := foldM (scd_pick lambda l1_ratio w grad) (seq 0 num_features) (-1, 0%nat, 0) in
    let! x := vget w (snd (fst best)) in
    Ok (set_nth w (snd (fst best)) (x + snd best)).
  (** scd.hpp:43-104: the data are shuffled again before every step. *)
  Fixpoint scd_loop (lambda l1_ratio : R) (num_features : nat) (perm : nat -> list nat) (shuffle : bool) (iters : list nat)
    (X : list Row) (y : list Lab) (w : list R) : outcome (list R) :=
    match iters with
    | [] => Ok w
    | iter :: rest =>
        let! XY := reshuffle perm shuffle iter X y in
        let! w' := scd_step lambda l1_ratio num_features (fst XY) (snd XY) w in
        scd_loop lambda l1_ratio num_features perm shuffle rest (fst XY) (snd XY) w'
    end.
  (** scd.hpp:43-104 *)
  Definition scd_optimize (lambda l1_ratio : R) (num_features : nat) (perm : nat -> list nat) (shuffle : bool) (max_iter : nat)
    (X : list Row) (y : list Lab) (w : list R) : outcome (list R) :=
    scd_loop lambda l1_ratio num_features perm shuffle (seq 0 max_iter) X y w.
End Vector.
