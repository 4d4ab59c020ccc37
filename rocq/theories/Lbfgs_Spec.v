(** What limited-memory BFGS is, independently of the ring buffer.  Lists of points and of correction pairs have the
    newest element first. *)
From Coq Require Import Reals.
From Verif Require Import Base Vec Lbfgs_Model LineSearch_Spec.
Local Open Scope R_scope.
Set Implicit Arguments.

(** The inverse BFGS update of an operator H by a correction pair (s, y):
    (I - rho s y') H (I - rho y s') + rho s s' with rho = 1 / y's. *)
Definition bfgs_update (s y : list R) (H : list R -> list R) (v : list R) : list R :=
  let rho := / dot y s in
  let w := H (vsub v (vscale (rho * dot s v) y)) in
  vadd (vsub w (vscale (rho * dot y w) s)) (vscale (rho * dot s v) s).
(** Starting from gamma times the identity, updated by the pairs from the oldest to the newest. *)
Definition inverse_hessian (gamma : R) (pairs : list (list R * list R)) : list R -> list R :=
  fold_right (fun p H => bfgs_update (fst p) (snd p) H) (vscale gamma) pairs.

(** A point visited: argument, objective value, gradient. *)
Definition point : Type := list R * R * list R.
Definition p_x (p : point) := fst (fst p).
Definition p_f (p : point) := snd (fst p).
Definition p_g (p : point) := snd p.

Fixpoint corrections (pts : list point) : list (list R * list R) :=
  match pts with
  | a :: ((b :: _) as rest) => (vsub (p_x a) (p_x b), vsub (p_g a) (p_g b)) :: corrections rest
  | _ => []
  end.
Definition scaling (pairs : list (list R * list R)) : R :=
  match pairs with [] => 1 | (s, y) :: _ => dot y s / dot y y end.
(** The search direction at the newest point: minus the inverse Hessian of the last m pairs times the gradient. *)
Definition lbfgs_direction (m : nat) (pts : list point) : list R :=
  match pts with
  | [] => []
  | p :: _ => let pairs := firstn m (corrections pts) in inverse_hessian (scaling pairs) pairs (map Ropp (p_g p))
  end.

(** The points that a run visits: each one satisfies the line search condition along the L-BFGS direction at its
    predecessor. *)
Inductive accepted_points (evaluate : list R -> outcome R) (gradient : list R -> outcome (list R)) (P : ls_params) (m : nat) (x0 : list R)
  : list point -> Prop :=
| accepted_start : forall f0 g0, evaluate x0 = Ok f0 -> gradient x0 = Ok g0 -> accepted_points evaluate gradient P m x0 [(x0, f0, g0)]
| accepted_next : forall p pts step x' f' g',
    accepted_points evaluate gradient P m x0 (p :: pts) ->
    dot (lbfgs_direction m (p :: pts)) (p_g p) <= 0 -> 0 < step ->
    at_step evaluate gradient (p_x p) (lbfgs_direction m (p :: pts)) step x' f' g' ->
    acceptable P (lbfgs_direction m (p :: pts)) (p_f p) (dot (lbfgs_direction m (p :: pts)) (p_g p)) step f' g' ->
    accepted_points evaluate gradient P m x0 ((x', f', g') :: p :: pts).

(** The gradient is small compared to the point. *)
Definition small_gradient (tol : R) (p : point) : Prop :=
  sqrt (sqn (p_g p)) / Rmax 1 (sqrt (sqn (p_x p))) <= tol.
(** The objective moved little since the value [old]. *)
Definition small_change (delta old f : R) : Prop := Rabs (old - f) / Rmax (Rabs f) 1 < delta.

(** When a run ends.  [pts] are the points visited, newest first; one fewer steps were accepted. *)
Section Stops.
  Variable past max_iter : nat.
  Variables tol delta : R.
  (** The memory of old objective values as it was allocated. *)
  Variable garbage : nat -> R.

  (** The value the objective is compared to after the k-th step, k >= past: the one [past] steps earlier, except that
      for past < k < 2 past it is whatever the memory contained when it was allocated. *)
  Definition reference_value (pts : list point) (old : R) : Prop :=
    let k := pred (length pts) in
    (past <= k)%nat /\
    if ((k =? past)%nat || (2 * past <=? k)%nat)%bool
    then exists p, nth_error pts past = Some p /\ old = p_f p
    else old = garbage (k - past).
  Definition objective_settled (pts : list point) : Prop :=
    exists p rest old, pts = p :: rest /\ reference_value pts old /\ small_change delta old (p_f p).
  Definition gradient_settled (pts : list point) : Prop := exists p rest, pts = p :: rest /\ small_gradient tol p.
  Definition limit_reached (pts : list point) : Prop := max_iter <> O /\ (max_iter <= pred (length pts))%nat.
  (** The tests after an accepted step; at the start only the gradient is tested. *)
  Definition settled (pts : list point) : Prop :=
    gradient_settled pts \/ ((1 < length pts)%nat /\ (objective_settled pts \/ limit_reached pts)).
End Stops.

(** The first step is tried at 1/|g|, every other at 1. *)
Definition first_trial (pts : list point) : R :=
  match pts with [p] => 1 / sqrt (sqn (map Ropp (p_g p))) | _ => 1 end.
(** The line search at the newest point ends without success. *)
Definition search_fails (policy : ls_policy) evaluate gradient P (m : nat) (pts : list point) : Prop :=
  exists p rest r, pts = p :: rest /\
    line_search policy evaluate gradient P (p_x p) (p_f p) (p_g p) (lbfgs_direction m pts) (first_trial pts) (p_x p) = Ok r /\ ls_code r = None.
