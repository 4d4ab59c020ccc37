(** What a line search must deliver.  [fx] and [slope] are the value and the directional derivative at the start. *)
From Coq Require Import Reals.
From Verif Require Import Base Vec Lbfgs_Model.
Local Open Scope R_scope.
Set Implicit Arguments.

Section Spec.
  Variable evaluate : list R -> outcome R.
  Variable gradient : list R -> outcome (list R).
  Variable P : ls_params.
  Variables xp d : list R.
  Variables fx slope : R.

  (** The objective and its gradient at the point reached with a step. *)
  Definition at_step (step : R) (x : list R) (fx' : R) (g' : list R) : Prop :=
    length d = length xp /\ x = vadd xp (vscale step d) /\ evaluate x = Ok fx' /\ gradient x = Ok g'.

  (** Sufficient decrease; for the Wolfe conditions also the curvature condition, one-sided or (any other
      condition string) on both sides. *)
  Definition acceptable (step fx' : R) (g' : list R) : Prop :=
    fx' <= fx + step * (ftol P * slope) /\
    match condition P with
    | Armijo => True
    | Wolfe => wolfe P * slope <= dot d g'
    | OtherCondition => wolfe P * slope <= dot d g' <= - (wolfe P * slope)
    end.
  (** The step is too long: not enough decrease, or (two-sided condition) rising too steeply there. *)
  Definition long_step (step : R) : Prop :=
    exists x fx' g', at_step step x fx' g' /\
      (fx + step * (ftol P * slope) < fx' \/ (condition P = OtherCondition /\ wolfe P * slope <= dot d g' /\ - (wolfe P * slope) < dot d g')).
  (** Too short: enough decrease, but still falling too steeply there. *)
  Definition short_step (step : R) : Prop :=
    exists x fx' g', at_step step x fx' g' /\ fx' <= fx + step * (ftol P * slope) /\ condition P <> Armijo /\ dot d g' < wolfe P * slope.

  (** The limits that end a search without success. *)
  Definition exhausted (step : R) (trials : nat) : Prop :=
    step < min_step P \/ max_step P < step \/ (max_linesearch P <= trials)%nat.
End Spec.

(** Consecutive elements, with everything up to the first of them. *)
Definition consecutive {A} (l : list A) (before : list A) (a b : A) : Prop := exists after, l = before ++ a :: b :: after.

Section Sequences.
  Variable P : ls_params.
  Variables long short : R -> Prop.

  (** Backtracking: a step that is too long is multiplied by one factor, one that is too short by the other. *)
  Definition backtracking_steps (first : R) (tried : list R) : Prop :=
    hd_error tried = Some first /\
    forall before a b, consecutive tried before a b -> (long a /\ b = a * dec_factor P) \/ (short a /\ b = a * inc_factor P).

  (** Bracketing: as long as no step was too long the step doubles; then it is the midpoint between the longest step
      that was too short (0 if none was) and the shortest one that was too long. *)
  Definition longest_short (l : list R) (lo : R) : Prop :=
    ((lo = 0 /\ forall c, In c l -> ~ short c) \/ (In lo l /\ short lo)) /\ forall c, In c l -> short c -> c <= lo.
  Definition shortest_long (l : list R) (hi : R) : Prop :=
    In hi l /\ long hi /\ forall c, In c l -> long c -> hi <= c.
  Definition bracketing_steps (first : R) (tried : list R) : Prop :=
    hd_error tried = Some first /\
    forall before a b, consecutive tried before a b ->
      (short a \/ long a) /\
      (((forall c, In c (before ++ [a]) -> ~ long c) /\ b = 2 * a) \/
       (exists lo hi, longest_short (before ++ [a]) lo /\ shortest_long (before ++ [a]) hi /\ b = (lo + hi) / 2)).
  (** No step is tried twice: later steps are shorter than any that was too long, longer than any too short. *)
  Definition narrowing (tried : list R) : Prop :=
    forall before a after, tried = before ++ a :: after ->
      forall b, In b after -> (long a -> b < a) /\ (short a -> a < b).
End Sequences.
