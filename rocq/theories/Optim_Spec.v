(** What the stochastic optimizers are supposed to do, in terms of data, batches and losses only. *)
From Coq Require Import Reals.
From Verif Require Import Base Impurity_Spec Vec.
Local Open Scope R_scope.
Set Implicit Arguments.

(** [p] is a permutation of the positions of a list of length [n]. *)
Definition is_perm (n : nat) (p : list nat) : Prop := Permutation p (seq 0 n).

(** The samples with their labels are those of [X], [y] in another order. *)
Definition reordered {A B} (X X' : list A) (y y' : list B) : Prop :=
  length X' = length X /\ length y' = length y /\ Permutation (combine X y) (combine X' y').

(** [bl] cuts the first [length bl * size] samples into consecutive batches of [size]; fewer than [size] samples are
    left over. *)
Definition in_batches {A B} (size : nat) (X : list A) (y : list B) (bl : list (list A * list B)) : Prop :=
  (forall b, In b bl -> length (fst b) = size /\ length (snd b) = size) /\
  (exists restX, X = concat (map fst bl) ++ restX /\ (length restX < size)%nat) /\
  (exists resty, y = concat (map snd bl) ++ resty /\ (length resty < size)%nat).

(** The batches are processed one after the other, and the losses add up. *)
Inductive epoch_run {A B S} (step : S -> R -> nat -> list A -> list B -> outcome (S * R)) (lr : R) :
  nat -> list (list A * list B) -> S -> S -> R -> Prop :=
| epoch_end j s : epoch_run step lr j [] s s 0
| epoch_batch j X y bl s s' s'' l L : step s lr j X y = Ok (s', l) -> epoch_run step lr (Datatypes.S j) bl s' s'' L ->
    epoch_run step lr j ((X, y) :: bl) s s'' (l + L).

(** Epoch [k] brought no improvement of more than [margin] over the best epoch before it; the first epoch always
    counts as an improvement. *)
Definition stalled (margin : R) (loss : nat -> R) (k : nat) : Prop := exists i, (i < k)%nat /\ loss i - margin < loss k.
(** The last [N] epochs up to [e] were all stalled. *)
Definition stops (margin : R) (loss : nat -> R) (N e : nat) : Prop :=
  forall k, (k <= e)%nat -> (e < k + N)%nat -> stalled margin loss k.

(** [K] epochs: data, state before each epoch, total loss of each epoch. *)
Definition training_run {A B S} (step : S -> R -> nat -> list A -> list B -> outcome (S * R)) (decay : nat -> outcome R)
  (shuffle : bool) (size : nat) (X : list A) (y : list B) (s0 : S)
  (K : nat) (data : nat -> list A * list B) (state : nat -> S) (loss : nat -> R) : Prop :=
  state 0%nat = s0 /\
  forall e, (e < K)%nat ->
    reordered X (fst (data e)) y (snd (data e)) /\ (shuffle = false -> data e = (X, y)) /\
    exists lr bl, decay e = Ok lr /\ in_batches size (fst (data e)) (snd (data e)) bl /\
      epoch_run step lr 0 bl (state e) (state (Datatypes.S e)) (loss e).

(** The soft-thresholding operator: [v] minimises the penalised distance from [w], and no other point does. *)
Definition soft_threshold (c w v : R) : Prop :=
  forall u, u <> v -> (v - w) * (v - w) / 2 + c * Rabs v < (u - w) * (u - w) / 2 + c * Rabs u.

(** The l1 norm. *)
Definition norm1 (w : list R) : R := total (map Rabs w).
(** [w] with coordinate [j] moved by [eta]. *)
Definition moved (w : list R) (j : nat) (eta : R) (w' : list R) : Prop :=
  length w' = length w /\ (j < length w)%nat /\ nth j w' 0 = nth j w 0 + eta /\ forall i, i <> j -> nth i w' 0 = nth i w 0.

(** The documented schedules: step decay drops by [gamma] every [step] epochs, exponential decay falls by [exp (-gamma)]
    every epoch. *)
Definition step_rate (base gamma : R) (step epoch : nat) (r : R) : Prop :=
  exists q, (q * step <= epoch < (q + 1) * step)%nat /\ r = base * gamma ^ q.
Definition exponential_rate (base gamma : R) (epoch : nat) : R := base * exp (- gamma * INR epoch).

(** Gradient descent with momentum: the velocity survives from step to step. *)
Fixpoint heavy_ball (mu : R) (W V : list R) (steps : list (list R * R)) : list R :=
  match steps with
  | [] => W
  | (g, lr) :: rest => let V' := vadd (vscale mu V) (vscale lr g) in heavy_ball mu (vsub W V') V' rest
  end.

(** The most recent entry for slot [j], most recent first. *)
Fixpoint latest {A} (log : list (nat * A)) (j : nat) (d : A) : A :=
  match log with [] => d | (k, a) :: rest => if (k =? j)%nat then a else latest rest j d end.

(** Change of the penalised quadratic model of the objective when coordinate [x] (with partial derivative [g]) moves by [eta]. *)
Definition model_change (lambda beta x g eta : R) : R :=
  g * eta + beta / 2 * (eta * eta) + lambda * (Rabs (x + eta) - Rabs x).
