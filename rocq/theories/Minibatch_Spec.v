(** What one epoch of mini-batches costs at fixed weights. *)
From Coq Require Import Reals.
From Verif Require Import Base Impurity_Spec Vec Loss_Spec.
Local Open Scope R_scope.

(** The mean squared errors of the batches of [bs] samples added up, and the penalty once for every batch. *)
Definition mse_epoch (lambda : R) (bs : nat) (X : list (list R)) (y u : list R) : R :=
  over_samples (fun y z => (y - z) ^ 2) X y u / (2 * INR bs) + INR (length X / bs) * penalty lambda bs u.
(** The same for the logistic loss. *)
Definition log_epoch (lambda : R) (bs : nat) (X : list (list R)) (y u : list R) : R :=
  over_samples cross_entropy X y u / INR bs + INR (length X / bs) * penalty lambda bs u.
(** The rates of the first [K] epochs, and their losses weighted with the rates. *)
Definition sum_rates (rate : nat -> R) (K : nat) : R := total (map rate (seq 0 K)).
Definition weighted (rate loss : nat -> R) (K : nat) : R := total (map (fun e => rate e * loss e) (seq 0 K)).
(** The targets are exactly the scores of [u]. *)
Definition fits (X : list (list R)) (y u : list R) : Prop := forall x b, In (x, b) (combine X y) -> dot x u = b.
(** Gradients stay below the bound of 10^10 at which they are clipped: [L] bounds the curvature, [far] the squared distance between
    start and [u], [T] the loss of an epoch at [u], [r] the sum of the rates. *)
Definition unclipped (L far T r : R) : Prop := 4 * L * T + 2 * L ^ 2 * (far + 2 * r * T) <= 10 ^ 20.
