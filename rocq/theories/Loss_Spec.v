(** What the loss theorems are stated with: partial derivatives, and the documented losses. *)
From Coq Require Import Reals.
From Verif Require Import Base Common_Model Impurity_Spec Vec.
Local Open Scope R_scope.
Set Implicit Arguments.

(** [g] has one entry per parameter, and entry [j] is the derivative of [F] when parameter [j] alone varies
    (so [F] must be defined along the whole coordinate line). *)
Definition is_gradient (F : list R -> outcome R) (W g : list R) : Prop :=
  length g = length W /\
  forall j w gj, nth_error W j = Some w -> nth_error g j = Some gj ->
  exists f, (forall t, F (set_nth W j t) = Ok (f t)) /\ derivable_pt_lim f w gj.

(** The same for a parameter matrix given by its rows. *)
Definition is_gradient_mat (F : list (list R) -> outcome R) (W g : list (list R)) : Prop :=
  length g = length W /\
  forall j w gj, nth_error W j = Some w -> nth_error g j = Some gj ->
    length gj = length w /\
    forall k a b, nth_error w k = Some a -> nth_error gj k = Some b ->
    exists f, (forall t, F (set_nth W j (set_nth w k t)) = Ok (f t)) /\ derivable_pt_lim f a b.

(** Shapes: [n > 0] samples of [d] features, one target each, [d] parameters. *)
Definition shapes {T} (X : list (list R)) (y : list T) (W : list R) : Prop :=
  X <> [] /\ width (length W) X /\ length y = length X.
Definition shapes_mat (K : nat) (X : list (list R)) (y : list nat) (W : list (list R)) : Prop :=
  X <> [] /\ (0 < K)%nat /\ width (length W) X /\ width K W /\ length y = length X /\ (forall c, In c y -> (c < K)%nat).

(** Sum over the samples of a function of the target and of the linear score. *)
Definition over_samples {T} (phi : T -> R -> R) (X : list (list R)) (y : list T) (W : list R) : R :=
  total (map (fun p => phi (snd p) (dot (fst p) W)) (combine X y)).
Definition penalty (lambda : R) (n : nat) (W : list R) : R := lambda * dot W W / (2 * INR n).

(** (1/2n) sum (y - x.w)^2 + penalty *)
Definition mse_loss lambda X y W :=
  over_samples (fun y z => (y - z) ^ 2) X y W / (2 * INR (length X)) + penalty lambda (length X) W.
(** (1/n) sum (ln (1 + e^z) - y z) + penalty: the negative mean Bernoulli log-likelihood of the probability
    1 / (1 + e^-z). *)
Definition logistic (z : R) : R := 1 / (1 + exp (- z)).
Definition cross_entropy (y z : R) : R := - y * ln (logistic z) - (1 - y) * ln (1 - logistic z).
Definition log_loss lambda X y W :=
  over_samples cross_entropy X y W / INR (length X) + penalty lambda (length X) W.
(** sum max(0, threshold - y z) + penalty *)
Definition hinge_loss threshold lambda X y W :=
  over_samples (fun y z => Rmax 0 (threshold - z * y)) X y W + penalty lambda (length X) W.
(** The documented Huber loss of one residual. *)
Definition huber1 (delta r : R) : R :=
  if Rle_dec (Rabs r) delta then r ^ 2 / 2 else delta * Rabs r - delta ^ 2 / 2.

(** Scores of one sample, the negative log-likelihood of class [c] under softmax, and the softmax loss with the
    sum of squares of all parameters as penalty. *)
Definition scores (K : nat) (W : list (list R)) (x : list R) : list R :=
  map (fun k => dot x (map (fun w => nth k w 0) W)) (seq 0 K).
Definition nll (z : list R) (c : nat) : R := - ln (exp (nth c z 0) / total (map exp z)).
Definition softmax_data_loss (K : nat) (X : list (list R)) (y : list nat) (W : list (list R)) : R :=
  total (map (fun p => nll (scores K W (fst p)) (snd p)) (combine X y)) / INR (length X).
