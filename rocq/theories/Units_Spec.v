(** Other units: each feature shifted and rescaled, or all features moved by one vector. *)
From Coq Require Import Reals.
From Verif Require Import Base Tree_Model.
Local Open Scope R_scope.
Set Implicit Arguments.

(** Entry [j] of a row becomes [g j] of it. *)
Definition convert {A B} (g : nat -> A -> B) (r : list A) : list B := map (fun e => g (fst e) (snd e)) (combine (seq 0 (length r)) r).
(** Feature [j] in other units: [x] becomes [a j * x + b j]. *)
Definition units (a b : nat -> R) : nat -> R -> R := fun j x => a j * x + b j.
Definition in_units (a b : nat -> R) (X : list (list R)) : list (list R) := map (convert (units a b)) X.

(** Both calls fail in the same way, or both return and the results are related. *)
Definition same_outcome {A B} (r : A -> B -> Prop) (o : outcome A) (o' : outcome B) : Prop :=
  match o, o' with Ok a, Ok b => r a b | Throw e, Throw e' => e = e' | UB, UB => True | Fuel, Fuel => True | _, _ => False end.

(** Decision trees alike but for the thresholds: the same shape and, node by node, the same number of samples, feature and gain, and related values. *)
Section Alike.
  Context {V V' : Type}.
  Variable rv : V -> V' -> Prop.
  Definition alike_info (i : info R R V) (i' : info R R V') : Prop :=
    n_samples i' = n_samples i /\ rv (n_value i) (n_value i') /\
    match n_split i, n_split i' with
    | None, None => True
    | Some (f, _, g), Some (f', _, g') => f' = f /\ g' = g
    | _, _ => False
    end.
  Fixpoint alike (t : dtree R R V) (t' : dtree R R V') : Prop :=
    match t, t' with
    | Null, Null => True
    | Node i l r, Node i' l' r' => alike_info i i' /\ alike l l' /\ alike r r'
    | _, _ => False
    end.
End Alike.
