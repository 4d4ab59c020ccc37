(** Models over the reals of [core/math/extmath.hpp] entropy and gini, and of the impurity and node
    value functions of the two decision trees.  Labels are any type with [operator<]. *)
From Coq Require Import Reals.
From Verif Require Import Base Tree_Model KDReal_Proofs.
Local Open Scope R_scope.
Set Implicit Arguments.

(** extmath.hpp:136-144, 189-197 *)
Definition Rsum (l : list R) : R := fold_left Rplus l 0.

Section Labels.
  Variable T : Type.
  Variable ltb : T -> T -> bool.

  (** extmath.hpp:129, 182. [w_count_map[x(i)].push_back(w(i))] *)
  Definition push_weight (m : list (T * list R)) (e : T * R) : list (T * list R) :=
    om_set (cmp_of ltb) (fst e) ((match om_find (cmp_of ltb) (fst e) m with Some ws => ws | None => [] end) ++ [snd e]) m.

  (** extmath.hpp:136-144, 189-197 for one class: count, weights of the class, number of rows. *)
  Definition class_prob (nrows : nat) (e : (T * nat) * (T * list R)) : R :=
    let ws := snd (snd e) in
    1 * INR (snd (fst e)) * (Rsum ws / INR (length ws)) / INR nrows.

  (** extmath.hpp:109-147 and 164-199 up to the formula applied to each class.  An empty weight
      vector means ones. *)
  Definition class_probs (x : list T) (weight : list R) : outcome (list R) :=
    let w := match weight with [] => repeat 1 (length x) | _ => weight end in
    if negb (length w =? 0)%nat && negb (length w =? length x)%nat then Throw InvalidArgument
    else
      let x_count := fold_left (count_label ltb) x [] in
      let w_count := fold_left push_weight (combine x w) [] in
      Ok (map (class_prob (length x)) (combine x_count w_count)).

  (** extmath.hpp:104-149.  [std::log2]; a class of zero weight gives 0 * -inf = NaN in the code
      (0 here). *)
  Definition log2 (p : R) : R := ln p / ln 2.
  (** extmath.hpp:104-149 *)
  Definition entropy (x : list T) (weight : list R) : outcome R :=
    let! ps := class_probs x weight in
    Ok (fold_left (fun ent p => ent + (- p) * log2 p) ps 0).
  (** extmath.hpp:160-201 *)
  Definition gini (x : list T) (weight : list R) : outcome R :=
    let! ps := class_probs x weight in
    Ok (1 - fold_left (fun g p => g + p ^ 2) ps 0).
End Labels.

(** decision_tree_classifier.hpp:82-111 *)
Inductive class_criterion := Gini | Entropy | OtherCriterion.
Section ClassGain.
  Variable T : Type.
  Variable ltb : T -> T -> bool.
  (** decision_tree_classifier.hpp:82-111 *)
  Definition class_gain (c : class_criterion) (y left_y right_y : list T) : outcome R :=
    let wl := INR (length left_y) / INR (length y) in
    let wr := INR (length right_y) / INR (length y) in
    match c with
    | Gini =>
        let! gl := gini ltb left_y [] in
        let! gr := gini ltb right_y [] in
        Ok (1 - (wl * gl + wr * gr))
    | Entropy =>
        let! e := entropy ltb y [] in
        let! el := entropy ltb left_y [] in
        let! er := entropy ltb right_y [] in
        Ok (e - wl * el - wr * er)
    | OtherCriterion => Throw InvalidArgument
    end.
End ClassGain.

(** ops.hpp:57-62. Eigen's [mean()]: reduction of an empty vector violates an assertion. *)
Definition mean_vec (y : list R) : outcome R :=
  match y with [] => UB | _ => Ok (Rsum y / INR (length y)) end.
(** ops.hpp:57-62 *)
Definition var_vec (y : list R) : outcome R :=
  let! m := mean_vec y in
  let! m2 := mean_vec (map (fun v => v * v) y) in
  Ok (m2 - m ^ 2).

(** decision_tree_regressor.hpp:75-119.  For "absolute_error" the subtraction of the 1-element
    median from the target vector violates Eigen's shape assertion unless the vector has one
    element (whose deviation is then 0). *)
Inductive reg_criterion := SquaredError | AbsoluteError | OtherRegCriterion.
(** decision_tree_regressor.hpp:75-119 *)
Definition reg_gain (c : reg_criterion) (y left_y right_y : list R) : outcome R :=
  match c with
  | SquaredError =>
      let! total := var_vec y in
      let! lv := var_vec left_y in
      let! rv := var_vec right_y in
      Ok (total - INR (length left_y) * lv - INR (length right_y) * rv)
  | AbsoluteError =>
      if (length y =? 1)%nat && (length left_y =? 1)%nat && (length right_y =? 1)%nat then Ok 0 else UB
  | OtherRegCriterion => Throw InvalidArgument
  end.
(** decision_tree_regressor.hpp:124-137 and the test of 170-172. *)
Definition reg_value (min_stdev : R) (y : list R) : outcome (R * bool) :=
  let! m := mean_vec y in
  let norm := sqrt (Rsum (map (fun v => (v - m) * (v - m)) y)) in
  let stdev := sqrt (norm / INR (length y)) in
  Ok (m, negb (Rltb min_stdev stdev)).

(** tree/base.hpp:57. [ConstType<double>::min()], the smallest positive normal number. *)
Definition dbl_min : R := / 2 ^ 1022.
(** tree/base.hpp:72 *)
Definition Rgtb (a b : R) : bool := Rltb b a.
(** tree/base.hpp:31 *)
Definition Rmid (a b : R) : R := (a + b) / 2.

(** The two fit functions with data over the reals, and their predictions.
    decision_tree_classifier.hpp:262-274; the member label_count_ before the call is [labels]. *)
Definition classifier_fit (c : class_criterion) (P : params R) (nf : nat) (labels : list (R * nat))
  (X : list (list R)) (y : list R) : outcome (list (R * nat) * dtree R R (list nat * nat)) :=
  let! labels' := fit_labels Rltb labels X y in
  let! t := grow Rltb Rmid Rgtb dbl_min (class_gain Rltb c) (class_value Rltb labels') nf P X y in
  Ok (labels', t).
(** decision_tree_regressor.hpp:266-271 *)
Definition regressor_fit (c : reg_criterion) (min_stdev : R) (P : params R) (nf : nat)
  (X : list (list R)) (y : list R) : outcome (dtree R R R) :=
  grow Rltb Rmid Rgtb dbl_min (reg_gain c) (reg_value min_stdev) nf P X y.
(** decision_tree_regressor.hpp:273-284 *)
Definition regressor_predict (t : dtree R R R) (X : list (list R)) : outcome (list R) :=
  mapM (fun x => let! i := walk Rltb t x in Ok (n_value i)) X.
