(** Model of [methods/tree]: base.hpp (split search), decision_tree_classifier.hpp and
    decision_tree_regressor.hpp.

    The scalar type [T] is any type with [operator<] and a midpoint operation, without NaN.
    A matrix is the list of its rows with an explicit column count [nf]; a vector is a list.
    [I] is the type of the impurity gains. *)
From Coq Require Import QArith.
From Verif Require Import Base Sorting Common_Model Argsort_Model Split_Model.
Local Open Scope nat_scope.
Set Implicit Arguments.

Section Split.
  Variable T : Type.
  Variable ltb : T -> T -> bool.
  Variable mid : T -> T -> T.        (* (a + b) / 2 *)
  (** tree/base.hpp:63-76 *)
  Definition leb (a b : T) : bool := negb (ltb b a).
  (** tree/base.hpp:63-76 *)
  Definition eqb (a b : T) : bool := negb (ltb a b) && negb (ltb b a).

  (** tree/base.hpp:29-33: midpoints of consecutive entries. *)
  Fixpoint mids (s : list T) : list T :=
    match s with
    | a :: ((b :: _) as s') => mid a b :: mids s'
    | _ => []
    end.
  (** tree/base.hpp:36-37. [std::unique] + [erase]: drops every element equal to the one kept before it. *)
  Fixpoint uniq_from (a : T) (l : list T) : list T :=
    match l with
    | [] => [a]
    | b :: l' => if eqb a b then uniq_from a l' else a :: uniq_from b l'
    end.
  (** tree/base.hpp:36-37 *)
  Definition uniq (l : list T) : list T := match l with [] => [] | a :: l' => uniq_from a l' end.

  (** tree/base.hpp:24-42 *)
  Definition choose_feature_threshold (x : list T) : outcome (list T) :=
    let! idx := argsort_col ltb x in
    let! sorted_x := mapM (vget x) idx in
    Ok (uniq (isort ltb (mids sorted_x))).

  (** tree/base.hpp:50-80 *)
  Definition column_of (X : list (list T)) (f : nat) : outcome (list T) := mapM (fun r => vget r f) X.

  Variable I : Type.
  Variable gtb : I -> I -> bool.                                (* operator> on gains *)
  Variable imin : I.                                            (* ConstType<double>::min() *)
  Variable gain : list T -> list T -> list T -> outcome I.      (* the virtual compute_impurity *)

  (** tree/base.hpp:63-76: body of the inner loop. *)
  Definition try_split (X : list (list T)) (y : list T) (best : I * option (nat * T)) (c : nat * T)
    : outcome (I * option (nat * T)) :=
    let (f, threshold) := c in
    let! (left_index, right_index) := divide_on_feature leb X f threshold in
    let! left_y := mapM (vget y) left_index in
    let! right_y := mapM (vget y) right_index in
    let! impurity := gain y left_y right_y in
    if gtb impurity (fst best) then Ok (impurity, Some (f, threshold)) else Ok best.

  (** tree/base.hpp:50-80.  [best_feature_index] still at its initial value is [None]. *)
  Definition best_split (nf : nat) (X : list (list T)) (y : list T) : outcome (I * option (nat * T)) :=
    foldM (fun best f =>
             let! x := column_of X f in
             let! feature_values := choose_feature_threshold x in
             foldM (fun best t => try_split X y best (f, t)) feature_values best)
          (seq 0 nf) (imin, None).

  (** The tree.  [Null] is a null [shared_ptr].  [n_split] holds feature_index, feature_value and
      impurity once a split was chosen.  The field [is_leaf] is written but never read: omitted. *)
  Variable V : Type.
  (** decision_tree_classifier.hpp:20-60 *)
  Record info := Info { n_samples : nat; n_value : V; n_split : option (nat * T * I) }.
  (** decision_tree_classifier.hpp:20-60 *)
  Inductive dtree := Null | Node (i : info) (l r : dtree).

  (** decision_tree_classifier.hpp:71-76 *)
  Record params := Params { min_samples_split : nat; min_samples_leaf : nat; max_depth : nat; min_decrease : I }.
  (** compute_node_value and, for the regressor, whether [min_stdev <= min_stdev_] stops the growth
      (decision_tree_regressor.hpp:132-137, 159-161); the classifier never stops there. *)
  Variable node_value : list T -> outcome (V * bool).
  Variable nf : nat.
  Variable P : params.

  (** decision_tree_classifier.hpp:141-214 *)
  Definition rows_where {A} (sel : list bool) (l : list A) : outcome (list A) := mapM (vget l) (where_ sel).

  (** decision_tree_classifier.hpp:141-214, decision_tree_regressor.hpp:143-218.  [cur_depth] is
      unbounded here (size_t in the code). *)
  Fixpoint build_tree (fuel : nat) (X : list (list T)) (y : list T) (cur_depth : nat) : outcome dtree :=
    match fuel with
    | 0 => Fuel
    | S fuel' =>
        let num_samples := length X in
        let! (value, stop) := node_value y in
        let leaf := Ok (Node (Info num_samples value None) Null Null) in
        if stop then leaf
        else if num_samples <? min_samples_split P then leaf
        else if max_depth P <? cur_depth then leaf
        else
          let! (best_impurity, best) := best_split nf X y in
          match best with
          | None => leaf
          | Some (best_feature, best_value) =>
              if negb (gtb best_impurity (min_decrease P)) then leaf
              else
                let! selected_x := column_of X best_feature in
                let left_selected := map (fun v => leb v best_value) selected_x in
                let right_selected := map (fun v => ltb best_value v) selected_x in
                let! left_X := rows_where left_selected X in
                let! left_y := rows_where left_selected y in
                let! right_X := rows_where right_selected X in
                let! right_y := rows_where right_selected y in
                let! l := (if min_samples_leaf P <=? length left_X
                           then build_tree fuel' left_X left_y (S cur_depth) else Ok Null) in
                let! r := (if min_samples_leaf P <=? length right_X
                           then build_tree fuel' right_X right_y (S cur_depth) else Ok Null) in
                Ok (Node (Info num_samples value (Some (best_feature, best_value, best_impurity))) l r)
          end
    end.

  (** decision_tree_classifier.hpp:262-274 and decision_tree_regressor.hpp:266-271. The call [build_tree(X, y, root_, 0)] of both fit functions; the depth guard bounds the
      recursion. *)
  Definition grow (X : list (list T)) (y : list T) : outcome dtree := build_tree (S (S (max_depth P))) X y 0.

  (** decision_tree_classifier.hpp:221-233 and decision_tree_regressor.hpp:221-234. predict_label_prob and predict_label: the node
      where the walk ends.  A null pointer is dereferenced when the left child exists and the right
      one, chosen by the comparison, does not. *)
  Fixpoint walk (t : dtree) (x : list T) : outcome info :=
    match t with
    | Null => UB
    | Node i l r =>
        match l with
        | Null => Ok i
        | Node _ _ _ =>
            match n_split i with
            | None => UB
            | Some (f, v, _) =>
                let! xf := vget x f in
                if leb xf v then walk l x else walk r x
            end
        end
    end.
End Split.
Arguments Null {T I V}.

(** * Classifier *)
Section Classifier.
  Variable T : Type.
  Variable ltb : T -> T -> bool.
  (** decision_tree_classifier.hpp:114-137 *)
  Definition cmp_of (a b : T) : comparison := if ltb a b then Lt else if ltb b a then Gt else Eq.

  (** decision_tree_classifier.hpp:114-137. [label_count[y(i)]++] *)
  Definition count_label (m : list (T * nat)) (l : T) : list (T * nat) :=
    om_set cmp_of l (S (match om_find cmp_of l m with Some c => c | None => 0 end)) m.

  (** decision_tree_classifier.hpp:136 and common.hpp:118-149. Eigen's [maxCoeff(&i)] for any comparison (see [arg_scan] in Common_Model). *)
  Fixpoint scan_best {A} (better : A -> A -> bool) (l : list A) (i best_i : nat) (best : A) : nat :=
    match l with
    | [] => best_i
    | x :: l' => if better x best then scan_best better l' (S i) i x else scan_best better l' (S i) best_i best
    end.
  (** decision_tree_classifier.hpp:136 and common.hpp:118-149 *)
  Definition arg_best {A} (better : A -> A -> bool) (l : list A) : outcome nat :=
    match l with [] => UB | x :: l' => Ok (scan_best better l' 1 0 x) end.

  (** decision_tree_classifier.hpp:114-137; [labels] is the member label_count_. *)
  Definition class_value (labels : list (T * nat)) (y : list T) : outcome (list nat * nat * bool) :=
    let label_count := fold_left count_label y [] in
    let value := map (fun kv => match om_find cmp_of (fst kv) label_count with Some c => c | None => 0 end) labels in
    let! predict := arg_best (fun a b => b <? a) value in
    Ok (value, predict, false).

  (** decision_tree_classifier.hpp:262-274: label_count_ is not cleared. *)
  Definition fit_labels (labels : list (T * nat)) (X : list (list T)) (y : list T) : outcome (list (T * nat)) :=
    let! ys := mapM (vget y) (seq 0 (length X)) in
    Ok (fold_left count_label ys labels).

  (** decision_tree_classifier.hpp:231. 226-230: class counts divided by their sum; 0/0 is NaN, written [None]. *)
  Definition probabilities (counts : list nat) : list (option Q) :=
    let total := fold_right plus 0 counts in
    map (fun c => if total =? 0 then None else Some (inject_Z (Z.of_nat c) / inject_Z (Z.of_nat total))%Q) counts.
  (** decision_tree_classifier.hpp:297-309. [>] on probabilities; comparisons with NaN are false. *)
  Definition prob_gtb (a b : option Q) : bool :=
    match a, b with Some p, Some q => negb (Qle_bool p q) | _, _ => false end.
  (** decision_tree_classifier.hpp:284-295. 291-302, 304-317 *)
  Definition predict_prob {I} (t : dtree T I (list nat * nat)) (X : list (list T)) : outcome (list (list (option Q))) :=
    mapM (fun x => let! i := walk ltb t x in Ok (probabilities (fst (n_value i)))) X.
  (** decision_tree_classifier.hpp:297-309 *)
  Definition predict_class {I} (t : dtree T I (list nat * nat)) (X : list (list T)) : outcome (list nat) :=
    let! probs := predict_prob t X in mapM (arg_best prob_gtb) probs.
End Classifier.
