(** What a user of the hash tree expects, without any tree: the number of times
    each registered itemset was counted since it was first registered. *)
From Verif Require Import Base HashTree_Model.

Definition itemset_eq_dec : forall a b : itemset, {a = b} + {a <> b} := list_eq_dec Z.eq_dec.

(** [count_after_build ops it]: [None] if [it] was never registered, otherwise the
    number of [OpAdd it] calls after the first [OpBuild it]. *)
Fixpoint tally (cur : option nat) (it : itemset) (ops : list ht_op) : option nat :=
  match ops with
  | [] => cur
  | OpBuild x :: ops' =>
      if itemset_eq_dec x it
      then tally (match cur with None => Some 0 | _ => cur end) it ops'
      else tally cur it ops'
  | OpAdd x :: ops' =>
      if itemset_eq_dec x it
      then tally (option_map S cur) it ops'
      else tally cur it ops'
  | OpQuery _ :: ops' => tally cur it ops'
  end.
Definition count_after_build (ops : list ht_op) (it : itemset) : option nat := tally None it ops.

(** [frequent_answer ops s counts itemsets]: the two parallel lists are a complete
    and duplicate-free listing of the itemsets counted at least [s] times. *)
Definition frequent_answer (ops : list ht_op) (s : nat) (counts : list nat) (itemsets : list itemset) : Prop :=
  length counts = length itemsets /\
  NoDup itemsets /\
  forall it n, In (it, n) (combine itemsets counts) <-> count_after_build ops it = Some n /\ s <= n.

Definition op_length_ok (k : nat) (o : ht_op) : Prop :=
  match o with
  | OpBuild it => length it = k
  | OpAdd it => k <= length it
  | OpQuery _ => True
  end.
Definition is_query (o : ht_op) : bool := match o with OpQuery _ => true | _ => false end.
