(** C01-C03: the hash tree. *)
From Verif Require Import Base HashTree_Model HashTree_Spec HashTree_Proofs.

(** C01.  Register candidates, count subsets, ask: exactly the candidates counted at
    least [s] times, each once, with its number of occurrences -- for every leaf
    capacity and every fan-out. *)
Theorem C01_hash_tree_counts :
  forall (k max_leaf : nat) (max_child : Z) (cands subs : list itemset) (s : nat),
  (0 < max_child)%Z ->
  Forall (fun it => length it = k) cands ->
  Forall (fun it => length it = k) subs ->
  exists t counts itemsets,
    ht_run (ht_new max_leaf max_child) (map OpBuild cands ++ map OpAdd subs ++ [OpQuery s]) =
      Ok (t, [(counts, itemsets)]) /\
    length counts = length itemsets /\ NoDup itemsets /\
    forall it n, In (it, n) (combine itemsets counts) <->
                 In it cands /\ n = count_occ itemset_eq_dec subs it /\ s <= n.
Proof. exact ht_classic. Qed.
Print Assumptions C01_hash_tree_counts.
Example C01_hash_tree_counts_case :=
  C01_hash_tree_counts 2 2 2%Z [[1;2];[1;3];[3;1];[5;7]]%Z [[1;3];[1;3];[9;9]]%Z 1 ltac:(lia) ltac:(repeat constructor) ltac:(repeat constructor).

Example C01_nonvacuous :
  (0 < 2)%Z /\
  Forall (fun it : itemset => length it = 2) [[1;2];[1;3];[3;1];[5;7]]%Z /\
  Forall (fun it : itemset => length it = 2) [[1;3];[1;3];[9;9]]%Z /\
  match ht_run (ht_new 2 2) (map OpBuild [[1;2];[1;3];[3;1];[5;7]]%Z
                             ++ map OpAdd [[1;3];[1;3];[9;9]]%Z ++ [OpQuery 1]) with
  | Ok (_, out) => out = [([2], [[1;3]%Z])]
  | _ => False
  end.
Proof. repeat split; try (repeat constructor; fail); vm_compute; reflexivity. Qed.

(** C01, for arbitrary histories of calls (registrations, counts and queries in any
    order): the pairs a query adds to its answer are exactly the itemsets
    counted at least [s] times since their first registration. *)
Theorem C01_hash_tree_any_history :
  forall (k max_leaf : nat) (max_child : Z) (ops : list ht_op) (s : nat),
  (0 < max_child)%Z ->
  Forall (op_length_ok k) ops ->
  exists t outs counts itemsets,
    ht_run (ht_new max_leaf max_child) (ops ++ [OpQuery s]) =
      Ok (t, outs ++ [(fst (last outs ([], [])) ++ counts, snd (last outs ([], [])) ++ itemsets)]) /\
    length outs = length (filter is_query ops) /\
    frequent_answer ops s counts itemsets.
Proof. exact ht_query_answer. Qed.
Print Assumptions C01_hash_tree_any_history.
Example C01_hash_tree_any_history_case :=
  C01_hash_tree_any_history 2 1 3%Z [OpBuild [1;2]; OpAdd [1;2]; OpQuery 0; OpBuild [4;5]; OpAdd [4;5;6]]%Z 1 ltac:(lia) ltac:(repeat constructor).

Example C01_history_nonvacuous :
  Forall (op_length_ok 2) [OpBuild [1;2]; OpAdd [1;2]; OpQuery 0; OpBuild [4;5]; OpAdd [4;5;6]]%Z.
Proof. repeat constructor. Qed.

(** C02.  No history whatsoever makes an insertion recurse without end. *)
Theorem C02_hash_tree_terminates :
  forall max_leaf max_child ops, ht_run (ht_new max_leaf max_child) ops <> Fuel.
Proof. intros max_leaf max_child ops. exact (ht_run_no_fuel ops (ht_new max_leaf max_child)). Qed.
Print Assumptions C02_hash_tree_terminates.

(** C02.  With itemsets of one length and fan-out at least 1 no history reaches
    undefined behaviour (or an exception). *)
Theorem C02_hash_tree_safe :
  forall (k max_leaf : nat) (max_child : Z) (ops : list ht_op),
  (0 < max_child)%Z ->
  Forall (op_length_ok k) ops ->
  exists t outs, ht_run (ht_new max_leaf max_child) ops = Ok (t, outs).
Proof.
  intros k ml mc ops Hmc Hops.
  exact (match @ht_run_spec k ml mc Hmc ops (ht_new ml mc) (tree_ok_new k ml mc) Hops with
         | ex_intro _ t (ex_intro _ outs (conj E _)) => ex_intro _ t (ex_intro _ outs E)
         end).
Qed.
Print Assumptions C02_hash_tree_safe.
Example C02_hash_tree_safe_case :=
  C02_hash_tree_safe 2 1 3%Z [OpBuild [1;2]; OpAdd [1;2]; OpQuery 0; OpBuild [4;5]; OpAdd [4;5;6]]%Z ltac:(lia) ltac:(repeat constructor).

(** C02, limits.  Fan-out 0 divides by zero. *)
Theorem C02_fanout_zero_refuted :
  exists ops, Forall (op_length_ok 1) ops /\ ht_run (ht_new 1 0) ops = UB.
Proof. exists [OpBuild [1%Z]]. split; [repeat constructor|vm_compute; reflexivity]. Qed.

(** C02, limits.  Itemsets of different lengths read out of range. *)
Theorem C02_mixed_lengths_refuted :
  exists ops, ht_run (ht_new 2 2) ops = UB.
Proof. exists [OpBuild [3]; OpBuild [2;2]; OpBuild [3;4]]%Z. vm_compute. reflexivity. Qed.

(** C02, limits.  ... or lose a registered itemset: it is counted 0 times but never
    listed by a query with threshold 0. *)
Theorem C02_mixed_lengths_lost_refuted :
  exists t counts itemsets,
    ht_run (ht_new 1 3) [OpBuild [1;2]; OpBuild [1]; OpQuery 0]%Z = Ok (t, [(counts, itemsets)]) /\
    ~ In [1%Z] itemsets.
Proof.
  eexists _, _, _. split; [vm_compute; reflexivity|].
  simpl. intros [H|H]; [discriminate|assumption].
Qed.

(** C03.  A second identical query repeats the first answer and appends it again. *)
Theorem C03_query_accumulates :
  forall (k max_leaf : nat) (max_child : Z) (ops : list ht_op) (s : nat),
  (0 < max_child)%Z ->
  Forall (op_length_ok k) ops ->
  filter is_query ops = [] ->
  exists t counts itemsets,
    ht_run (ht_new max_leaf max_child) (ops ++ [OpQuery s; OpQuery s]) =
      Ok (t, [(counts, itemsets); (counts ++ counts, itemsets ++ itemsets)]) /\
    frequent_answer ops s counts itemsets.
Proof. exact ht_query_twice. Qed.
Print Assumptions C03_query_accumulates.
Example C03_query_accumulates_case :=
  C03_query_accumulates 2 1 3%Z [OpBuild [1;2]; OpAdd [1;2]; OpBuild [4;5]]%Z 0 ltac:(lia) ltac:(repeat constructor) eq_refl.

(** C03 refuted: a query is not repeatable. *)
Theorem C03_query_repeatable_refuted :
  exists ops s t a1 a2,
    Forall (op_length_ok 1) ops /\
    ht_run (ht_new 3 3) (ops ++ [OpQuery s; OpQuery s]) = Ok (t, [a1; a2]) /\ a1 <> a2.
Proof.
  exists [OpBuild [7%Z]], 0. eexists _, _, _.
  split; [repeat constructor|]. split; [vm_compute; reflexivity|]. discriminate.
Qed.
