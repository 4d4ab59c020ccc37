(** Model of [core/tree/hash_tree.hpp].

    Simplifications: [shared_ptr] nodes, which the code never aliases, are values;
    counts are unbounded [nat] instead of wrapping [size_t]; items are [Z]
    and are converted to [size_t] (mod 2^64) when hashed, as in C++. *)
From Verif Require Import Base.

Notation itemset := (list Z).

(** methods/rule_model/apriori.hpp:25-37 (struct HashTreeNode; the field [index]
    is never read and is left out). *)
Inductive node : Type :=
  Node (is_leaf : bool) (bucket : list (itemset * nat)) (children : list (Z * node)).

(** apriori.hpp:31 default constructor: an empty leaf. *)
Definition empty_node : node := Node true [] [].

(** hash_tree.hpp:12-17: the members of class HashTree. *)
Record hashtree := {
  ht_max_leaf : nat;
  ht_max_child : Z;
  ht_root : node;
  ht_counts : list nat;         (* count_list_ *)
  ht_itemsets : list itemset    (* itemset_list_ *)
}.

(** hash_tree.hpp:19-21 *)
Definition two64 : Z := (2 ^ 64)%Z.

(** hash_tree.hpp:19-21: [num % max_child_size_]; the argument conversion to
    [size_t] wraps; [% 0] is undefined behaviour. *)
Definition hash (max_child : Z) (x : Z) : outcome Z :=
  if (max_child =? 0)%Z then UB
  else Ok ((x mod two64) mod max_child)%Z.

(** hash_tree.hpp:33-38 and 52-57: [bucket[itemset] += count] or [= count]. *)
Definition bucket_add (it : itemset) (c : nat) (b : list (itemset * nat)) :=
  match om_find lex it b with
  | Some n => om_set lex it (n + c) b
  | None => om_set lex it c b
  end.

(** hash_tree.hpp:45-48 and 65-67: the child for [key], created if absent. *)
Definition child_or_new (key : Z) (ch : list (Z * node)) : node :=
  match om_find Z.compare key ch with Some c => c | None => empty_node end.

(** hash_tree.hpp:24-74 (insert).  The C++ function mutates [node]; here the new
    node is returned.  [fuel] bounds the recursion depth. *)
Fixpoint insert (fuel max_leaf : nat) (max_child : Z)
         (n : node) (it : itemset) (count index : nat) {struct fuel} : outcome node :=
  match fuel with
  | O => Fuel
  | S fuel' =>
      match n with
      | Node lf b ch =>
          (* lines 31-40 *)
          if index =? length it then Ok (Node lf (bucket_add it count b) ch)
          (* lines 43-50 *)
          else if negb lf then
            let! x := vget it index in
            let! key := hash max_child x in
            let! c := insert fuel' max_leaf max_child (child_or_new key ch) it count (S index) in
            Ok (Node lf b (om_set Z.compare key c ch))
          (* lines 51-73 *)
          else
            let b' := bucket_add it count b in
            if length b' =? max_leaf then
              (* lines 63-71: redistribute in map order, clear, become internal *)
              let! ch' :=
                foldM (fun ch e =>
                         let! x := vget (fst e) index in
                         let! key := hash max_child x in
                         let! c := insert fuel' max_leaf max_child
                                          (child_or_new key ch) (fst e) (snd e) (S index) in
                         Ok (om_set Z.compare key c ch)) b' ch in
              Ok (Node false [] ch')
            else Ok (Node true b' ch)
      end
  end.

(** hash_tree.hpp:76-90 (dfs): the (itemset, count) pairs it appends. *)
Fixpoint dfs (support : nat) (n : node) : list (itemset * nat) :=
  match n with
  | Node true b _ => filter (fun e => support <=? snd e) b
  | Node false _ ch => flat_map (fun kc => dfs support (snd kc)) ch
  end.

(** hash_tree.hpp:93-102 (constructors). *)
Definition ht_new (max_leaf : nat) (max_child : Z) : hashtree :=
  {| ht_max_leaf := max_leaf; ht_max_child := max_child; ht_root := empty_node;
     ht_counts := []; ht_itemsets := [] |}.

(** hash_tree.hpp:106-108. All itemsets stored in a node (used only to choose the recursion fuel). *)
Fixpoint node_keys (n : node) : list itemset :=
  match n with
  | Node _ b ch => map fst b ++ flat_map (fun kc => node_keys (snd kc)) ch
  end.
(** hash_tree.hpp:106-108 *)
Definition max_length (l : list itemset) : nat := fold_right (fun x m => Nat.max (length x) m) 0 l.

(** hash_tree.hpp:106-108 (build_tree).  The fuel exceeds the length of every itemset
    involved; [insert] recurses once per item position, and it is proved that
    this fuel never runs out (HashTree_Proofs.build_tree_no_fuel). *)
Definition build_tree (t : hashtree) (it : itemset) : outcome hashtree :=
  let! r := insert (S (max_length (it :: node_keys (ht_root t))))
                   (ht_max_leaf t) (ht_max_child t) (ht_root t) it 0 0 in
  Ok {| ht_max_leaf := ht_max_leaf t; ht_max_child := ht_max_child t; ht_root := r;
        ht_counts := ht_counts t; ht_itemsets := ht_itemsets t |}.

(** hash_tree.hpp:110-117 (compute_frequency_itemsets): dfs appends to the member
    lists, which are then copied to the caller. *)
Definition compute_frequency_itemsets (t : hashtree) (support : nat)
  : hashtree * (list nat * list itemset) :=
  let found := dfs support (ht_root t) in
  let counts := ht_counts t ++ map snd found in
  let itemsets := ht_itemsets t ++ map fst found in
  ({| ht_max_leaf := ht_max_leaf t; ht_max_child := ht_max_child t; ht_root := ht_root t;
      ht_counts := counts; ht_itemsets := itemsets |}, (counts, itemsets)).

(** hash_tree.hpp:119-138 (add_support).  The loop walks down one path; the
    increment happens in the leaf it reaches.  The recursion is structural in the
    node, through the children. *)
Fixpoint add_support_node (max_child : Z) (n : node) (it : itemset) (index : nat) {struct n}
  : outcome node :=
  match n with
  | Node true b ch =>
      (* lines 123-128 *)
      match om_find lex it b with
      | Some c => Ok (Node true (om_set lex it (S c) b) ch)
      | None => Ok n
      end
  | Node false b ch =>
      (* lines 129-136 *)
      let! x := vget it index in
      let! key := hash max_child x in
      let! ch' :=
        (fix walk (l : list (Z * node)) : outcome (list (Z * node)) :=
           match l with
           | [] => Ok []
           | (k', c) :: l' =>
               match Z.compare key k' with
               | Eq => let! c' := add_support_node max_child c it (S index) in
                       Ok ((k', c') :: l')
               | _ => let! r := walk l' in Ok ((k', c) :: r)
               end
           end) ch in
      Ok (Node false b ch')
  end.

(** hash_tree.hpp:119-138 *)
Definition add_support (t : hashtree) (it : itemset) : outcome hashtree :=
  let! r := add_support_node (ht_max_child t) (ht_root t) it 0 in
  Ok {| ht_max_leaf := ht_max_leaf t; ht_max_child := ht_max_child t; ht_root := r;
        ht_counts := ht_counts t; ht_itemsets := ht_itemsets t |}.

(** ** Histories of API calls *)
(** hash_tree.hpp:106-138 *)
Inductive ht_op :=
| OpBuild (it : itemset)
| OpAdd (it : itemset)
| OpQuery (support : nat).

(** hash_tree.hpp:106-138. One public call; a query returns its two output lists. *)
Definition ht_step (t : hashtree) (o : ht_op) : outcome (hashtree * list (list nat * list itemset)) :=
  match o with
  | OpBuild it => let! t' := build_tree t it in Ok (t', [])
  | OpAdd it => let! t' := add_support t it in Ok (t', [])
  | OpQuery s => let '(t', out) := compute_frequency_itemsets t s in Ok (t', [out])
  end.

(** hash_tree.hpp:106-138 *)
Fixpoint ht_run (t : hashtree) (ops : list ht_op)
  : outcome (hashtree * list (list nat * list itemset)) :=
  match ops with
  | [] => Ok (t, [])
  | o :: ops' =>
      let! (t1, out1) := ht_step t o in
      let! (t2, out2) := ht_run t1 ops' in
      Ok (t2, out1 ++ out2)
  end.
