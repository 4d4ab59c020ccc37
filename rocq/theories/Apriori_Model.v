(** Model of [core/preprocessing/transaction_encoder.hpp] and
    [methods/rule_model/apriori.hpp].

    Items are [Z] (the code only compiles for [DataType = std::size_t]); a database is a
    list of transactions.  [min_support] and [min_confidence] are exact rationals: the
    rounding of the [double] product, quotient and comparison is not modelled. *)
From Coq Require Import QArith.
From Verif Require Import Base Sorting Common_Model HashTree_Model.
Local Open Scope nat_scope.

(** transaction_encoder.hpp:20-27, 41-45. [std::set<DataType>::insert] on the ascending list of elements. *)
Fixpoint set_insert (x : Z) (s : list Z) : list Z :=
  match s with
  | [] => [x]
  | y :: s' => if (x <? y)%Z then x :: s else if (x =? y)%Z then s else y :: set_insert x s'
  end.
(** transaction_encoder.hpp:20-27, 41-45 *)
Definition set_of (l : list Z) : list Z := fold_left (fun s x => set_insert x s) l [].

(** transaction_encoder.hpp:28-32: column number of every item of the set. *)
Fixpoint number_from (idx : nat) (s : list Z) (m : list (Z * nat)) : list (Z * nat) :=
  match s with
  | [] => m
  | x :: s' => number_from (S idx) s' (om_set Z.compare x idx m)
  end.

(** transaction_encoder.hpp:39-54: the triplets of one row. *)
Definition row_triplets (cols_map : list (Z * nat)) (idx : nat) (row : list Z) : list (nat * nat * Z) :=
  flat_map (fun x => match om_find Z.compare x cols_map with
                     | Some c => [(idx, c, x)]
                     | None => []
                     end) (set_of row).
(** transaction_encoder.hpp:39-54 *)
Fixpoint all_triplets (cols_map : list (Z * nat)) (idx : nat) (X : list (list Z)) : list (nat * nat * Z) :=
  match X with
  | [] => []
  | row :: X' => row_triplets cols_map idx row ++ all_triplets cols_map (S idx) X'
  end.

(** transaction_encoder.hpp:18-68 (fit_transform): rows, columns and stored entries of the sparse
    matrix.  [setFromTriplets] adds up entries of equal coordinates; it is proved
    (Apriori_Proofs) that there are none, so the stored entries are the triplets. *)
Record sparse := { sp_rows : nat; sp_cols : nat; sp_entries : list (nat * nat * Z) }.
(** transaction_encoder.hpp:18-68 *)
Definition encode (X : list (list Z)) : sparse :=
  let cols_set := set_of (concat X) in
  let cols_map := number_from 0 cols_set [] in
  {| sp_rows := length X; sp_cols := length cols_set; sp_entries := all_triplets cols_map 0 X |}.

(** apriori.hpp:39-51 *)
Definition generate_k_subsets (X : list (list Z)) (k : nat) : outcome (list (list Z)) :=
  let! css := mapM (fun t => combinations t k) X in Ok (concat css).

(** apriori.hpp:53-60: positions 0 .. l1.size()-2 are compared; for an empty [l1] the unsigned
    bound wraps and [l1[0]] is read out of range. *)
Fixpoint is_prefix (l1 l2 : list Z) : outcome bool :=
  match l1 with
  | [] => UB
  | [_] => Ok true
  | a :: l1' =>
      match l2 with
      | [] => UB
      | b :: l2' => if (a =? b)%Z then is_prefix l1' l2' else Ok false
      end
  end.

(** apriori.hpp:67-75: the items in order of first appearance. *)
Definition add_record (order : list Z) (x : Z) : list Z :=
  if existsb (Z.eqb x) order then order else order ++ [x].
(** apriori.hpp:67-75 *)
Definition records_order (X : list (list Z)) : list Z := fold_left add_record (concat X) [].

(** apriori.hpp:79-83: [all_records[record]++] over the stored values.  The iteration order of the
    unordered_map is unobservable; an ordered map stands for it. *)
Definition incr_record (m : list (Z * nat)) (x : Z) : list (Z * nat) :=
  om_set Z.compare x (S (match om_find Z.compare x m with Some c => c | None => 0 end)) m.
(** apriori.hpp:79-83 *)
Definition all_records (X : list (list Z)) : list (Z * nat) :=
  fold_left incr_record (map snd (sp_entries (encode X))) [].

(** apriori.hpp:85-92 *)
Definition erase_infrequent (support : nat) (m : list (Z * nat)) : list (Z * nat) :=
  filter (fun e => negb (snd e <? support)) m.

(** apriori.hpp:104-116 *)
Definition first_level (recs : list (Z * nat)) (order : list Z) : list (itemset * nat) :=
  flat_map (fun x => match om_find Z.compare x recs with
                     | Some c => [([x], c)]
                     | None => []
                     end) order.

(** apriori.hpp:124-132: the inner while loop for one [i]: joins with the following itemsets as long
    as they share the prefix.  [removelast l ++ [last l]] is the code's reconstruction
    of [prev_frequency[i]]. *)
Fixpoint join_with (p : itemset) (following : list itemset) : outcome (list itemset) :=
  match following with
  | [] => Ok []
  | q :: rest =>
      let! b := is_prefix p q in
      if b then let! r := join_with p rest in
                Ok ((removelast p ++ [last p 0%Z] ++ [last q 0%Z]) :: r)
      else Ok []
  end.
(** apriori.hpp:121-133 *)
Fixpoint join_all (prev : list itemset) : outcome (list itemset) :=
  match prev with
  | [] => Ok []
  | p :: rest => let! a := join_with p rest in let! b := join_all rest in Ok (a ++ b)
  end.

(** apriori.hpp:135-159: registering the candidates, counting all subsets of the
    transactions and asking for the frequent ones are calls on a fresh hash tree. *)
Definition count_level (support : nat) (candidates subsets : list itemset)
  : outcome (list nat * list itemset) :=
  let num_candidates := length candidates in
  let! (_, outs) := ht_run (ht_new num_candidates (Z.of_nat num_candidates))
                       (map OpBuild candidates ++ map OpAdd subsets ++ [OpQuery support]) in
  match outs with
  | [r] => Ok r
  | _ => UB   (* not reachable: one query, one answer *)
  end.

(** apriori.hpp:118-168: the level loop. *)
Fixpoint level_loop (fuel : nat) (X : list (list Z)) (support len : nat)
         (prev : list itemset) (freq : list (itemset * nat)) : outcome (list (itemset * nat)) :=
  match fuel with
  | O => Fuel
  | S fuel' =>
      if length prev <=? 1 then Ok freq
      else
        let! candidates := join_all prev in
        let! subsets := generate_k_subsets X len in
        let! (counts, itemsets) := count_level support candidates subsets in
        let! prev' := sortrows itemsets false in
        level_loop fuel' X support (S len) prev' (freq ++ combine itemsets counts)
  end.

(** apriori.hpp:64-169 (fit_data), starting from the [all_frequency_] left by earlier calls.
    What an exception leaves in [all_frequency_] is not modelled. *)
Definition fit_data (X : list (list Z)) (support : nat) (freq : list (itemset * nat))
  : outcome (list (itemset * nat)) :=
  let recs := erase_infrequent support (all_records X) in
  match recs with
  | [] => Throw RuntimeError
  | _ =>
      let l1 := first_level recs (records_order X) in
      level_loop (S (S (length (concat X)))) X support 2 (map fst l1) (freq ++ l1)
  end.

(** apriori.hpp:65: [static_cast<std::size_t>(X.size() * min_support_)] for [min_support_ >= 0]. *)
Definition support_of (X : list (list Z)) (min_support : Q) : nat :=
  Z.to_nat (Z.of_nat (length X) * Qnum min_support / Zpos (Qden min_support)).

(** apriori.hpp:174-178 *)
Definition add_frequency (m : list (itemset * nat)) (e : itemset * nat) : list (itemset * nat) :=
  if 0 <? snd e then om_set lex (fst e) (snd e) m else m.
(** apriori.hpp:174-178 *)
Definition frequency_map (freq : list (itemset * nat)) : list (itemset * nat) :=
  fold_left add_frequency freq [].

(** apriori.hpp:190-201 *)
Definition rule := (itemset * itemset * Q)%type.

(** apriori.hpp:190-201: the rules of one itemset [I] (count [n]) for the antecedents [cs]. *)
Fixpoint rules_of_candidates (fm : list (itemset * nat)) (min_conf : Q) (I : itemset) (n : nat)
         (cs : list itemset) : list rule :=
  match cs with
  | [] => []
  | c :: cs' =>
      match om_find lex c fm with
      | Some m =>
          let confidence := (Z.of_nat n # Pos.of_nat m)%Q in
          if Qle_bool min_conf confidence
          then (c, difference I c false, confidence) :: rules_of_candidates fm min_conf I n cs'
          else rules_of_candidates fm min_conf I n cs'
      | None => rules_of_candidates fm min_conf I n cs'
      end
  end.
(** apriori.hpp:181-203 *)
Definition rules_of_itemset (fm : list (itemset * nat)) (min_conf : Q) (e : itemset * nat)
  : outcome (list rule) :=
  if length (fst e) =? 1 then Ok []
  else
    let! css := mapM (fun i => combinations (fst e) i) (seq 1 (length (fst e) - 1)) in
    Ok (flat_map (rules_of_candidates fm min_conf (fst e) (snd e)) css).
(** apriori.hpp:171-204 (transform_data) *)
Definition transform_data (min_conf : Q) (freq : list (itemset * nat)) : outcome (list rule) :=
  let fm := frequency_map freq in
  let! rss := mapM (rules_of_itemset fm min_conf) fm in Ok (concat rss).

(** apriori.hpp:12-23, 218-222: one [Apriori] object and its [fit_transform]; [get_rules] returns
    [ap_rules]. *)
Record apriori := { ap_freq : list (itemset * nat); ap_rules : list rule }.
(** apriori.hpp:12-23, 218-222 *)
Definition apriori_new : apriori := {| ap_freq := []; ap_rules := [] |}.
(** apriori.hpp:12-23, 218-222 *)
Definition fit_transform (min_support min_conf : Q) (a : apriori) (X : list (list Z)) : outcome apriori :=
  let! freq := fit_data X (support_of X min_support) (ap_freq a) in
  let! rules := transform_data min_conf freq in
  Ok {| ap_freq := freq; ap_rules := ap_rules a ++ rules |}.
