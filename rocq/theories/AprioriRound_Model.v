(** The thresholds of [methods/rule_model/apriori.hpp] in double arithmetic (compare [Apriori_Model], where they are exact rationals).
    [rnd] rounds the result of one operation; it also converts a count to the type [double].  Overflow is not modelled. *)
From Coq Require Import Reals.
From Verif Require Import Base Common_Model HashTree_Model Apriori_Model Round_Model.
Local Open Scope R_scope.
Set Implicit Arguments.

(** apriori.hpp:12-23 *)
Definition rule_r := (itemset * itemset * R)%type.
(** apriori.hpp:12-23 *)
Record apriori_r := { apr_freq : list (itemset * nat); apr_rules : list rule_r }.
(** apriori.hpp:12-23 *)
Definition apriori_r_new : apriori_r := {| apr_freq := []; apr_rules := [] |}.

Section Rounded.
  Variable rnd : R -> R.

  (** apriori.hpp:65: [static_cast<std::size_t>(X.size() * min_support_)]; out of range the conversion is undefined behaviour. *)
  Definition support_r (X : list (list Z)) (min_support : R) : outcome nat :=
    let t := trunc_r (rnd (rnd (INR (length X)) * min_support)) in
    if (t <? 0)%Z || (two64 <=? t)%Z then UB else Ok (Z.to_nat t).

  (** apriori.hpp:187, 194 *)
  Definition confidence_r (n m : nat) : R := rnd (rnd (INR n) / rnd (INR m)).
  (** apriori.hpp:191-200 (compare [rules_of_candidates]) *)
  Fixpoint rules_of_candidates_r (fm : list (itemset * nat)) (min_conf : R) (I : itemset) (n : nat) (cs : list itemset) : list rule_r :=
    match cs with
    | [] => []
    | c :: cs' =>
        match om_find lex c fm with
        | Some m =>
            if Rle_dec min_conf (confidence_r n m)
            then (c, difference I c false, confidence_r n m) :: rules_of_candidates_r fm min_conf I n cs'
            else rules_of_candidates_r fm min_conf I n cs'
        | None => rules_of_candidates_r fm min_conf I n cs'
        end
    end.
  (** apriori.hpp:181-203 *)
  Definition rules_of_itemset_r (fm : list (itemset * nat)) (min_conf : R) (e : itemset * nat) : outcome (list rule_r) :=
    if (length (fst e) =? 1)%nat then Ok []
    else
      let! css := mapM (fun i => combinations (fst e) i) (seq 1 (length (fst e) - 1)) in
      Ok (flat_map (rules_of_candidates_r fm min_conf (fst e) (snd e)) css).
  (** apriori.hpp:171-204 *)
  Definition transform_data_r (min_conf : R) (freq : list (itemset * nat)) : outcome (list rule_r) :=
    let fm := frequency_map freq in
    let! rss := mapM (rules_of_itemset_r fm min_conf) fm in Ok (concat rss).
  (** apriori.hpp:218-222 *)
  Definition fit_transform_r (min_support min_conf : R) (a : apriori_r) (X : list (list Z)) : outcome apriori_r :=
    let! s := support_r X min_support in
    let! freq := fit_data X s (apr_freq a) in
    let! rules := transform_data_r min_conf freq in
    Ok {| apr_freq := freq; apr_rules := apr_rules a ++ rules |}.
End Rounded.
