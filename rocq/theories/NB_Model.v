(** Models over the reals of [methods/naive_bayes].  A matrix is the list of its rows, [nf] its number of columns.
    [asserts]: Eigen's assertions are compiled in (they are unless NDEBUG is defined); a violated one is [UB].
    The mean and variance of a class without rows (0/0, possible only after a second fit) are NaN in the code and are
    not modelled. *)
From Coq Require Import Reals.
From Verif Require Import Base Common_Model KDReal_Proofs Tree_Model Impurity_Model Vec MathFun_Model Stats_Model.
Local Open Scope R_scope.
Set Implicit Arguments.

(** [maxCoeff(&i)] of each row, common.hpp:118-149 with axis 1. *)
Definition argmax_rows (x : list (list R)) : outcome (list nat) := mapM (arg_best (fun a b => Rltb b a)) x.

(** * base.hpp *)
(** naive_bayes/base.hpp:36-51: [label_map_] is not cleared.  classes_ and prior_prob_ are in the order of the map. *)
Definition count_labels (label_map : list (R * nat)) (y : list R) : list (R * nat) := fold_left (count_label Rltb) y label_map.
(** naive_bayes/base.hpp:36-51 *)
Definition nb_classes (label_map : list (R * nat)) : list R := map fst label_map.
(** naive_bayes/base.hpp:36-51 *)
Definition nb_priors (label_map : list (R * nat)) (y : list R) : list R :=
  map (fun label => INR (snd label) / INR (length y)) label_map.

(** naive_bayes/base.hpp:65-78: [jll - repeat(logsumexp(jll, 1))] *)
Definition log_prob_of (K : nat) (jll : list (list R)) : outcome (list (list R)) :=
  let! log_prob_x := logsumexp K jll 1 in
  Ok (map2 (fun r s => map (fun a => a - s) r) jll log_prob_x).
(** naive_bayes/base.hpp:88-91 *)
Definition prob_of (K : nat) (jll : list (list R)) : outcome (list (list R)) :=
  let! l := log_prob_of K jll in Ok (map (map exp) l).
(** naive_bayes/base.hpp:100-108: the position of the class, not its label. *)
Definition predict_of (jll : list (list R)) : outcome (list R) :=
  let! i := argmax_rows jll in Ok (map INR i).

(** gaussian_naive_bayes.hpp:72-84 and multinomial_naive_bayes.hpp:38-49. gaussian 72-86, multinomial 38-49: the rows of one label, with the columns selected by [LinSpaced(nf+1, 0, nf+1)]
    out of the nf features and the label, then the first nf of these.  A column that does not exist is read only when
    some row is. *)
Definition rows_of_label (nf : nat) (X : list (list R)) (y : list R) (l : R) : outcome (list (list R)) :=
  let keep_rows := filter (fun e => Reqb (snd e) l) (combine X y) in
  let keep_cols := lin_spaced_0_n (nf + 1) in
  mapM (fun e => let! r := mapM (vget (fst e ++ [snd e])) keep_cols in Ok (firstn nf r)) keep_rows.

(** * gaussian_naive_bayes.hpp *)
(** naive_bayes/base.hpp:21-24 and gaussian_naive_bayes.hpp:28-29 *)
Record gnb := Gnb { g_labels : list (R * nat); g_priors : list R; g_mean : list (list R); g_var : list (list R) }.
(** naive_bayes/base.hpp:21-24 and gaussian_naive_bayes.hpp:28-29 *)
Definition gnb0 : gnb := Gnb [] [] [] [].
(** gaussian_naive_bayes.hpp:85-86 and multinomial_naive_bayes.hpp:50-51. the first (only) row of a matrix *)
Definition only_row (m : list (list R)) : outcome (list R) := vget m 0.
(** gaussian_naive_bayes.hpp:62-92 *)
Definition gnb_class (nf : nat) (X : list (list R)) (y : list R) (l : R) : outcome (list R * list R) :=
  let! part := rows_of_label nf X y l in
  let! m := mean nf part 0 in
  let! m := only_row m in
  let! v := var nf part 0 in
  let! v := only_row v in
  Ok (m, v).
(** gaussian_naive_bayes.hpp:113-119 *)
Definition gnb_fit (var_smoothing : R) (nf : nat) (s : gnb) (X : list (list R)) (y : list R) : outcome gnb :=
  let lm := count_labels (g_labels s) y in
  if negb (length X =? length y)%nat then Throw InvalidArgument
  else
    let! cs := mapM (gnb_class nf X y) (nb_classes lm) in
    let vs := map snd cs in
    let! mx := max_coeff (concat vs) in
    Ok (Gnb lm (nb_priors lm y) (map fst cs) (map (map (fun v => v + var_smoothing * mx)) vs)).

(** gaussian_naive_bayes.hpp:45-52 for one class and one row *)
Definition gnb_ll (m v x : list R) : outcome R :=
  if negb (length x =? length m)%nat then UB
  else
    let sum_log_var := - (1 / 2) * Rsum (map (fun a => ln (a * 2 * PI)) v) in
    Ok (sum_log_var - Rsum (map2 Rdiv (map sq (vsub x m)) v) * (1 / 2)).
(** gaussian_naive_bayes.hpp:37-57.  [ll.array() + lp.array()] adds a matrix with one column to one with as many columns as there are
    classes.  Without the assertion the first column of [lp] is used, which holds the prior of the first class. *)
Definition gnb_jll (asserts : bool) (s : gnb) (X : list (list R)) : outcome (list (list R)) :=
  let K := length (g_labels s) in
  if asserts && negb (K =? 1)%nat && negb (K =? 0)%nat then UB
  else
    mapM (fun x =>
      mapM (fun mv => let! ll := gnb_ll (fst mv) (snd mv) x in
                      let! p := vget (g_priors s) 0 in
                      Ok (ll + ln p)) (combine (g_mean s) (g_var s))) X.
(** naive_bayes/base.hpp:88-91 and gaussian_naive_bayes.hpp:37-57 *)
Definition gnb_predict_prob (asserts : bool) (s : gnb) (X : list (list R)) : outcome (list (list R)) :=
  let! jll := gnb_jll asserts s X in prob_of (length (g_labels s)) jll.
(** naive_bayes/base.hpp:100-108 and gaussian_naive_bayes.hpp:37-57 *)
Definition gnb_predict (asserts : bool) (s : gnb) (X : list (list R)) : outcome (list R) :=
  let! jll := gnb_jll asserts s X in predict_of jll.
(** * multinomial_naive_bayes.hpp *)
(** naive_bayes/base.hpp:21-24 and multinomial_naive_bayes.hpp:21-23 *)
Record mnb := Mnb { m_labels : list (R * nat); m_priors : list R; m_nf : nat; m_feature_count : list (list R); m_class_count : list R }.
(** naive_bayes/base.hpp:21-24 and multinomial_naive_bayes.hpp:21-23 *)
Definition mnb0 : mnb := Mnb [] [] 0 [] [].
(** multinomial_naive_bayes.hpp:38-54.  [feature_count.col(i) = sum(...)] assigns a 1 x nf matrix to an nf x 1 column. *)
Definition mnb_class (asserts : bool) (nf : nat) (X : list (list R)) (y : list R) (l : R) : outcome (list R * R) :=
  let! part := rows_of_label nf X y l in
  let! f := sum nf part 0 in
  let! f := only_row f in
  if asserts && negb (nf =? 1)%nat then UB
  else
    let! c := sum nf part (-1) in
    let! c := only_row c in
    let! c := vget c 0 in
    Ok (f, c).
(** multinomial_naive_bayes.hpp:117-121, 25-58 *)
Definition mnb_fit (asserts : bool) (nf : nat) (s : mnb) (X : list (list R)) (y : list R) : outcome mnb :=
  let lm := count_labels (m_labels s) y in
  if negb (length X =? length y)%nat then Throw InvalidArgument
  else
    let! cs := mapM (mnb_class asserts nf X y) (nb_classes lm) in
    Ok (Mnb lm (nb_priors lm y) nf (map fst cs) (map snd cs)).
(** multinomial_naive_bayes.hpp:70-80: reads as many counts as the row is long. *)
Definition mnb_ll (alpha : R) (s : mnb) (c : nat) (x : list R) : outcome R :=
  let! fc := vget (m_feature_count s) c in
  let! cc := vget (m_class_count s) c in
  foldM (fun retval i =>
    let! xi := vget x i in
    let! f := vget fc i in
    Ok (retval + xi * ln ((f + alpha) / (cc + alpha * INR (m_nf s))))) (seq 0 (length x)) 0.
(** multinomial_naive_bayes.hpp:82-97 *)
Definition mnb_jll (alpha : R) (s : mnb) (X : list (list R)) : outcome (list (list R)) :=
  let K := length (m_labels s) in
  mapM (fun x => mapM (fun c =>
    let! ll := mnb_ll alpha s c x in
    let! p := vget (m_priors s) c in
    Ok (ll + ln p)) (seq 0 K)) X.
(** naive_bayes/base.hpp:88-91 and multinomial_naive_bayes.hpp:82-97 *)
Definition mnb_predict_prob (alpha : R) (s : mnb) (X : list (list R)) : outcome (list (list R)) :=
  let! jll := mnb_jll alpha s X in prob_of (length (m_labels s)) jll.
(** naive_bayes/base.hpp:100-108 and multinomial_naive_bayes.hpp:82-97 *)
Definition mnb_predict (alpha : R) (s : mnb) (X : list (list R)) : outcome (list R) :=
  let! jll := mnb_jll alpha s X in predict_of jll.
