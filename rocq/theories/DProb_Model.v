(** Probabilities and the logistic loss on IEEE doubles.  [dexp] and [dlog] are the library's functions [exp] and [log], of which only
    what [DProb_Spec] says is assumed; [ord] is the order in which Eigen adds up. *)
From Flocq Require Import Core BinarySingleNaN.
From Verif Require Import Base Vec Round_Spec Double_Spec Double_Model.
Set Implicit Arguments.

(** linalg.hpp:284-305 and extmath.hpp:234-270. Eigen's [maxCoeff()], for numbers; there is none of no entries. *)
Definition dmax_coeff (v : list double) : outcome double :=
  match v with [] => UB | a :: v' => Ok (fold_left (fun m b => if dlt m b then b else m) v' a) end.
(** linalg.hpp:292-294: column [j] *)
Definition dcol (j : nat) (x : list (list double)) : list double := map (fun r => nth j r zero) x.

Section Prob.
  Variable ord : nat -> order.
  Variables dexp dlog : double -> double.

  (** linalg.hpp:286-303 on one row, one column, or all entries *)
  Definition dlse (v : list double) : outcome double :=
    let! c := dmax_coeff v in
    Ok (dadd (dlog (dsum ord (map (fun b => dexp (dsub b c)) v))) c).
  (** linalg.hpp:283-305, compare [MathFun_Model.logsumexp] *)
  Definition dlogsumexp (nc : nat) (x : list (list double)) (axis : Z) : outcome (list double) :=
    if (axis =? 1)%Z then mapM dlse x
    else if (axis =? 0)%Z then mapM (fun j => dlse (dcol j x)) (seq 0 nc)
    else if (axis =? -1)%Z then let! s := dlse (concat x) in Ok [s]
    else UB.

  (** naive_bayes/base.hpp:65-78 and gaussian_mixture.hpp:341-360: logarithms of the probabilities of the [K] classes of every row *)
  Definition dlog_prob_of (K : nat) (jll : list (list double)) : outcome (list (list double)) :=
    let! norm := dlogsumexp K jll 1 in
    Ok (map2 (fun r s => map (fun a => dsub a s) r) jll norm).
  (** naive_bayes/base.hpp:88-91 and gaussian_mixture.hpp:420-438 *)
  Definition dprob_of (K : nat) (jll : list (list double)) : outcome (list (list double)) :=
    let! l := dlog_prob_of K jll in Ok (map (map dexp) l).

  (** extmath.hpp:16-22 and common.hpp:348-352 for one entry; NaN is kept. *)
  Definition dsigmoid1 (x : double) : double :=
    ddiv (dexp (if dle zero x then zero else x)) (dadd (dbl 1 0) (dexp (Bopp (dabs x)))).
  (** extmath.hpp:234-270 on one row *)
  Definition dsoftmax1 (r : list double) : outcome (list double) :=
    let! c := dmax_coeff r in
    let e := map (fun b => dexp (dsub b c)) r in
    let div := dsum ord e in
    Ok (map (fun a => ddiv a div) e).

  (** extmath.hpp:234-270, compare [MathFun_Model.softmax] *)
  Definition dsoftmax (nc : nat) (x : list (list double)) (axis : Z) : outcome (list (list double)) :=
    let nr := length x in
    if (nr =? 1) || (nc =? 1) then Throw InvalidArgument
    else if (axis =? 1)%Z then mapM dsoftmax1 x
    else if (axis =? 0)%Z then
      let! cols := mapM (fun j => dsoftmax1 (dcol j x)) (seq 0 nc) in
      Ok (map (fun i => map (fun c => nth i c zero) cols) (seq 0 nr))
    else if (axis =? -1)%Z then
      let! c := dmax_coeff (concat x) in
      let e := map (map (fun b => dexp (dsub b c))) x in
      let div := dsum ord (concat e) in
      Ok (map (map (fun a => ddiv a div)) e)
    else UB.

  (** log_loss.hpp:32-55: the terms of the loss *)
  Definition dlog_term (y y_hat : double) : double :=
    dsub (dmul (dmul (dbl (-1) 0) y) (dlog y_hat)) (dmul (dsub (dbl 1 0) y) (dlog (dsub (dbl 1 0) y_hat))).
  (** log_loss.hpp:32-55, compare [Loss_Model.log_evaluate] *)
  Definition dlog_evaluate (lambda : double) (X : list (list double)) (y w : list double) : outcome double :=
    let! X_w := dmv ord X w in
    let y_hat := map dsigmoid1 X_w in
    if length y =? length y_hat then
      let n := dnat (length X) in
      let loss := ddiv (dsum ord (map2 dlog_term y y_hat)) n in
      let reg := ddiv (dsq_norm ord w) (dmul n (dbl 2 0)) in
      Ok (dadd loss (dmul reg lambda))
    else UB.
  (** log_loss.hpp:63-82, compare [Loss_Model.log_gradient] *)
  Definition dlog_gradient (lambda : double) (X : list (list double)) (y w : list double) : outcome (list double) :=
    let! X_w := dmv ord X w in
    let! diff := drow_sub (map dsigmoid1 X_w) y in
    let n := dnat (length X) in
    Ok (map (fun j => dadd (ddiv (dsum ord (map (fun p => dmul (nth j (fst p) zero) (snd p)) (combine X diff))) n) (dmul (ddiv (nth j w zero) n) lambda)) (seq 0 (length w))).
End Prob.
