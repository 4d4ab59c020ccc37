(** The code on IEEE doubles, for inputs with NaN, infinities or overflow: k-means, prediction of trees, k-nearest queries, the stopping rule of
    stochastic gradient descent.  [ord] is the order in which Eigen adds up. *)
From Flocq Require Import Core BinarySingleNaN.
From Verif Require Import Base Common_Model Argsort_Model KDTree_Model Tree_Model KMeans_Model Shuffle_Model Round_Spec Double_Spec.
Set Implicit Arguments.

Section Sums.
  Variable ord : nat -> order.
  (** extmath.hpp:212-217. Eigen's [squaredNorm()], [norm()] *)
  Definition dsq_norm (v : list double) : double := dsum ord (map (fun a => dmul a a) v).
  (** extmath.hpp:212-217 *)
  Definition dnorm (v : list double) : double := dsqrt (dsq_norm v).
  (** extmath.hpp:212-217 *)
  Definition drow_sub (x c : list double) : outcome (list double) :=
    if length x =? length c then Ok (KDTree_Model.diff dsub x c) else UB.

  (** * k-means (compare [KMeans_Model]) *)
  (** kmeans.hpp:135-146 and 173-184 *)
  Definition dclosest_step (C : list (list double)) (x : list double) (s : double * nat) (j : nat) : outcome (double * nat) :=
    let! c := vget C j in
    let! v := drow_sub x c in
    let dist := dnorm v in
    Ok (if dlt dist (fst s) then (dist, j) else s).
  (** kmeans.hpp:135-146 and 173-184 *)
  Definition dclosest (K : nat) (C : list (list double)) (x : list double) : outcome nat :=
    let! s := foldM (dclosest_step C x) (seq 0 K) (inf, 0) in Ok (snd s).
  (** kmeans.hpp:169-188 *)
  Definition dpredict (K : nat) (C X : list (list double)) : outcome (list nat) := mapM (dclosest K C) X.
  (** kmeans.hpp:133-148 *)
  Definition dassign (K : nat) (C X : list (list double)) : outcome (list (nat * list nat)) :=
    foldM (fun m i => let! x := vget X i in let! k := dclosest K C x in Ok (push_sample m k i)) (seq 0 (length X)) [].
  (** ops.hpp:100-104 [mean(x, 0)]: Eigen divides the sum of each column by the number of rows. *)
  Definition dcol_mean (nf : nat) (rows : list (list double)) : list double :=
    map (fun j => ddiv (dsum ord (map (fun r => nth j r zero) rows)) (dnat (length rows))) (seq 0 nf).
  (** kmeans.hpp:151-158, see [move_one] *)
  Definition dmove_one (asserts : bool) (nf : nat) (X : list (list double)) (s : list (list double) * double) (c : nat * list nat)
    : outcome (list (list double) * double) :=
    let! cluster := mapM (vget X) (snd c) in
    let mean_c := dcol_mean nf cluster in
    let! old := vget (fst s) (fst c) in
    let! diff := drow_sub mean_c old in
    if asserts && negb (nf =? 1) then UB
    else Ok (set_nth (fst s) (fst c) mean_c, dadd (snd s) (dnorm diff)).
  (** kmeans.hpp:131-163 *)
  Definition diteration (asserts : bool) (nf K : nat) (X C : list (list double)) : outcome (list (list double) * double) :=
    let! clusters := dassign K C X in
    foldM (dmove_one asserts nf X) clusters (C, zero).
  (** kmeans.hpp:127-164 *)
  Fixpoint dlloyd (asserts : bool) (nf K : nat) (tol : double) (X : list (list double)) (max_iter : nat) (C : list (list double))
    : outcome (list (list double)) :=
    match max_iter with
    | O => Ok C
    | S n =>
        let! (C', eps) := diteration asserts nf K X C in
        if dlt eps tol then Ok C' else dlloyd asserts nf K tol X n C'
    end.

  (** extmath.hpp:212-217 *)
  Definition dsq_dists (X : list (list double)) (c : list double) : outcome (list double) :=
    mapM (fun x => let! d := drow_sub x c in Ok (dsq_norm d)) X.
  (** ops.hpp:274-280 *)
  Fixpoint dcumsum_from (s : double) (l : list double) : list double :=
    match l with [] => [] | a :: l' => dadd s a :: dcumsum_from (dadd s a) l' end.
  (** ops.hpp:274-280 *)
  Definition dcumsum (l : list double) : list double := match l with [] => [] | a :: l' => a :: dcumsum_from a l' end.
  (** kmeans.hpp:68-73. [std::lower_bound]; on numbers that are not sorted, as here when one is NaN, the result is some position. *)
  Fixpoint dlower_bound_loop (fuel : nat) (l : list double) (v : double) (first len : nat) : outcome nat :=
    match len, fuel with
    | O, _ => Ok first
    | _, O => Fuel
    | _, S fuel' =>
        let half := Nat.div2 len in
        let! m := vget l (first + half) in
        if dlt m v then dlower_bound_loop fuel' l v (S (first + half)) (len - half - 1)
        else dlower_bound_loop fuel' l v first half
    end.
  (** kmeans.hpp:68-73 *)
  Definition dlower_bound (l : list double) (v : double) : outcome nat := dlower_bound_loop (length l) l v 0 (length l).
  (** kmeans.hpp:62-77 *)
  Definition dcandidate_index (closest_dist : list double) (rand_val : double) : outcome nat :=
    let! k := dlower_bound (dcumsum closest_dist) rand_val in
    Ok (if length closest_dist - 1 <? k then length closest_dist - 1 else k).
  (** kmeans.hpp:60-98 *)
  Definition dtrial (X : list (list double)) (closest_dist : list double) (pot : double) (s : double * option (nat * list double)) (r : double)
    : outcome (double * option (nat * list double)) :=
    let! k := dcandidate_index closest_dist (dmul r pot) in
    let! x := vget X k in
    let! ds := dsq_dists X x in
    let ds' := map (fun p => if dlt (fst p) (snd p) then fst p else snd p) (combine closest_dist ds) in
    let p := dsum ord ds' in
    Ok (if dlt p (fst s) then (p, Some (k, ds')) else s).
  (** kmeans.hpp:49-102; [best_candidates] is uninitialised if no trial is below the largest double. *)
  Fixpoint dmore_centres (X : list (list double)) (draws : list (list double)) (closest_dist : list double) (pot : double)
    : outcome (list (list double)) :=
    match draws with
    | [] => Ok []
    | rs :: draws' =>
        let! (pot', best) := foldM (dtrial X closest_dist pot) rs (dmax, None) in
        match best with
        | None => UB
        | Some (k, ds) =>
            let! x := vget X k in
            let! rest := dmore_centres X draws' ds pot' in
            Ok (x :: rest)
        end
    end.
  (** kmeans.hpp:32-104 *)
  Definition dplusplus (X : list (list double)) (first : nat) (draws : list (list double)) : outcome (list (list double)) :=
    let! c0 := vget X first in
    let! ds := dsq_dists X c0 in
    let! rest := dmore_centres X draws ds (dsum ord ds) in
    Ok (c0 :: rest).
End Sums.

(** * Trees: decision_tree_classifier.hpp:221-233, decision_tree_regressor.hpp:221-234 (compare [walk]); the comparison is [<=]. *)
Fixpoint dwalk {I V} (t : dtree double I V) (x : list double) : outcome (info double I V) :=
  match t with
  | Null => UB
  | Node i l r =>
      match l with
      | Null => Ok i
      | Node _ _ _ =>
          match n_split i with
          | None => UB
          | Some (f, v, _) =>
              let! xf := vget x f in
              if dle xf v then dwalk l x else dwalk r x
          end
      end
  end.

(** * Queries of the KD-tree (compare [KDTree_Model]; there infinity is a separate key, here it is the double). *)
Section Query.
  Variable norm : list double -> double.
  Variable pick : nat -> nat.
  Notation dnode := (node double).
  Notation entry := (double * nat)%type.
  (** kd_tree.hpp:233-252 *)
  Definition dcheck (r : list double * list double) (q : list double) (radius : double) : outcome bool :=
    if (length q =? length (fst r)) && (length q =? length (snd r))
    then Ok (dlt (norm (KDTree_Model.diff dsub (clamp dlt q (fst r) (snd r)) q)) radius)
    else UB.
  (** kd_tree.hpp:254-277; sorting distances of which one is NaN is undefined. *)
  Definition dcompute_distance (q : list double) (leaf : list (list double)) (leaf_idx : list nat) (k : nat) : outcome (list entry) :=
    let! dist := leaf_distances dsub norm leaf q in
    if existsb is_nan dist then UB else
    let! order := argsort_col dlt dist in
    mapM (fun i => let! d := vget dist i in let! j := vget leaf_idx i in Ok (d, j))
         (firstn (if length leaf <=? k then length leaf else k) order).
  (** kd_tree.hpp:19-24, 287-290, 301-306. The heap as in [KDTree_Model]. *)
  Definition dis_max (h : list entry) (e : entry) : bool := forallb (fun x => negb (dlt (fst e) (fst x))) h.
  (** kd_tree.hpp:19-24, 287-290, 301-306 *)
  Definition dmax_positions (h : list entry) : list nat :=
    filter (fun i => match nth_error h i with Some e => dis_max h e | None => false end) (seq 0 (length h)).
  (** kd_tree.hpp:19-24, 287-290, 301-306 *)
  Definition dpop (n : nat) (h : list entry) : outcome (entry * list entry) :=
    let ps := dmax_positions h in
    let! i := vget ps (pick n mod length ps) in
    let! e := vget h i in
    Ok (e, firstn i h ++ skipn (S i) h).
  (** kd_tree.hpp:19-24, 287-290, 301-306 *)
  Definition dtop_key (h : list entry) : outcome double :=
    match h with
    | [] => UB
    | e :: h' => Ok (fold_left (fun m x => if dlt m (fst x) then fst x else m) h' (fst e))
    end.
  (** kd_tree.hpp:19-24, 287-290, 301-306 *)
  Definition dpush_nn (k : nat) (s : list entry * nat) (e : entry) : outcome (list entry * nat) :=
    let (h, n) := s in
    let h' := h ++ [e] in
    if k <? length h' then let! (_, h'') := dpop n h' in Ok (h'', S n) else Ok (h', n).
  (** kd_tree.hpp:310-319 *)
  Definition dpush_children (tree : list dnode) (nd : dnode) (q : list double) (radius : double) (stk : list dnode) : outcome (list dnode) :=
    match nd_lrect nd, nd_rrect nd with
    | Some lr, Some rr =>
        let! bl := dcheck lr q radius in
        let! stk1 := (if bl then let! c := child tree (nd_left nd) in Ok (c :: stk) else Ok stk) in
        let! br := dcheck rr q radius in
        if br then let! c := child tree (nd_right nd) in Ok (c :: stk1) else Ok stk1
    | _, _ => UB
    end.
  (** kd_tree.hpp:292-320 *)
  Fixpoint dknn_loop (fuel : nat) (tree : list dnode) (q : list double) (k : nat) (stk : list dnode) (s : list entry * nat)
    : outcome (list entry * nat) :=
    match fuel with
    | O => Fuel
    | S fuel' =>
        match stk with
        | [] => Ok s
        | nd :: stk' =>
            match nd_leaf nd with
            | Some (d, i) =>
                let! single := dcompute_distance q d i k in
                let! s' := foldM (dpush_nn k) single s in
                dknn_loop fuel' tree q k stk' s'
            | None =>
                let! radius := dtop_key (fst s) in
                let! stk1 := dpush_children tree nd q radius stk' in
                dknn_loop fuel' tree q k stk1 s
            end
        end
    end.
  (** kd_tree.hpp:321-325 *)
  Fixpoint ddrain (k : nat) (s : list entry * nat) (acc : list entry) : outcome (list entry) :=
    match k with
    | O => Ok acc
    | S k' => let (h, n) := s in let! (e, h') := dpop n h in ddrain k' (h', S n) (e :: acc)
    end.
  (** kd_tree.hpp:279-327 *)
  Definition dquery_single (tree : list dnode) (q : list double) (k : nat) : outcome (list entry) :=
    match nth_error tree 0 with
    | None => Throw OutOfRange
    | Some root =>
        let! s := dknn_loop (S (length tree)) tree q k [root] (repeat (inf, 0) k, 0) in
        ddrain k s []
    end.
  (** kd_tree.hpp:403-424 *)
  Definition dquery (tree : list dnode) (qs : list (list double)) (k : nat) : outcome (list (list entry)) := mapM (fun q => dquery_single tree q k) qs.
End Query.
(** kd_tree.hpp:95-230 *)
Definition dbuild := KDTree_Model.build_tree dlt dsub dabs.
(** metric.hpp:106-115 for the metrics that add up: [lpNorm<1>], [lpNorm<2>]. *)
Definition dnorm1 (ord : nat -> order) (v : list double) : double := dsum ord (map dabs v).

(** * Stochastic gradient descent: the stopping rule.
      [epoch] runs one epoch from a state and returns the new one with the sum of the losses (sgd.hpp:72-97, sag.hpp:65-95, tg.hpp:96-130). *)
Section Epochs.
  Context {S : Type}.
  Variable epoch : nat -> S -> outcome (S * double).
  Variables (tol : double) (batch_size num_iters_no_change : nat).
  (** sgd.hpp:98-129 *)
  Fixpoint depochs (iters : list nat) (best : double) (no_improvement_count : nat) (s : S) : outcome S :=
    match iters with
    | [] => Throw RuntimeError
    | iter :: rest =>
        let! (s', sum_loss) := epoch iter s in
        let count := if dlt (dsub best (dmul tol (dnat batch_size))) sum_loss then Datatypes.S no_improvement_count else 0 in
        let best' := if dlt sum_loss best then sum_loss else best in
        if num_iters_no_change <=? count then Ok s' else depochs rest best' count s'
    end.
  (** sgd.hpp:98-129 *)
  Definition doptimize (max_iter : nat) (s : S) : outcome S := depochs (seq 0 max_iter) inf 0 s.
End Epochs.

(** sgd.hpp:50-130 with a loss function, a constant or decaying rate and the plain update.  The state is the (reshuffled) training data and the weights. *)
Section Sgd.
  Variable ord : nat -> order.
  Variable gradient : list (list double) -> list double -> list double -> outcome (list double).
  Variable evaluate : list (list double) -> list double -> list double -> outcome double.
  Variable clip : double -> double.
  Variable decay : nat -> double.
  Variable perm : nat -> list nat.
  Variables (shuffle : bool) (tol : double) (batch_size num_iters_no_change : nat).
  (** sgd.hpp:82-94. [middleRows] *)
  Definition dmiddle_rows {A} (x : list A) (begin n : nat) : outcome (list A) := if begin + n <=? length x then Ok (firstn n (skipn begin x)) else UB.
  (** vanilla_update.hpp:19-24 *)
  Definition dupdate (w grad : list double) (lr : double) : outcome (list double) := drow_sub w (map (dmul lr) grad).
  (** sgd.hpp:82-94 *)
  Definition dbatch (lr : double) (X : list (list double)) (y : list double) (s : list double * list double) (j : nat) : outcome (list double * list double) :=
    let! X_batch := dmiddle_rows X (j * batch_size) batch_size in
    let! y_batch := dmiddle_rows y (j * batch_size) batch_size in
    let! grad := gradient X_batch y_batch (fst s) in
    let! w := dupdate (fst s) (map clip grad) lr in
    let! loss := evaluate X_batch y_batch w in
    Ok (w, snd s ++ [loss]).
  (** sgd.hpp:72-97 *)
  Definition dsgd_epoch (iter : nat) (s : list (list double) * list double * list double) : outcome (list (list double) * list double * list double * double) :=
    let! XY := (if shuffle then shuffle_data2 (perm iter) (fst (fst s)) (snd (fst s)) else Ok (fst s)) in
    let! r := foldM (dbatch (decay iter) (fst XY) (snd XY)) (seq 0 (length (fst XY) / batch_size)) (snd s, []) in
    Ok (XY, fst r, dsum ord (snd r)).
  (** sgd.hpp:72-97 *)
  Definition dsgd (max_iter : nat) (X : list (list double)) (y w : list double) : outcome (list double) :=
    if batch_size =? 0 then UB else
    let! s := doptimize dsgd_epoch tol batch_size num_iters_no_change max_iter (X, y, w) in Ok (snd s).
End Sgd.
(** mean_squared_error.hpp:30-46; [pow(2.0)] is taken as one multiplication. *)
Definition dmv (ord : nat -> order) (X : list (list double)) (w : list double) : outcome (list double) :=
  mapM (fun r => if length r =? length w then Ok (dsum ord (map (fun p => dmul (fst p) (snd p)) (combine r w))) else UB) X.
(** mean_squared_error.hpp:30-46 *)
Definition dmse (ord : nat -> order) (lambda : double) (X : list (list double)) (y w : list double) : outcome double :=
  let! y_hat := dmv ord X w in
  let! diff := drow_sub y y_hat in
  let n := dnat (length X) in
  let loss := ddiv (dmul (dbl 1 (-1)) (dsq_norm ord diff)) n in
  let reg := ddiv (dsq_norm ord w) (dmul n (dbl 2 0)) in
  Ok (dadd loss (dmul reg lambda)).
(** mean_squared_error.hpp:54-71 *)
Definition dmse_gradient (ord : nat -> order) (lambda : double) (X : list (list double)) (y w : list double) : outcome (list double) :=
  let! y_hat := dmv ord X w in
  let! diff := drow_sub y_hat y in
  let n := dnat (length X) in
  Ok (map (fun j => dadd (ddiv (dsum ord (map (fun p => dmul (nth j (fst p) zero) (snd p)) (combine X diff))) n) (dmul (ddiv (nth j w zero) n) lambda)) (seq 0 (length w))).
(** common.hpp:465-468 with the bounds of optimizer/base.hpp:40-41; Eigen does not say what becomes of NaN. *)
Definition dclip (on_nan : double) (a : double) : double :=
  if is_nan a then on_nan else
  let b := if dlt (dbl (10 ^ 10) 0) a then dbl (10 ^ 10) 0 else a in if dlt b (dbl (- 10 ^ 10) 0) then dbl (- 10 ^ 10) 0 else b.
