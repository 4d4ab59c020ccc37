(** Model of [core/tree/kd_tree.hpp] over any value type with an order, subtraction, absolute value and a norm
    of difference vectors.  [KDTree_Proofs] instantiates it with the real numbers and the three
    metrics of the code, and with [Z] for computed counterexamples.

    Simplifications: the fields [depth] (never read) are dropped; [std::make_shared] copies are
    values; the metric is given here; [NbrObjects_Model] has the
    constructor, which leaves [ord_] uninitialised for an unknown name. *)
From Verif Require Import Base Common_Model Argsort_Model.
Set Implicit Arguments.

Section KD.
  Variable T : Type.
  Variable ltb : T -> T -> bool.        (* operator< of DataType *)
  Variable sub : T -> T -> T.
  Variable abs : T -> T.
  Variable norm : list T -> T.          (* lpNorm of the chosen metric *)

  Notation row := (list T).
  Notation rect := (list T * list T)%type.  (* lower and upper bounds: rows 0 and 1 of a hyper_rect *)

  (** kd_tree.hpp:80-81. [std::min(a, b)], [std::max(a, b)] *)
  Definition tmin (a b : T) : T := if ltb b a then b else a.
  (** kd_tree.hpp:80-81 *)
  Definition tmax (a b : T) : T := if ltb a b then b else a.

  (** kd_tree.hpp:72-93. [data.col(j)] *)
  Definition col_of (data : list row) (j : nat) : outcome (list T) := mapM (fun r => vget r j) data.
  (** kd_tree.hpp:108-117 and 180-192. [data(indices, Eigen::all)], [indices(idx)] *)
  Definition select {A} (v : list A) (idx : list nat) : outcome (list A) := mapM (vget v) idx.

  (** kd_tree.hpp:85-92. Least and greatest value of a column; [None] (an infinite or undefined bound) for no rows. *)
  Definition col_min (c : list T) : option T :=
    match c with [] => None | x :: c' => Some (fold_left tmin c' x) end.
  (** kd_tree.hpp:85-92 *)
  Definition col_max (c : list T) : option T :=
    match c with [] => None | x :: c' => Some (fold_left tmax c' x) end.

  (** kd_tree.hpp:85-92: the first axis of strictly greatest range.  With no rows all ranges are
      infinite and the answer is axis 0. *)
  Definition col_range (c : list T) : option T :=
    match col_min c, col_max c with
    | Some lo, Some hi => Some (abs (sub hi lo))
    | _, _ => None
    end.
  (** kd_tree.hpp:85-92 *)
  Fixpoint widest (ranges : list (option T)) (i best : nat) (best_range : option T) : nat :=
    match ranges with
    | [] => best
    | r :: ranges' =>
        match r, best_range with
        | Some a, Some b => if ltb b a then widest ranges' (S i) i r else widest ranges' (S i) best best_range
        | _, _ => widest ranges' (S i) best best_range
        end
    end.
  (** kd_tree.hpp:72-93 *)
  Definition find_partition_axis (nf : nat) (data : list row) : outcome nat :=
    let! cs := mapM (col_of data) (seq 0 nf) in
    match map col_range cs with
    | [] => Ok 0
    | r :: ranges => Ok (widest ranges 1 0 r)
    end.

  (** kd_tree.hpp:26-55.  [None] for a pointer is the initial -1 / nullptr. *)
  Record node := mk_node {
    nd_left : option nat; nd_right : option nat;
    nd_leaf : option (list row * list nat);
    nd_lrect : option rect; nd_rrect : option rect }.

  (** kd_tree.hpp:57-63 *)
  Record item := mk_item { it_left : bool; it_parent : nat; it_data : list row; it_idx : list nat }.

  (** kd_tree.hpp:157-163 *)
  Definition set_child (n : node) (is_left : bool) (ptr : nat) : node :=
    if is_left then mk_node (Some ptr) (nd_right n) (nd_leaf n) (nd_lrect n) (nd_rrect n)
    else mk_node (nd_left n) (Some ptr) (nd_leaf n) (nd_lrect n) (nd_rrect n).

  (** kd_tree.hpp:148-230 *)
  Definition vset {A} (v : list A) (i : nat) (a : A) : outcome (list A) :=
    if i <? length v then Ok (firstn i v ++ a :: skipn (S i) v) else UB.

  (** Sorting the rows of a node along the widest axis and cutting at the middle row
      (kd_tree.hpp:108-117 and 180-192): axis, cut value, sorted rows, sorted indices. *)
  Definition split_rows (nf : nat) (data : list row) (idx : list nat)
    : outcome (nat * T * list row * list nat) :=
    let! axis := find_partition_axis nf data in
    let! c := col_of data axis in
    let! order := argsort_col ltb c in
    let! data' := select data order in
    let! idx' := select idx order in
    let! mid_row := vget data' (length data / 2) in
    let! val := vget mid_row axis in
    Ok (axis, val, data', idx').

  (** kd_tree.hpp:148-230 *)
  Definition two_items (ptr mid : nat) (data' : list row) (idx' : list nat) : list item :=
    [ mk_item false ptr (skipn mid data') (skipn mid idx');
      mk_item true ptr (firstn mid data') (firstn mid idx') ].

  (** kd_tree.hpp:148-230: the loop over the stack (its top is the head of the list). *)
  Fixpoint build_loop (fuel leaf_size nf : nat) (stk : list item) (tree : list node)
    : outcome (list node) :=
    match fuel with
    | O => Fuel
    | S fuel' =>
        match stk with
        | [] => Ok tree
        | it :: stk' =>
            let ptr := length tree in
            match nth_error tree (it_parent it) with
            | None => Throw OutOfRange   (* tree_->at *)
            | Some parent =>
                let! tree1 := vset tree (it_parent it) (set_child parent (it_left it) ptr) in
                if length (it_data it) <=? leaf_size
                then build_loop fuel' leaf_size nf stk'
                       (tree1 ++ [mk_node (Some 0) (Some 0) (Some (it_data it, it_idx it)) None None])
                else
                  let! (axis, val, data', idx') := split_rows nf (it_data it) (it_idx it) in
                  match (if it_left it then nd_lrect parent else nd_rrect parent) with
                  | None => UB            (* null dereference *)
                  | Some (lo, hi) =>
                      let! hi' := vset hi axis val in
                      let! lo' := vset lo axis val in
                      build_loop fuel' leaf_size nf
                        (two_items ptr (length (it_data it) / 2) data' idx' ++ stk')
                        (tree1 ++ [mk_node None None None (Some (lo, hi')) (Some (lo', hi))])
                  end
            end
        end
    end.

  (** kd_tree.hpp:95-147. [data.colwise().minCoeff()] / [maxCoeff()]: undefined on no rows. *)
  Definition bounds (f : list T -> option T) (nf : nat) (data : list row) : outcome row :=
    mapM (fun j => let! c := col_of data j in
                   match f c with Some v => Ok v | None => UB end) (seq 0 nf).

  (** kd_tree.hpp:95-147: bounding box, root, first two stack entries.  Lines 121-122 store the cut
      value in column 0 of the boxes, whatever the partition axis. *)
  Definition build_tree (leaf_size nf : nat) (data : list row) : outcome (list node) :=
    match data with
    | [] => UB
    | _ =>
        let! lo := bounds col_min nf data in
        let! hi := bounds col_max nf data in
        let! (axis, val, data', idx') := split_rows nf data (seq 0 (length data)) in
        let! hi' := vset hi 0 val in
        let! lo' := vset lo 0 val in
        build_loop (S (2 * length data)) leaf_size nf (two_items 0 (length data / 2) data' idx')
          [mk_node None None None (Some (lo, hi')) (Some (lo', hi))]
    end.

  (** metric.hpp:84-117 *)
  Definition diff (x y : row) : row := map (fun p => sub (fst p) (snd p)) (combine x y).
  (** metric.hpp:84-117 and common.hpp:898-924 on vectors of equal size. *)
  Definition distance (x y : row) : T := norm (diff x y).

  (** kd_tree.hpp:233-252. Distances may be infinite in the heap: [None] is infinity. *)
  Definition klt (a b : option T) : bool :=
    match a, b with
    | Some x, Some y => ltb x y
    | Some _, None => true
    | None, _ => false
    end.

  (** kd_tree.hpp:241-248: clamp the point into the box. *)
  Definition clamp1 (q lo hi : T) : T :=
    let c := if ltb hi q then hi else q in if ltb c lo then lo else c.
  (** kd_tree.hpp:241-248 *)
  Fixpoint clamp (q lo hi : row) : row :=
    match q, lo, hi with
    | x :: q', l :: lo', h :: hi' => clamp1 x l h :: clamp q' lo' hi'
    | _, _, _ => []
    end.
  (** kd_tree.hpp:233-252; a query point of another length is an out-of-range access. *)
  Definition check_intersection (r : rect) (q : row) (radius : option T) : outcome bool :=
    if (length q =? length (fst r)) && (length q =? length (snd r))
    then Ok (klt (Some (distance (clamp q (fst r) (snd r)) q)) radius)
    else UB.

  (** kd_tree.hpp:254-277. [leaf_data.rowwise() - data] and its row norms; other lengths violate Eigen's assertion. *)
  Definition leaf_distances (leaf : list row) (q : row) : outcome (list T) :=
    mapM (fun r => if length r =? length q then Ok (distance r q) else UB) leaf.

  Notation entry := (option T * nat)%type.

  (** kd_tree.hpp:254-277 *)
  Definition compute_distance (q : row) (leaf : list row) (leaf_idx : list nat) (k : nat)
    : outcome (list entry) :=
    let! dist := leaf_distances leaf q in
    let! order := argsort_col ltb dist in
    mapM (fun i => let! d := vget dist i in let! j := vget leaf_idx i in Ok (Some d, j))
         (firstn (if length leaf <=? k then length leaf else k) order).

  (** [std::priority_queue] with [neighbor_heap_cmp]: a bag whose [top] is an entry of greatest distance.
      Which one among equals is up to the library: the [n]-th pop takes the one chosen by
      the arbitrary [pick n]. *)
  Variable pick : nat -> nat.
  (** kd_tree.hpp:19-24, 287-290, 301-306 *)
  Definition is_max (h : list entry) (e : entry) : bool := forallb (fun x => negb (klt (fst e) (fst x))) h.
  (** kd_tree.hpp:19-24, 287-290, 301-306 *)
  Definition max_positions (h : list entry) : list nat :=
    filter (fun i => match nth_error h i with Some e => is_max h e | None => false end) (seq 0 (length h)).
  (** kd_tree.hpp:19-24, 287-290, 301-306 *)
  Definition pop (n : nat) (h : list entry) : outcome (entry * list entry) :=
    let ps := max_positions h in
    let! i := vget ps (pick n mod length ps) in
    let! e := vget h i in
    Ok (e, firstn i h ++ skipn (S i) h).
  (** kd_tree.hpp:19-24, 287-290, 301-306 *)
  Definition top_key (h : list entry) : outcome (option T) :=
    match h with
    | [] => UB
    | e :: h' => Ok (fold_left (fun m x => if klt m (fst x) then fst x else m) h' (fst e))
    end.

  (** kd_tree.hpp:301-307; the state is the heap and the number of pops so far. *)
  Definition push_nn (k : nat) (s : list entry * nat) (e : entry) : outcome (list entry * nat) :=
    let (h, n) := s in
    let h' := h ++ [e] in
    if k <? length h' then let! (_, h'') := pop n h' in Ok (h'', S n) else Ok (h', n).

  (** kd_tree.hpp:310-319 and 359-368 *)
  Definition child (tree : list node) (p : option nat) : outcome node :=
    match p with
    | None => Throw OutOfRange
    | Some i => match nth_error tree i with Some n => Ok n | None => Throw OutOfRange end
    end.
  (** kd_tree.hpp:310-319 and 359-368: the children pushed (left first, so right is on top). *)
  Definition push_children (tree : list node) (nd : node) (q : row) (radius : option T)
             (stk : list node) : outcome (list node) :=
    match nd_lrect nd, nd_rrect nd with
    | Some lr, Some rr =>
        let! bl := check_intersection lr q radius in
        let! stk1 := (if bl then let! c := child tree (nd_left nd) in Ok (c :: stk) else Ok stk) in
        let! br := check_intersection rr q radius in
        if br then let! c := child tree (nd_right nd) in Ok (c :: stk1) else Ok stk1
    | _, _ => UB
    end.

  (** kd_tree.hpp:292-320 *)
  Fixpoint knn_loop (fuel : nat) (tree : list node) (q : row) (k : nat)
           (stk : list node) (s : list entry * nat) : outcome (list entry * nat) :=
    match fuel with
    | O => Fuel
    | S fuel' =>
        match stk with
        | [] => Ok s
        | nd :: stk' =>
            match nd_leaf nd with
            | Some (d, i) =>
                let! single := compute_distance q d i k in
                let! s' := foldM (push_nn k) single s in
                knn_loop fuel' tree q k stk' s'
            | None =>
                let! radius := top_key (fst s) in
                let! stk1 := push_children tree nd q radius stk' in
                knn_loop fuel' tree q k stk1 s
            end
        end
    end.

  (** kd_tree.hpp:321-325: fills [knn] from the back. *)
  Fixpoint drain (k : nat) (s : list entry * nat) (acc : list entry) : outcome (list entry) :=
    match k with
    | O => Ok acc
    | S k' => let (h, n) := s in let! (e, h') := pop n h in drain k' (h', S n) (e :: acc)
    end.

  (** kd_tree.hpp:279-327 *)
  Definition query_single (tree : list node) (q : row) (k : nat) : outcome (list entry) :=
    match nth_error tree 0 with
    | None => Throw OutOfRange
    | Some root =>
        let! s := knn_loop (S (length tree)) tree q k [root] (repeat (None, 0) k, 0) in
        drain k s []
    end.

  (** kd_tree.hpp:403-424: row [i] of both result matrices. *)
  Definition query (tree : list node) (qs : list row) (k : nat) : outcome (list (list entry)) :=
    mapM (fun q => query_single tree q k) qs.

  (** kd_tree.hpp:340-357: entries of one leaf within the radius. *)
  Definition leaf_within (q : row) (leaf : list row) (leaf_idx : list nat) (radius : T)
    : outcome (list (T * nat)) :=
    let! dist := leaf_distances leaf q in
    mapM (fun i => let! d := vget dist i in let! j := vget leaf_idx i in Ok (d, j))
         (filter (fun i => match nth_error dist i with Some d => negb (ltb radius d) | None => false end)
                 (seq 0 (length dist))).

  (** kd_tree.hpp:329-371 *)
  Fixpoint radius_loop (fuel : nat) (tree : list node) (q : row) (radius : T)
           (stk : list node) (acc : list (T * nat)) : outcome (list (T * nat)) :=
    match fuel with
    | O => Fuel
    | S fuel' =>
        match stk with
        | [] => Ok acc
        | nd :: stk' =>
            match nd_leaf nd with
            | Some (d, i) =>
                let! found := leaf_within q d i radius in
                radius_loop fuel' tree q radius stk' (acc ++ found)
            | None =>
                let! stk1 := push_children tree nd q (Some radius) stk' in
                radius_loop fuel' tree q radius stk1 acc
            end
        end
    end.
  (** kd_tree.hpp:426-440 *)
  Definition query_radius_single (tree : list node) (q : row) (radius : T) : outcome (list (T * nat)) :=
    match nth_error tree 0 with
    | None => Throw OutOfRange
    | Some root => radius_loop (S (length tree)) tree q radius [root] []
    end.

  (** kd_tree.hpp:426-440: empty answers are not stored. *)
  Definition query_radius (tree : list node) (qs : list row) (radius : T) : outcome (list (list (T * nat))) :=
    let! rs := mapM (fun q => query_radius_single tree q radius) qs in
    Ok (filter (fun r => match r with [] => false | _ => true end) rs).
End KD.
