(** The KD-tree model commutes with an order- and norm-preserving embedding of values: runs on
    integer data computed over [Z] are runs over the real numbers. *)
From Coq Require Import Reals Lra.
From Verif Require Import Base Sorting Common_Model Argsort_Model Argsort_Proofs KDTree_Model KDTree_Spec KDReal_Proofs.

Definition omap {A B} (f : A -> B) (o : outcome A) : outcome B :=
  match o with Ok a => Ok (f a) | Throw e => Throw e | UB => UB | Fuel => Fuel end.
Lemma bind_hom {A B A' B'} (f : A -> A') (g : B -> B') (o : outcome A) k k' :
  (forall a, k' (f a) = omap g (k a)) -> bind (omap f o) k' = omap g (bind o k).
Proof. intros H. destruct o; simpl; auto. Qed.
Lemma mapM_hom {A B A' B'} (f : A -> A') (g : B -> B') k k' l :
  (forall a, In a l -> k' (f a) = omap g (k a)) -> mapM k' (map f l) = omap (map g) (mapM k l).
Proof.
  induction l as [|a l IH]; intros H; simpl; [reflexivity|]. rewrite (H a) by now left.
  apply bind_hom. intros b. rewrite IH by (intros; apply H; now right). apply bind_hom. reflexivity.
Qed.
Lemma mapM_hom' {A B B'} (g : B -> B') (k : A -> outcome B) k' l :
  (forall a, In a l -> k' a = omap g (k a)) -> mapM k' l = omap (map g) (mapM k l).
Proof. intros H. rewrite <- (map_id l) at 1. now apply mapM_hom with (f := fun x => x). Qed.
Lemma vget_hom {A B} (f : A -> B) l i : vget (map f l) i = omap f (vget l i).
Proof. unfold vget. rewrite nth_error_map. destruct (nth_error l i); reflexivity. Qed.
Lemma vset_hom {A B} (f : A -> B) l i a : vset (map f l) i (f a) = omap (map f) (vset l i a).
Proof.
  unfold vset. rewrite map_length. destruct (i <? length l); [|reflexivity]. cbn [omap].
  rewrite map_app, firstn_map, skipn_map. reflexivity.
Qed.

Section Hom.
  Variables A B : Type.
  Variable f : A -> B.
  Variables (ltA : A -> A -> bool) (ltB : B -> B -> bool).
  Variables (subA : A -> A -> A) (subB : B -> B -> B) (absA : A -> A) (absB : B -> B).
  Hypothesis Hlt : forall a b, ltB (f a) (f b) = ltA a b.
  Hypothesis Hsub : forall a b, subB (f a) (f b) = f (subA a b).
  Hypothesis Habs : forall a, absB (f a) = f (absA a).

  Notation fr := (map f).
  Definition fbox (b : list A * list A) : list B * list B := (fr (fst b), fr (snd b)).
  Definition fnode (n : node A) : node B :=
    mk_node (nd_left n) (nd_right n)
      (option_map (fun p => (map fr (fst p), snd p)) (nd_leaf n))
      (option_map fbox (nd_lrect n)) (option_map fbox (nd_rrect n)).
  Definition fitem (i : item A) : item B := mk_item (it_left i) (it_parent i) (map fr (it_data i)) (it_idx i).

  Lemma col_of_hom data j : col_of (map fr data) j = omap fr (col_of data j).
  Proof. unfold col_of. apply mapM_hom. intros. apply vget_hom. Qed.
  Lemma select_hom {X Y} (g : X -> Y) v idx : select (map g v) idx = omap (map g) (select v idx).
  Proof. unfold select. apply mapM_hom'. intros. apply vget_hom. Qed.
  Lemma tmin_hom a b : tmin ltB (f a) (f b) = f (tmin ltA a b).
  Proof. unfold tmin. rewrite Hlt. now destruct (ltA b a). Qed.
  Lemma tmax_hom a b : tmax ltB (f a) (f b) = f (tmax ltA a b).
  Proof. unfold tmax. rewrite Hlt. now destruct (ltA a b). Qed.
  Lemma fold_hom (gA : A -> A -> A) (gB : B -> B -> B) : (forall a b, gB (f a) (f b) = f (gA a b)) ->
    forall c x, fold_left gB (fr c) (f x) = f (fold_left gA c x).
  Proof. intros H. induction c as [|y c IH]; intros x; simpl; [reflexivity|]. now rewrite H, IH. Qed.
  Lemma col_min_hom c : col_min ltB (fr c) = option_map f (col_min ltA c).
  Proof. destruct c; simpl; [reflexivity|]. now rewrite (fold_hom _ _ tmin_hom). Qed.
  Lemma col_max_hom c : col_max ltB (fr c) = option_map f (col_max ltA c).
  Proof. destruct c; simpl; [reflexivity|]. now rewrite (fold_hom _ _ tmax_hom). Qed.
  Lemma col_range_hom c : col_range ltB subB absB (fr c) = option_map f (col_range ltA subA absA c).
  Proof.
    unfold col_range. rewrite col_min_hom, col_max_hom. destruct (col_min ltA c), (col_max ltA c); simpl; try reflexivity.
    now rewrite Hsub, Habs.
  Qed.
  Lemma widest_hom l : forall i best r, widest ltB (map (option_map f) l) i best (option_map f r) = widest ltA l i best r.
  Proof.
    induction l as [|x l IH]; intros i best r; simpl; [reflexivity|].
    destruct x as [a|], r as [b|]; simpl; rewrite ?Hlt.
    - destruct (ltA b a); [apply (IH _ _ (Some a))|apply (IH _ _ (Some b))].
    - apply (IH _ _ None).
    - apply (IH _ _ (Some b)).
    - apply (IH _ _ None).
  Qed.
  Lemma find_axis_hom nf data : find_partition_axis ltB subB absB nf (map fr data) = find_partition_axis ltA subA absA nf data.
  Proof.
    unfold find_partition_axis. rewrite (mapM_hom' fr (col_of data)) by (intros; apply col_of_hom).
    destruct (mapM (col_of data) (seq 0 nf)) as [cs| | |]; simpl; try reflexivity.
    rewrite map_map. rewrite (map_ext _ (fun c => option_map f (col_range ltA subA absA c))) by apply col_range_hom.
    rewrite <- map_map. destruct (map (col_range ltA subA absA) cs); simpl; [reflexivity|]. now rewrite widest_hom.
  Qed.
  Lemma argsort_hom c : argsort_col ltB (fr c) = argsort_col ltA c.
  Proof.
    unfold argsort_col. rewrite map_length.
    rewrite (isort_ext (pos_lt_by ltB (fr c)) (pos_lt_by ltA c)); [reflexivity|].
    intros i j _ _. unfold pos_lt_by. rewrite !nth_error_map. destruct (nth_error c i), (nth_error c j); simpl; auto.
  Qed.
  Definition fsplit (p : nat * A * list (list A) * list nat) : nat * B * list (list B) * list nat :=
    let '(a, v, d, i) := p in (a, f v, map fr d, i).
  Lemma split_hom nf data idx : split_rows ltB subB absB nf (map fr data) idx = omap fsplit (split_rows ltA subA absA nf data idx).
  Proof.
    unfold split_rows. rewrite find_axis_hom. destruct (find_partition_axis ltA subA absA nf data) as [axis| | |]; simpl; try reflexivity.
    rewrite col_of_hom. apply bind_hom. intros c. rewrite argsort_hom.
    destruct (argsort_col ltA c) as [order| | |]; simpl; try reflexivity.
    rewrite select_hom. apply bind_hom. intros d'.
    destruct (select idx order) as [i'| | |]; simpl; try reflexivity.
    rewrite map_length, vget_hom. apply bind_hom. intros r. rewrite vget_hom. apply bind_hom. reflexivity.
  Qed.
  Lemma set_child_hom n b p : set_child (fnode n) b p = fnode (set_child n b p).
  Proof. now destruct b. Qed.
  Lemma two_items_hom ptr mid d i : two_items ptr mid (map fr d) i = map fitem (two_items ptr mid d i).
  Proof. unfold two_items, fitem. cbn [map it_left it_parent it_data it_idx]. rewrite firstn_map, skipn_map. reflexivity. Qed.
  Lemma build_loop_hom leaf nf fuel : forall stk tree,
    build_loop ltB subB absB fuel leaf nf (map fitem stk) (map fnode tree) =
    omap (map fnode) (build_loop ltA subA absA fuel leaf nf stk tree).
  Proof.
    induction fuel as [|fuel IH]; intros stk tree; [reflexivity|]. cbn [build_loop].
    destruct stk as [|it stk]; [reflexivity|]. cbn [map]. rewrite nth_error_map. cbn [it_parent it_left it_data it_idx fitem].
    destruct (nth_error tree (it_parent it)) as [parent|]; cbn [option_map]; [|reflexivity].
    rewrite set_child_hom, vset_hom, !map_length. apply bind_hom. intros tree1.
    destruct (length (it_data it) <=? leaf).
    - rewrite <- IH, map_app. reflexivity.
    - rewrite split_hom. apply bind_hom. intros [[[axis val] d'] i']. cbn [fsplit].
      assert (E : (if it_left it then nd_lrect (fnode parent) else nd_rrect (fnode parent)) =
                  option_map fbox (if it_left it then nd_lrect parent else nd_rrect parent)) by (now destruct (it_left it)).
      rewrite E. destruct (if it_left it then nd_lrect parent else nd_rrect parent) as [[lo hi]|]; [|reflexivity].
      cbn [option_map fbox fst snd]. rewrite vset_hom. apply bind_hom. intros hi'. rewrite vset_hom. apply bind_hom. intros lo'.
      rewrite <- IH, !map_app, two_items_hom. reflexivity.
  Qed.
  Lemma bounds_hom (gA : list A -> option A) gB nf data : (forall c, gB (fr c) = option_map f (gA c)) ->
    bounds gB nf (map fr data) = omap fr (bounds gA nf data).
  Proof.
    intros H. unfold bounds. apply mapM_hom'. intros j _. rewrite col_of_hom. apply bind_hom. intros c. rewrite H.
    destruct (gA c); reflexivity.
  Qed.
  Lemma build_tree_hom leaf nf data :
    build_tree ltB subB absB leaf nf (map fr data) = omap (map fnode) (build_tree ltA subA absA leaf nf data).
  Proof.
    unfold build_tree. destruct data as [|r data]; [reflexivity|]. remember (r :: data) as data0 eqn:Ed.
    destruct (map fr data0) as [|r1 data1] eqn:Em; [subst; discriminate|]. rewrite <- Em. clear Em.
    rewrite (bounds_hom (col_min ltA)) by apply col_min_hom. apply bind_hom. intros lo.
    rewrite (bounds_hom (col_max ltA)) by apply col_max_hom. apply bind_hom. intros hi.
    rewrite map_length, split_hom. apply bind_hom. intros [[[axis val] d'] i']. cbn [fsplit].
    rewrite vset_hom. apply bind_hom. intros hi'. rewrite vset_hom. apply bind_hom. intros lo'.
    rewrite two_items_hom.
    apply (build_loop_hom leaf nf (S (2 * length data0)) _ [mk_node None None None (Some (lo, hi')) (Some (lo', hi))]).
  Qed.

  Variables (normA : list A -> A) (normB : list B -> B).
  Hypothesis Hnorm : forall v, normB (fr v) = f (normA v).
  Lemma distance_hom x y : distance subB normB (fr x) (fr y) = f (distance subA normA x y).
  Proof.
    unfold distance. rewrite <- Hnorm. f_equal. unfold diff. revert y.
    induction x as [|a x IH]; intros [|b y]; simpl; try reflexivity. now rewrite Hsub, IH.
  Qed.
  Lemma klt_hom a b : klt ltB (option_map f a) (option_map f b) = klt ltA a b.
  Proof. destruct a, b; simpl; auto. Qed.
  Lemma clamp_hom q : forall lo hi, clamp ltB (fr q) (fr lo) (fr hi) = fr (clamp ltA q lo hi).
  Proof.
    induction q as [|x q IH]; intros [|l lo] [|h hi]; simpl; try reflexivity. rewrite IH. f_equal.
    unfold clamp1. rewrite Hlt. destruct (ltA h x); rewrite Hlt; destruct (ltA _ l); reflexivity.
  Qed.
  Lemma check_hom b q radius : check_intersection ltB subB normB (fbox b) (fr q) (option_map f radius) =
    check_intersection ltA subA normA b q radius.
  Proof.
    unfold check_intersection. simpl. rewrite !map_length. destruct (_ && _); [|reflexivity].
    rewrite clamp_hom, distance_hom. f_equal. apply (klt_hom (Some _)).
  Qed.
  Lemma leaf_distances_hom d q : leaf_distances subB normB (map fr d) (fr q) = omap fr (leaf_distances subA normA d q).
  Proof.
    unfold leaf_distances. apply mapM_hom. intros r _. rewrite !map_length.
    destruct (length r =? length q); [|reflexivity]. simpl. now rewrite distance_hom.
  Qed.
  Definition fent (e : option A * nat) : option B * nat := (option_map f (fst e), snd e).
  Lemma compute_distance_hom q d i k : compute_distance ltB subB normB (fr q) (map fr d) i k =
    omap (map fent) (compute_distance ltA subA normA q d i k).
  Proof.
    unfold compute_distance. rewrite leaf_distances_hom. apply bind_hom. intros ds. rewrite argsort_hom.
    destruct (argsort_col ltA ds) as [order| | |]; simpl; try reflexivity. rewrite map_length.
    apply mapM_hom'. intros j _. rewrite vget_hom. apply bind_hom. intros v.
    destruct (vget i j); reflexivity.
  Qed.
  Variable pick : nat -> nat.
  Lemma pop_hom n h : pop ltB pick n (map fent h) = omap (fun p => (fent (fst p), map fent (snd p))) (pop ltA pick n h).
  Proof.
    unfold pop. assert (E : max_positions ltB (map fent h) = max_positions ltA h).
    { unfold max_positions. rewrite map_length. apply filter_ext. intros i. rewrite nth_error_map.
      destruct (nth_error h i) as [e|]; [|reflexivity]. simpl. unfold is_max.
      assert (G : forall l, forallb (fun x => negb (klt ltB (fst (fent e)) (fst x))) (map fent l) =
                            forallb (fun x => negb (klt ltA (fst e) (fst x))) l).
      { induction l as [|x l IH]; [reflexivity|]. cbn [map forallb]. rewrite IH. f_equal. f_equal. apply klt_hom. }
      apply G. }
    rewrite E. destruct (vget (max_positions ltA h) _) as [i| | |]; cbn [bind omap]; try reflexivity.
    rewrite vget_hom. apply bind_hom. intros e. cbn [omap fst snd]. rewrite map_app, firstn_map, skipn_map. reflexivity.
  Qed.
  Lemma top_key_hom h : top_key ltB (map fent h) = omap (option_map f) (top_key ltA h).
  Proof.
    destruct h as [|e h]; [reflexivity|]. simpl. f_equal. generalize (fst e). clear e.
    induction h as [|x h IH]; intros m; simpl; [reflexivity|]. rewrite klt_hom, <- IH. now destruct (klt ltA m (fst x)).
  Qed.
  Definition fst8 (s : list (option A * nat) * nat) : list (option B * nat) * nat := (map fent (fst s), snd s).
  Lemma push_nn_hom k s e : push_nn ltB pick k (fst8 s) (fent e) = omap fst8 (push_nn ltA pick k s e).
  Proof.
    destruct s as [h n]. unfold push_nn, fst8. simpl fst. simpl snd.
    replace (map fent h ++ [fent e]) with (map fent (h ++ [e])) by now rewrite map_app.
    rewrite map_length. destruct (k <? length (h ++ [e])); [|reflexivity].
    rewrite pop_hom. apply bind_hom. intros [e' h']. reflexivity.
  Qed.
  Lemma push_all_hom k es : forall s, foldM (push_nn ltB pick k) (map fent es) (fst8 s) =
    omap fst8 (foldM (push_nn ltA pick k) es s).
  Proof.
    induction es as [|e es IH]; intros s; [reflexivity|]. cbn [foldM map]. rewrite push_nn_hom. now apply bind_hom.
  Qed.
  Lemma push_children_hom tree nd q radius stk :
    push_children ltB subB normB (map fnode tree) (fnode nd) (fr q) (option_map f radius) (map fnode stk) =
    omap (map fnode) (push_children ltA subA normA tree nd q radius stk).
  Proof.
    assert (Hc : forall p, child (map fnode tree) p = omap fnode (child tree p)).
    { intros [i|]; simpl; [|reflexivity]. rewrite nth_error_map. now destruct (nth_error tree i). }
    unfold push_children. simpl nd_lrect. simpl nd_rrect. simpl nd_left. simpl nd_right.
    destruct (nd_lrect nd) as [lr|]; [|reflexivity]. destruct (nd_rrect nd) as [rr|]; [|reflexivity].
    cbn [option_map]. rewrite !check_hom.
    destruct (check_intersection ltA subA normA lr q radius) as [bl| | |]; simpl; try reflexivity.
    assert (E : (if bl then let! c := child (map fnode tree) (nd_left nd) in Ok (c :: map fnode stk) else Ok (map fnode stk)) =
                omap (map fnode) (if bl then let! c := child tree (nd_left nd) in Ok (c :: stk) else Ok stk)).
    { destruct bl; [|reflexivity]. rewrite Hc. apply bind_hom. reflexivity. }
    rewrite E. apply bind_hom. intros stk1.
    destruct (check_intersection ltA subA normA rr q radius) as [br| | |]; simpl; try reflexivity.
    destruct br; [|reflexivity]. rewrite Hc. apply bind_hom. reflexivity.
  Qed.
  Lemma knn_loop_hom tree q k fuel : forall stk s,
    knn_loop ltB subB normB pick fuel (map fnode tree) (fr q) k (map fnode stk) (fst8 s) =
    omap fst8 (knn_loop ltA subA normA pick fuel tree q k stk s).
  Proof.
    induction fuel as [|fuel IH]; intros stk s; [reflexivity|]. cbn [knn_loop].
    destruct stk as [|nd stk]; [reflexivity|]. cbn [map]. change (nd_leaf (fnode nd)) with (option_map (fun p => (map fr (fst p), snd p)) (nd_leaf nd)).
    destruct (nd_leaf nd) as [[d i]|]; cbn [option_map fst snd].
    - rewrite compute_distance_hom. apply bind_hom. intros es. rewrite push_all_hom. apply bind_hom. intros s'. apply IH.
    - change (fst (fst8 s)) with (map fent (fst s)). rewrite top_key_hom. apply bind_hom. intros radius.
      rewrite push_children_hom. apply bind_hom. intros stk1. apply IH.
  Qed.
  Lemma drain_hom k : forall s acc, drain ltB pick k (fst8 s) (map fent acc) = omap (map fent) (drain ltA pick k s acc).
  Proof.
    induction k as [|k IH]; intros [h n] acc; [reflexivity|]. cbn [drain fst8 fst snd].
    rewrite pop_hom. apply bind_hom. intros [e h']. apply (IH (h', S n) (e :: acc)).
  Qed.
  Lemma query_single_hom tree q k : query_single ltB subB normB pick (map fnode tree) (fr q) k =
    omap (map fent) (query_single ltA subA normA pick tree q k).
  Proof.
    unfold query_single. rewrite nth_error_map. destruct (nth_error tree 0) as [root|]; cbn [option_map]; [|reflexivity].
    rewrite map_length.
    assert (E : (repeat (@None B, 0) k, 0) = fst8 (repeat (None, 0) k, 0)).
    { unfold fst8. cbn [fst snd]. f_equal. clear. induction k as [|k IH]; simpl; [reflexivity|]. now rewrite IH. }
    rewrite E. change [fnode root] with (map fnode [root]). rewrite knn_loop_hom. apply bind_hom.
    intros s. apply (drain_hom k s []).
  Qed.
  Definition fde (e : A * nat) : B * nat := (f (fst e), snd e).
  Lemma leaf_within_hom q d i radius : leaf_within ltB subB normB (fr q) (map fr d) i (f radius) =
    omap (map fde) (leaf_within ltA subA normA q d i radius).
  Proof.
    unfold leaf_within. rewrite leaf_distances_hom. apply bind_hom. intros ds. rewrite map_length.
    erewrite (filter_ext _ (fun i0 => match nth_error ds i0 with Some d0 => negb (ltA radius d0) | None => false end)).
    - apply mapM_hom'. intros j _. rewrite vget_hom. apply bind_hom. intros v. destruct (vget i j); reflexivity.
    - intros j. rewrite nth_error_map. destruct (nth_error ds j); simpl; [now rewrite Hlt|reflexivity].
  Qed.
  Lemma radius_loop_hom tree q radius fuel : forall stk acc,
    radius_loop ltB subB normB fuel (map fnode tree) (fr q) (f radius) (map fnode stk) (map fde acc) =
    omap (map fde) (radius_loop ltA subA normA fuel tree q radius stk acc).
  Proof.
    induction fuel as [|fuel IH]; intros stk acc; [reflexivity|]. cbn [radius_loop].
    destruct stk as [|nd stk]; [reflexivity|]. cbn [map]. change (nd_leaf (fnode nd)) with (option_map (fun p => (map fr (fst p), snd p)) (nd_leaf nd)).
    destruct (nd_leaf nd) as [[d i]|]; cbn [option_map fst snd].
    - rewrite leaf_within_hom. apply bind_hom. intros es. rewrite <- IH, map_app. reflexivity.
    - change (Some (f radius)) with (option_map f (Some radius)).
      rewrite push_children_hom. apply bind_hom. intros stk1. apply IH.
  Qed.
  Lemma query_radius_single_hom tree q radius : query_radius_single ltB subB normB (map fnode tree) (fr q) (f radius) =
    omap (map fde) (query_radius_single ltA subA normA tree q radius).
  Proof.
    unfold query_radius_single. rewrite nth_error_map. destruct (nth_error tree 0) as [root|]; cbn [option_map]; [|reflexivity].
    rewrite map_length. apply (radius_loop_hom tree q radius _ [root] []).
  Qed.
  Lemma query_hom tree qs k : query ltB subB normB pick (map fnode tree) (map fr qs) k =
    omap (map (map fent)) (query ltA subA normA pick tree qs k).
  Proof. unfold query. apply mapM_hom. intros. apply query_single_hom. Qed.
  Lemma query_radius_hom tree qs radius : query_radius ltB subB normB (map fnode tree) (map fr qs) (f radius) =
    omap (map (map fde)) (query_radius ltA subA normA tree qs radius).
  Proof.
    unfold query_radius. rewrite (mapM_hom fr (map fde) (fun q => query_radius_single ltA subA normA tree q radius))
      by (intros; apply query_radius_single_hom).
    apply bind_hom. intros rs. simpl. f_equal. induction rs as [|r rs IH]; simpl; [reflexivity|].
    destruct r; simpl; now rewrite IH.
  Qed.
End Hom.

(** Integer data, Manhattan metric. *)
Definition znorm1 (v : list Z) : Z := fold_right Z.add 0%Z (map Z.abs v).
Lemma IZR_lt a b : Rltb (IZR a) (IZR b) = Z.ltb a b.
Proof.
  destruct (Z.ltb_spec a b).
  - apply Rltb_true. now apply IZR_lt.
  - apply Rltb_false. now apply IZR_le.
Qed.
Lemma IZR_sub a b : (IZR a - IZR b)%R = IZR (a - b).
Proof. now rewrite minus_IZR. Qed.
Lemma IZR_abs a : Rabs (IZR a) = IZR (Z.abs a).
Proof. now rewrite abs_IZR. Qed.
Lemma IZR_norm1 v : norm_of Manhattan (map IZR v) = IZR (znorm1 v).
Proof.
  unfold norm_of, znorm1, sum. induction v as [|x v IH]; simpl; [reflexivity|].
  rewrite plus_IZR, <- IH, IZR_abs. reflexivity.
Qed.
Definition zmat (d : list (list Z)) : list (list R) := map (map IZR) d.
Definition znodes := map (fnode _ _ IZR).
Lemma real_build_Z leaf nf d : real_build leaf nf (zmat d) = omap znodes (build_tree Z.ltb Z.sub Z.abs leaf nf d).
Proof. apply build_tree_hom; [apply IZR_lt|apply IZR_sub|apply IZR_abs]. Qed.
Lemma real_query_Z pick tree qs k : real_query Manhattan pick (znodes tree) (zmat qs) k =
  omap (map (map (fent _ _ IZR))) (query Z.ltb Z.sub znorm1 pick tree qs k).
Proof. apply query_hom with (subA := Z.sub); [apply IZR_lt|apply IZR_sub|apply IZR_norm1]. Qed.
Lemma real_query_radius_Z tree qs radius : real_query_radius Manhattan (znodes tree) (zmat qs) (IZR radius) =
  omap (map (map (fde _ _ IZR))) (query_radius Z.ltb Z.sub znorm1 tree qs radius).
Proof. apply query_radius_hom with (subA := Z.sub); [apply IZR_lt|apply IZR_sub|apply IZR_norm1]. Qed.
