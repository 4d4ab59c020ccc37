(** KD-tree construction: the node vector represents a tree that partitions the rows. *)
From Verif Require Import Base Sorting Common_Model CommonMisc_Proofs RDR_Proofs CombPos_Proofs Argsort_Model
  Argsort_Proofs KDTree_Model.
Set Implicit Arguments.

Notation rect T := (list T * list T)%type.

(** Trees *)
Inductive kd (T : Type) :=
| KLeaf (data : list (list T)) (idx : list nat)
| KNode (lr rr : rect T) (l r : kd T).

Fixpoint kd_pairs {T} (t : kd T) : list (list T * nat) :=
  match t with
  | KLeaf d i => combine d i
  | KNode _ _ l r => kd_pairs l ++ kd_pairs r
  end.
Fixpoint kd_size {T} (t : kd T) : nat :=
  match t with KLeaf _ _ => 1 | KNode _ _ l r => S (kd_size l + kd_size r) end.
Fixpoint kd_leaves {T} (t : kd T) : list (list (list T) * list nat) :=
  match t with KLeaf d i => [(d, i)] | KNode _ _ l r => kd_leaves l ++ kd_leaves r end.

(** * Lists *)
Lemma vset_Ok {A} (v : list A) i a : i < length v ->
  exists v', vset v i a = Ok v' /\ length v' = length v /\
    forall j, nth_error v' j = if j =? i then Some a else nth_error v j.
Proof.
  intros H. unfold vset. rewrite (proj2 (Nat.ltb_lt _ _) H). eexists. split; [reflexivity|].
  assert (Hf : length (firstn i v) = i) by (rewrite firstn_length; lia). split.
  - rewrite app_length. cbn [length]. rewrite skipn_length. lia.
  - intros j. destruct (Nat.eqb_spec j i) as [->|Hne].
    + rewrite nth_error_app2 by lia. rewrite Hf, Nat.sub_diag. reflexivity.
    + rewrite <- (firstn_skipn i v) at 3. destruct (Nat.lt_ge_cases j i).
      * rewrite !nth_error_app1 by lia. reflexivity.
      * rewrite !nth_error_app2 by lia. rewrite Hf.
        destruct (j - i) as [|m] eqn:E; [lia|]. cbn [nth_error].
        replace (skipn i v) with (match nth_error v i with Some x => [x] | None => [] end ++ skipn (S i) v).
        -- destruct (nth_error v i) eqn:E2; [reflexivity|]. apply nth_error_None in E2. lia.
        -- clear. revert i. induction v as [|x v IH]; intros [|i]; simpl; try reflexivity. apply IH.
Qed.

Lemma nth_map {A B} (f : A -> B) l i d d' : i < length l -> nth i (map f l) d = f (nth i l d').
Proof.
  intros H. rewrite (nth_indep _ d (f d')) by (now rewrite map_length). apply map_nth.
Qed.

Lemma select_Ok {A} (v : list A) idx d : Forall (fun i => i < length v) idx ->
  select v idx = Ok (map (fun i => nth i v d) idx).
Proof.
  intros H. unfold select. apply mapM_Ok. rewrite Forall_forall in H.
  intros i Hi. apply vget_Ok. now apply H.
Qed.

Lemma nth_combine {A B} (l1 : list A) (l2 : list B) i a b : length l1 = length l2 ->
  nth i (combine l1 l2) (a, b) = (nth i l1 a, nth i l2 b).
Proof. intros. now apply combine_nth. Qed.

Lemma combine_select {A B} (l1 : list A) (l2 : list B) idx a b : length l1 = length l2 ->
  combine (map (fun i => nth i l1 a) idx) (map (fun i => nth i l2 b) idx) =
  map (fun i => nth i (combine l1 l2) (a, b)) idx.
Proof.
  intros H. induction idx as [|i idx IH]; simpl; [reflexivity|]. rewrite IH, combine_nth by assumption.
  reflexivity.
Qed.

Lemma map_nth_seq' {A} (l : list A) d : map (fun i => nth i l d) (seq 0 (length l)) = l.
Proof.
  induction l as [|x l IH]; simpl; [reflexivity|]. f_equal. rewrite <- seq_shift, map_map. exact IH.
Qed.

Lemma combine_app {A B} (l1 l1' : list A) (l2 l2' : list B) : length l1 = length l2 ->
  combine (l1 ++ l1') (l2 ++ l2') = combine l1 l2 ++ combine l1' l2'.
Proof.
  revert l2. induction l1 as [|x l1 IH]; intros [|y l2] H; simpl in *; try lia; [reflexivity|].
  f_equal. apply IH. lia.
Qed.

Lemma sorted_nth {A} (R : A -> A -> Prop) l d : (forall a, R a a) -> StronglySorted R l ->
  forall i j, i <= j -> j < length l -> R (nth i l d) (nth j l d).
Proof.
  intros Hr. induction 1 as [|a l Hs IH Hall]; intros i j Hij Hj; simpl in *; [lia|].
  destruct i, j; auto; [|lia|apply IH; lia].
  rewrite Forall_forall in Hall. apply Hall, nth_In. lia.
Qed.

Section KD.
  Variable T : Type.
  Variable ltb : T -> T -> bool.
  Variable sub : T -> T -> T.
  Variable abs : T -> T.
  Hypothesis ltb_irrefl : forall a, ltb a a = false.
  Hypothesis ltb_trans : forall a b c, ltb a b = true -> ltb b c = true -> ltb a c = true.
  Hypothesis ltb_total : forall a b, ltb a b = false -> ltb b a = false -> a = b.

  Notation tle a b := (ltb b a = false).

  Lemma ltb_asym a b : ltb a b = true -> ltb b a = false.
  Proof.
    intros H. destruct (ltb b a) eqn:E; [|reflexivity].
    rewrite <- (ltb_trans H E). apply ltb_irrefl.
  Qed.
  Lemma tle_trans a b c : tle a b -> tle b c -> tle a c.
  Proof.
    intros H1 H2. destruct (ltb c a) eqn:E; [|reflexivity].
    destruct (ltb b c) eqn:E2.
    - rewrite (ltb_trans E2 E) in H1. discriminate.
    - assert (b = c) by (apply ltb_total; assumption). subst. congruence.
  Qed.
  Lemma tle_total a b : tle a b \/ tle b a.
  Proof. destruct (ltb a b) eqn:E; [left; now apply ltb_asym|now right]. Qed.

  (** ** Columns *)
  Section Data.
  Variable nf : nat.
  Definition rows_ok (data : list (list T)) : Prop := Forall (fun r => length r = nf) data.

  Lemma col_of_Ok data j d : rows_ok data -> j < nf -> col_of data j = Ok (map (fun r => nth j r d) data).
  Proof.
    intros H Hj. unfold col_of. apply mapM_Ok. unfold rows_ok in H. rewrite Forall_forall in H.
    intros r Hr. apply vget_Ok. rewrite (H r Hr). assumption.
  Qed.

  Lemma fold_tmin_le c : forall x, tle (fold_left (tmin ltb) c x) x /\
    (forall y, In y c -> tle (fold_left (tmin ltb) c x) y).
  Proof.
    induction c as [|z c IH]; intros x; simpl; [split; [apply ltb_irrefl|contradiction]|].
    destruct (IH (tmin ltb x z)) as (H1 & H2).
    assert (Hm : tle (tmin ltb x z) x /\ tle (tmin ltb x z) z).
    { unfold tmin. destruct (ltb z x) eqn:E; split; auto using ltb_irrefl, ltb_asym. }
    split; [eapply tle_trans; [exact H1|apply Hm]|].
    intros y [->|Hy]; [eapply tle_trans; [exact H1|apply Hm]|now apply H2].
  Qed.
  Lemma fold_tmax_ge c : forall x, tle x (fold_left (tmax ltb) c x) /\
    (forall y, In y c -> tle y (fold_left (tmax ltb) c x)).
  Proof.
    induction c as [|z c IH]; intros x; simpl; [split; [apply ltb_irrefl|contradiction]|].
    destruct (IH (tmax ltb x z)) as (H1 & H2).
    assert (Hm : tle x (tmax ltb x z) /\ tle z (tmax ltb x z)).
    { unfold tmax. destruct (ltb x z) eqn:E; split; auto using ltb_irrefl, ltb_asym. }
    split; [eapply tle_trans; [apply Hm|exact H1]|].
    intros y [->|Hy]; [eapply tle_trans; [apply Hm|exact H1]|now apply H2].
  Qed.

  Lemma widest_bound : forall ranges i best br, best < i ->
    widest ltb ranges i best br < i + length ranges.
  Proof.
    induction ranges as [|r ranges IH]; intros i best br H; simpl; [lia|].
    assert (Hb : best < S i) by lia. assert (Hi : i < S i) by lia.
    pose proof (IH (S i) best br Hb). pose proof (IH (S i) i r Hi).
    destruct r as [a|], br as [b|]; try lia. destruct (ltb b a); lia.
  Qed.
  Lemma widest_zero : forall ranges i b,
    (forall a, In (Some a) ranges -> tle a b) -> widest ltb ranges i 0 (Some b) = 0.
  Proof.
    induction ranges as [|r ranges IH]; intros i b H; simpl; [reflexivity|].
    destruct r as [a|].
    - rewrite (H a) by now left. apply IH. intros c Hc. apply H. now right.
    - apply IH. intros c Hc. apply H. now right.
  Qed.

  Definition range_at (data : list (list T)) (j : nat) (d : T) : option T :=
    col_range ltb sub abs (map (fun r => nth j r d) data).

  Lemma find_axis_Ok data d : rows_ok data -> 0 < nf ->
    exists axis, find_partition_axis ltb sub abs nf data = Ok axis /\ axis < nf /\
      ((forall j a b, j < nf -> range_at data j d = Some a -> range_at data 0 d = Some b -> tle a b) ->
       data <> [] -> axis = 0).
  Proof.
    intros H Hnf. unfold find_partition_axis.
    rewrite (@mapM_Ok _ _ _ (fun j => map (fun r => nth j r d) data)).
    2: { intros j Hj. apply in_seq in Hj. apply col_of_Ok; [assumption|lia]. }
    cbn [bind]. destruct nf as [|n]; [lia|]. cbn [seq map].
    eexists. split; [reflexivity|]. split.
    - eapply Nat.lt_le_trans; [apply widest_bound; lia|].
      rewrite !map_length, seq_length. lia.
    - intros Hr Hne. unfold range_at in Hr.
      destruct data as [|r0 data]; [congruence|].
      destruct (col_range ltb sub abs (map (fun r => nth 0 r d) (r0 :: data))) as [b|] eqn:E; [|discriminate].
      apply widest_zero. intros a Ha. apply in_map_iff in Ha. destruct Ha as (c & Ec & Hc).
      apply in_map_iff in Hc. destruct Hc as (j & <- & Hj). apply in_seq in Hj.
      apply (Hr j a b); [lia|assumption|reflexivity].
  Qed.

  (** ** One split *)
  Definition below (axis : nat) (val : T) (r : list T) : Prop := exists v, nth_error r axis = Some v /\ tle v val.
  Definition above (axis : nat) (val : T) (r : list T) : Prop := exists v, nth_error r axis = Some v /\ tle val v.

  Lemma split_rows_spec data idx : rows_ok data -> 0 < nf -> 3 <= length data -> length idx = length data ->
    exists axis val data' idx',
      split_rows ltb sub abs nf data idx = Ok (axis, val, data', idx') /\
      find_partition_axis ltb sub abs nf data = Ok axis /\
      axis < nf /\ length data' = length data /\ length idx' = length data /\
      Permutation (combine data' idx') (combine data idx) /\
      Forall (below axis val) (firstn (length data / 2) data') /\
      Forall (above axis val) (skipn (length data / 2) data').
  Proof.
    intros Hok Hnf H3 Hlen.
    destruct data as [|r0 data0] eqn:Ed; [simpl in H3; lia|]. rewrite <- Ed in *. clear Ed.
    assert (Hd : exists d : T, True).
    { destruct r0 as [|d]; [|eauto]. destruct data as [|r data]; [simpl in H3; lia|].
      inversion Hok; subst. destruct r; simpl in *; [lia|eauto]. }
    destruct Hd as (d & _).
    destruct (@find_axis_Ok data d Hok Hnf) as (axis & Ea & Hax & _).
    unfold split_rows. rewrite Ea. cbn [bind].
    rewrite (@col_of_Ok data axis d Hok Hax). cbn [bind].
    destruct (@argsort_col_spec _ ltb ltb_asym (fun a b c H1 H2 => tle_trans H1 H2)
                (map (fun r => nth axis r d) data) d) as (order & Eo & Hp & Hs).
    { now rewrite map_length. }
    rewrite Eo. cbn [bind]. rewrite map_length in Hp.
    assert (Hin : Forall (fun i => i < length data) order).
    { apply Forall_forall. intros i Hi. apply (Permutation_in _ Hp) in Hi. apply in_seq in Hi. lia. }
    rewrite (@select_Ok _ data order []) by assumption. cbn [bind].
    rewrite (@select_Ok _ idx order 0) by (now rewrite Hlen). cbn [bind].
    pose proof (Permutation_length Hp) as Hol. rewrite seq_length in Hol.
    assert (Hmid : length data / 2 < length data) by (apply Nat.div_lt; lia).
    rewrite (@vget_Ok _ _ _ []) by (rewrite map_length; lia). cbn [bind].
    set (data' := map (fun i => nth i data []) order).
    assert (Hrow : forall i, i < length data -> length (nth i data' []) = nf /\
              nth axis (nth i data' []) d = nth (nth i order 0) (map (fun r => nth axis r d) data) d).
    { intros i Hi. subst data'.
      rewrite (nth_map _ order [] 0) by lia. rewrite Forall_forall in Hin.
      assert (Ho : nth i order 0 < length data) by (apply Hin, nth_In; lia).
      unfold rows_ok in Hok. rewrite Forall_forall in Hok. split.
      - apply Hok, nth_In. assumption.
      - rewrite (nth_map _ data d []) by assumption. reflexivity. }
    assert (Hl' : length data' = length data) by (subst data'; rewrite map_length; lia).
    rewrite (@vget_Ok _ _ axis d) by (destruct (Hrow (length data / 2) Hmid) as (-> & _); assumption).
    cbn [bind].
    set (val := nth axis (nth (length data / 2) data' []) d).
    exists axis, val, data', (map (fun i => nth i idx 0) order).
    split; [reflexivity|]. split; [reflexivity|]. split; [assumption|]. split; [assumption|].
    split; [rewrite map_length; lia|]. split.
    { subst data'. rewrite combine_select by lia.
      transitivity (map (fun i => nth i (combine data idx) ([], 0)) (seq 0 (length data))).
      - now apply Permutation_map.
      - replace (length data) with (length (combine data idx)) by (rewrite combine_length; lia).
        now rewrite map_nth_seq'. }
    assert (Hcmp : forall i j, i <= j -> j < length data ->
              tle (nth axis (nth i data' []) d) (nth axis (nth j data' []) d)).
    { intros i j Hij Hj. destruct (Hrow i) as (_ & ->); [lia|]. destruct (Hrow j) as (_ & ->); [lia|].
      apply (@sorted_nth _ (fun i j => tle (nth i (map (fun r => nth axis r d) data) d)
                                           (nth j (map (fun r => nth axis r d) data) d)) order 0).
      - intros a. apply ltb_irrefl.
      - exact Hs.
      - assumption.
      - lia. }
    split.
    - apply Forall_forall. intros r Hr. apply (In_nth _ _ []) in Hr. destruct Hr as (i & Hi & <-).
      rewrite firstn_length in Hi.
      assert (E : nth i (firstn (length data / 2) data') [] = nth i data' []).
      { rewrite <- (firstn_skipn (length data / 2) data') at 2. rewrite app_nth1; [reflexivity|].
        rewrite firstn_length. lia. }
      rewrite E. exists (nth axis (nth i data' []) d). split.
      + apply nth_error_nth'. destruct (Hrow i) as (-> & _); [lia|assumption].
      + apply Hcmp; lia.
    - apply Forall_forall. intros r Hr. apply (In_nth _ _ []) in Hr. destruct Hr as (i & Hi & <-).
      rewrite skipn_length in Hi.
      assert (E : nth i (skipn (length data / 2) data') [] = nth (length data / 2 + i) data' []).
      { rewrite <- (firstn_skipn (length data / 2) data') at 2. rewrite app_nth2.
        - rewrite firstn_length. f_equal. lia.
        - rewrite firstn_length. lia. }
      rewrite E. exists (nth axis (nth (length data / 2 + i) data' []) d). split.
      + apply nth_error_nth'. destruct (Hrow (length data / 2 + i)) as (-> & _); [lia|assumption].
      + apply Hcmp; lia.
  Qed.

  (** ** Boxes *)
  Definition in_rect (r : list T) (b : rect T) : Prop :=
    length r = nf /\ length (fst b) = nf /\ length (snd b) = nf /\
    (forall j v lo, nth_error r j = Some v -> nth_error (fst b) j = Some lo -> tle lo v) /\
    (forall j v hi, nth_error r j = Some v -> nth_error (snd b) j = Some hi -> tle v hi).

  Lemma in_rect_hi r lo hi hi' axis val :
    in_rect r (lo, hi) -> below axis val r -> length hi' = nf ->
    (forall j, nth_error hi' j = if j =? axis then Some val else nth_error hi j) -> in_rect r (lo, hi').
  Proof.
    intros (H1 & H2 & H3 & H4 & H5) (v & Ev & Hv) Hl Hn. unfold in_rect. simpl in *.
    repeat split; auto. intros j w h Hw Hh. rewrite Hn in Hh.
    destruct (Nat.eqb_spec j axis) as [->|]; [|eapply H5; eassumption]. congruence.
  Qed.
  Lemma in_rect_lo r lo hi lo' axis val :
    in_rect r (lo, hi) -> above axis val r -> length lo' = nf ->
    (forall j, nth_error lo' j = if j =? axis then Some val else nth_error lo j) -> in_rect r (lo', hi).
  Proof.
    intros (H1 & H2 & H3 & H4 & H5) (v & Ev & Hv) Hl Hn. unfold in_rect. simpl in *.
    repeat split; auto. intros j w h Hw Hh. rewrite Hn in Hh.
    destruct (Nat.eqb_spec j axis) as [->|]; [|eapply H4; eassumption]. congruence.
  Qed.

  (** ** What a tree must satisfy *)
  (* every internal node's cut separates its children *)
  Fixpoint cuts_ok (t : kd T) : Prop :=
    match t with
    | KLeaf _ _ => True
    | KNode _ _ l r =>
        (exists axis val, axis < nf /\
           Forall (fun p => below axis val (fst p)) (kd_pairs l) /\
           Forall (fun p => above axis val (fst p)) (kd_pairs r)) /\ cuts_ok l /\ cuts_ok r
    end.
  Fixpoint boxes_ok (t : kd T) : Prop :=
    match t with
    | KLeaf _ _ => True
    | KNode lr rr l r =>
        Forall (fun p => in_rect (fst p) lr) (kd_pairs l) /\
        Forall (fun p => in_rect (fst p) rr) (kd_pairs r) /\ boxes_ok l /\ boxes_ok r
    end.
  Fixpoint rects_len (t : kd T) : Prop :=
    match t with
    | KLeaf _ _ => True
    | KNode lr rr l r =>
        (length (fst lr) = nf /\ length (snd lr) = nf /\ length (fst rr) = nf /\ length (snd rr) = nf) /\
        rects_len l /\ rects_len r
    end.

  (** ** The node vector represents a tree: children at positions in [lo, hi) *)
  Fixpoint rep (lo hi : nat) (tree : list (node T)) (nd : node T) (t : kd T) : Prop :=
    match t with
    | KLeaf d i => nd_leaf nd = Some (d, i)
    | KNode lr rr l r =>
        nd_leaf nd = None /\ nd_lrect nd = Some lr /\ nd_rrect nd = Some rr /\
        (exists i c, nd_left nd = Some i /\ lo <= i < hi /\ nth_error tree i = Some c /\ rep lo hi tree c l) /\
        (exists i c, nd_right nd = Some i /\ lo <= i < hi /\ nth_error tree i = Some c /\ rep lo hi tree c r)
    end.

  Lemma rep_frame lo hi tree tree' : (forall i, lo <= i < hi -> nth_error tree' i = nth_error tree i) ->
    forall t nd, rep lo hi tree nd t -> rep lo hi tree' nd t.
  Proof.
    intros Hf. induction t as [d i|lr rr l IHl r IHr]; intros nd; simpl; [auto|].
    intros (H1 & H2 & H3 & (i & c & Hi1 & Hi2 & Hi3 & Hi4) & (j & e & Hj1 & Hj2 & Hj3 & Hj4)).
    repeat split; auto.
    - exists i, c. rewrite Hf by assumption. auto.
    - exists j, e. rewrite Hf by assumption. auto.
  Qed.
  Lemma rep_widen lo hi lo' hi' tree : lo' <= lo -> hi <= hi' ->
    forall t nd, rep lo hi tree nd t -> rep lo' hi' tree nd t.
  Proof.
    intros Hl Hh. induction t as [d i|lr rr l IHl r IHr]; intros nd; simpl; [auto|].
    intros (H1 & H2 & H3 & (i & c & Hi1 & Hi2 & Hi3 & Hi4) & (j & e & Hj1 & Hj2 & Hj3 & Hj4)).
    repeat split; auto.
    - exists i, c. repeat split; auto; lia.
    - exists j, e. repeat split; auto; lia.
  Qed.

  Lemma set_child_rects (nd : node T) b p : nd_lrect (set_child nd b p) = nd_lrect nd /\
    nd_rrect (set_child nd b p) = nd_rrect nd /\ nd_leaf (set_child nd b p) = nd_leaf nd.
  Proof. destruct b; simpl; auto. Qed.

  Definition side_rect (b : bool) (nd : node T) : option (rect T) := if b then nd_lrect nd else nd_rrect nd.

  (* the result of processing one stack entry *)
  Lemma build_item leaf_size : 2 <= leaf_size -> 0 < nf -> forall m it tree parent lo hi,
    length (it_data it) = m -> 0 < m -> length (it_idx it) = m -> rows_ok (it_data it) ->
    nth_error tree (it_parent it) = Some parent ->
    side_rect (it_left it) parent = Some (lo, hi) -> length lo = nf -> length hi = nf ->
    exists t tree' c,
      (forall fuel rest, build_loop ltb sub abs (c + fuel) leaf_size nf (it :: rest) tree =
                         build_loop ltb sub abs fuel leaf_size nf rest tree') /\
      c <= 2 * m - 1 /\
      length tree' = length tree + kd_size t /\
      nth_error tree' (it_parent it) = Some (set_child parent (it_left it) (length tree)) /\
      (forall i, i < length tree -> i <> it_parent it -> nth_error tree' i = nth_error tree i) /\
      (exists nd, nth_error tree' (length tree) = Some nd /\ rep (S (length tree)) (length tree') tree' nd t) /\
      Permutation (kd_pairs t) (combine (it_data it) (it_idx it)) /\
      cuts_ok t /\ rects_len t /\
      (Forall (fun r => in_rect r (lo, hi)) (it_data it) -> boxes_ok t) /\
      Forall (fun l => length (fst l) = length (snd l) /\ 0 < length (fst l) <= leaf_size /\ rows_ok (fst l)) (kd_leaves t) /\
      (5 <= leaf_size -> 3 <= m -> Forall (fun l => 3 <= length (fst l)) (kd_leaves t)).
  Proof.
    intros Hleaf Hnf. induction m as [m IH] using lt_wf_ind.
    intros it tree parent lo hi Hm Hm0 Hil Hok Hpar Hside Hlo Hhi.
    assert (Hpl : it_parent it < length tree) by (apply nth_error_Some; congruence).
    destruct (@vset_Ok _ tree (it_parent it) (set_child parent (it_left it) (length tree)) Hpl)
      as (tree1 & Ev & Hl1 & Hn1).
    destruct (Nat.leb_spec m leaf_size) as [Hle|Hgt].
    - (* leaf *)
      exists (KLeaf (it_data it) (it_idx it)),
        (tree1 ++ [mk_node (Some 0) (Some 0) (Some (it_data it, it_idx it)) None None]), 1.
      split.
      { intros fuel rest. simpl. rewrite Hpar, Ev. cbn [bind]. rewrite Hm.
        rewrite (proj2 (Nat.leb_le _ _) Hle). reflexivity. }
      split; [lia|]. split; [rewrite app_length, Hl1; simpl; lia|]. split.
      { rewrite nth_error_app1 by lia. rewrite Hn1, Nat.eqb_refl. reflexivity. }
      split.
      { intros i Hi Hne. rewrite nth_error_app1 by lia. rewrite Hn1.
        destruct (Nat.eqb_spec i (it_parent it)); [contradiction|reflexivity]. }
      split.
      { eexists. split; [rewrite nth_error_app2 by lia; rewrite Hl1, Nat.sub_diag; reflexivity|].
        reflexivity. }
      split; [reflexivity|]. split; [exact I|]. split; [exact I|]. split; [intros; exact I|]. split.
      { apply Forall_cons; [|apply Forall_nil]. simpl. rewrite Hm, Hil. auto. }
      intros _ H3. apply Forall_cons; [|apply Forall_nil]. simpl. lia.
    - (* internal node *)
      destruct (@split_rows_spec (it_data it) (it_idx it) Hok Hnf) as
        (axis & val & data' & idx' & Es & _ & Hax & Hld & Hli & Hperm & Hbel & Habv); [lia|lia|].
      rewrite Hm in *.
      set (mid := m / 2) in *.
      assert (Hmid : 0 < mid /\ mid < m /\ 2 * mid <= m).
      { subst mid. split; [apply Nat.div_str_pos; lia|]. split; [apply Nat.div_lt; lia|].
        apply Nat.mul_div_le. lia. }
      destruct (@vset_Ok _ hi axis val) as (hi' & Ehi & Hlhi & Hnhi); [lia|].
      destruct (@vset_Ok _ lo axis val) as (lo' & Elo & Hllo & Hnlo); [lia|].
      set (nd0 := mk_node None None None (Some (lo, hi')) (Some (lo', hi))).
      set (tree2 := tree1 ++ [nd0]).
      assert (Hl2 : length tree2 = S (length tree)) by (subst tree2; rewrite app_length, Hl1; simpl; lia).
      assert (Hnd0 : nth_error tree2 (length tree) = Some nd0).
      { subst tree2. rewrite nth_error_app2 by lia. now rewrite Hl1, Nat.sub_diag. }
      assert (Hok' : rows_ok data').
      { unfold rows_ok in *. rewrite Forall_forall in Hok |- *. intros r Hr. apply Hok.
        apply (In_nth _ _ []) in Hr. destruct Hr as (i & Hi & <-).
        assert (Hin : In (nth i data' [], nth i idx' 0) (combine (it_data it) (it_idx it))).
        { apply (Permutation_in _ Hperm). rewrite <- combine_nth by lia. apply nth_In.
          rewrite combine_length. lia. }
        now apply in_combine_l in Hin. }
      assert (Hokl : rows_ok (firstn mid data')).
      { unfold rows_ok in *. rewrite <- (firstn_skipn mid data') in Hok'. now apply Forall_app in Hok'. }
      assert (Hokr : rows_ok (skipn mid data')).
      { unfold rows_ok in *. rewrite <- (firstn_skipn mid data') in Hok'. now apply Forall_app in Hok'. }
      (* right subtree first *)
      destruct (IH (m - mid) ltac:(lia) (mk_item false (length tree) (skipn mid data') (skipn mid idx'))
                  tree2 nd0 lo' hi) as
        (tr & tree3 & cr & Er & Hcr & Hlr & Hpr & Hfr & (ndr & Hndr & Hrepr) & Hpermr & Hcutr & Hrlr & Hboxr & Hlvr & Hminr);
        simpl; try (rewrite skipn_length; lia); auto; try lia.
      simpl in Hpr, Hfr, Hpermr, Hboxr.
      (* then the left one *)
      destruct (IH mid ltac:(lia) (mk_item true (length tree) (firstn mid data') (firstn mid idx'))
                  tree3 (set_child nd0 false (length tree2)) lo hi') as
        (tl & tree4 & cl & El & Hcl & Hll & Hpl4 & Hfl & (ndl & Hndl & Hrepl) & Hperml & Hcutl & Hrll & Hboxl & Hlvl & Hminl);
        simpl; try (rewrite firstn_length; lia); auto; try lia.
      simpl in Hpl4, Hfl, Hperml, Hboxl.
      exists (KNode (lo, hi') (lo', hi) tl tr), tree4, (S (cr + cl)).
      assert (Hsz : forall t : kd T, 0 < kd_size t) by (destruct t; simpl; lia).
      split.
      { intros fuel rest. cbn [plus build_loop]. rewrite Hpar, Ev. cbn [bind].
        rewrite Hm. destruct (Nat.leb_spec m leaf_size); [lia|]. rewrite Es. cbn [bind].
        unfold side_rect in Hside. rewrite Hside, Ehi. cbn [bind]. rewrite Elo. cbn [bind].
        fold mid. unfold two_items. cbn [app]. rewrite <- Nat.add_assoc. fold nd0. fold tree2.
        rewrite Er, El. reflexivity. }
      split; [lia|]. split; [simpl; rewrite Hll, Hlr, Hl2; lia|]. split.
      { rewrite Hfl by lia. rewrite Hfr by lia. subst tree2. rewrite nth_error_app1 by lia.
        now rewrite Hn1, Nat.eqb_refl. }
      split.
      { intros i Hi Hne. rewrite Hfl by lia. rewrite Hfr by lia. subst tree2.
        rewrite nth_error_app1 by lia. rewrite Hn1.
        destruct (Nat.eqb_spec i (it_parent it)); [contradiction|reflexivity]. }
      split.
      { exists (set_child (set_child nd0 false (length tree2)) true (length tree3)). split; [exact Hpl4|].
        simpl. repeat split.
        - exists (length tree3), ndl. split; [reflexivity|]. split; [specialize (Hsz tl); lia|].
          split; [assumption|]. eapply rep_widen; [| |exact Hrepl]; lia.
        - exists (length tree2), ndr. split; [reflexivity|].
          split; [pose proof (Hsz tr); pose proof (Hsz tl); lia|].
          assert (Hfr2 : forall i, S (length tree2) <= i < length tree3 -> nth_error tree4 i = nth_error tree3 i)
            by (intros i Hi; apply Hfl; lia).
          split.
          + rewrite Hfl; [assumption| |lia]. specialize (Hsz tr). lia.
          + apply (@rep_widen (S (length tree2)) (length tree3)); [lia|lia|].
            eapply rep_frame; [exact Hfr2|exact Hrepr]. }
      assert (Hpairs : Permutation (kd_pairs tl ++ kd_pairs tr) (combine (it_data it) (it_idx it))).
      { rewrite Hperml, Hpermr, <- combine_app by (rewrite !firstn_length; lia).
        now rewrite !firstn_skipn. }
      assert (Hinl : forall p, In p (kd_pairs tl) -> In (fst p) (firstn mid data')).
      { intros (r & i) Hp. apply (Permutation_in _ Hperml) in Hp. now apply in_combine_l in Hp. }
      assert (Hinr : forall p, In p (kd_pairs tr) -> In (fst p) (skipn mid data')).
      { intros (r & i) Hp. apply (Permutation_in _ Hpermr) in Hp. now apply in_combine_l in Hp. }
      rewrite Forall_forall in Hbel, Habv.
      split; [exact Hpairs|]. split.
      { simpl. split; [|tauto]. exists axis, val. split; [assumption|].
        split; apply Forall_forall; intros p Hp; auto. }
      split.
      { simpl. repeat split; auto; lia. }
      split.
      { intros Hbox. assert (Hbox' : forall r, In r data' -> in_rect r (lo, hi)).
        { intros r Hr. rewrite Forall_forall in Hbox. apply Hbox.
          apply (In_nth _ _ []) in Hr. destruct Hr as (i & Hi & <-).
          assert (Hin : In (nth i data' [], nth i idx' 0) (combine (it_data it) (it_idx it))).
          { apply (Permutation_in _ Hperm). rewrite <- combine_nth by lia. apply nth_In.
            rewrite combine_length. lia. }
          now apply in_combine_l in Hin. }
        assert (Hsub : forall r, In r (firstn mid data') \/ In r (skipn mid data') -> In r data').
        { intros r Hr. rewrite <- (firstn_skipn mid data'). now apply in_app_iff. }
        assert (Hbl : forall r, In r (firstn mid data') -> in_rect r (lo, hi')).
        { intros r Hr. eapply in_rect_hi; [apply Hbox'; apply Hsub; now left|apply Hbel; exact Hr|lia|exact Hnhi]. }
        assert (Hbr : forall r, In r (skipn mid data') -> in_rect r (lo', hi)).
        { intros r Hr. eapply in_rect_lo; [apply Hbox'; apply Hsub; now right|apply Habv; exact Hr|lia|exact Hnlo]. }
        simpl. split; [apply Forall_forall; intros p Hp; auto|].
        split; [apply Forall_forall; intros p Hp; auto|].
        split; [apply Hboxl|apply Hboxr]; apply Forall_forall; auto. }
      split; [apply Forall_app; auto|].
      intros H5 H3. simpl. apply Forall_app.
      assert (3 <= mid) by (subst mid; apply Nat.div_le_lower_bound; lia).
      split; [apply Hminl|apply Hminr]; lia.
  Qed.
  End Data.
End KD.
