(** Property theorems for the KD-tree (C09-C12).  Specification: [KDTree_Spec].
    [real_build leaf_size nf data] is the constructor on an n x nf matrix of real numbers;
    [real_query], [real_query_radius] are the public queries.  [pick] is the choice
    [std::priority_queue] makes among equally distant entries. *)
From Coq Require Import Reals Lra.
From Verif Require Import Base KDTree_Model KDTree_Spec KDReal_Proofs KDHom_Proofs.
Local Open Scope R_scope.

(** C09: whenever construction is defined, the node vector is a binary tree from node 0 using every
    node; its leaves hold every row with its number exactly once; every cut separates; no leaf is
    empty or too large. *)
Theorem C09_partition :
  forall leaf_size nf data nodes, is_matrix nf data -> real_build leaf_size nf data = Ok nodes ->
    exists t, tree_at nodes 0 t /\ node_count t = length nodes /\
      Permutation (rows_below t) (combine data (seq 0 (length data))) /\
      separated nf t /\ Forall (fun n => (0 < n <= leaf_size)%nat) (leaf_sizes t).
Proof.
  intros leaf_size nf data nodes Hm E. destruct (real_build_defined _ _ _ _ Hm E) as (H3 & H2 & Hnf).
  destruct (real_build_spec leaf_size nf data Hm Hnf H2 H3) as (nodes' & t & E' & H).
  rewrite E in E'. injection E' as <-. exists t. tauto.
Qed.
Print Assumptions C09_partition.
(** Boxes contain the rows of their child if column 0 is the widest. *)
Theorem C09_boxes :
  forall leaf_size nf data nodes, is_matrix nf data -> first_column_widest nf data ->
    real_build leaf_size nf data = Ok nodes -> exists t, tree_at nodes 0 t /\ boxed nf t.
Proof.
  intros leaf_size nf data nodes Hm Hw E. destruct (real_build_defined _ _ _ _ Hm E) as (H3 & H2 & Hnf).
  destruct (real_build_spec leaf_size nf data Hm Hnf H2 H3) as (nodes' & t & E' & H).
  rewrite E in E'. injection E' as <-. exists t. tauto.
Qed.
Print Assumptions C09_boxes.
(** Construction is defined exactly for at least 3 rows, 1 column and leaves of size 2. *)
Theorem C09_defined :
  forall leaf_size nf data, is_matrix nf data ->
    ((exists nodes, real_build leaf_size nf data = Ok nodes) <->
     (3 <= length data /\ 2 <= leaf_size /\ 1 <= nf)%nat).
Proof.
  intros leaf_size nf data Hm. split.
  - intros (nodes & E). destruct (real_build_defined _ _ _ _ Hm E). lia.
  - intros (H3 & H2 & Hnf). destruct (real_build_spec leaf_size nf data Hm) as (nodes & t & E & _); try lia. eauto.
Qed.
Print Assumptions C09_defined.

(** Integer examples, computed over [Z] and carried over by [real_build_Z]. *)
Definition tall : list (list R) := zmat [[0;0];[0;10];[0;20]]%Z.
Lemma tall_matrix : is_matrix 2 tall.
Proof. intros r [<-|[<-|[<-|[]]]]; reflexivity. Qed.
Lemma tree_at_fun {T} (nodes : list (node T)) i t1 : tree_at nodes i t1 -> forall t2, tree_at nodes i t2 -> t1 = t2.
Proof.
  induction 1 as [i nd d idx E1 E2 E3|i nd a b lb rb l r E1 E2 E3 E4 E5 E6 H1 IH1 H2 IH2]; intros t2 H; inversion H; subst; try congruence.
  assert (nd0 = nd) by congruence. subst. rewrite (IH1 l0), (IH2 r0) by congruence. congruence.
Qed.
(** Here column 1 is the widest and the box of the right half starts at the cut value of column 1 in
    column 0: the boxes do not contain their rows. *)
Theorem C09_boxes_refuted :
  exists leaf_size nf data nodes, is_matrix nf data /\ real_build leaf_size nf data = Ok nodes /\
    forall t, tree_at nodes 0 t -> ~ boxed nf t.
Proof.
  exists 2%nat, 2%nat, tall. eexists. split; [exact tall_matrix|]. unfold tall. rewrite real_build_Z. split.
  { vm_compute. reflexivity. }
  intros t Ht.
  assert (E : exists lb rb l r, t = Cut lb rb l r /\ rb = ([IZR 10; IZR 0], [IZR 0; IZR 20]) /\
                rows_below r = [([IZR 0; IZR 10], 1%nat); ([IZR 0; IZR 20], 2%nat)]).
  { inversion Ht as [i nd d idx E1 E2 E3|i nd a b lb rb l r E1 E2 E3 E4 E5 E6 H1 H2]; subst; injection E1 as <-; [discriminate|].
    exists lb, rb, l, r. split; [reflexivity|]. simpl in E4, E6. injection E6 as <-. injection E4 as <-. split; [reflexivity|].
    inversion H2 as [i nd d idx E1 E2' E3'|i nd a' b' lb' rb' l' r' E1 E2' E3' E4' E5' E6' H1' H2']; subst; injection E1 as <-;
      simpl in *; [|discriminate].
    injection E2' as <- <-. reflexivity. }
  destruct E as (lb & rb & l & r & -> & -> & Hr). simpl. rewrite Hr. intros (_ & Hb & _).
  specialize (Hb _ (or_introl eq_refl) 0%nat ltac:(lia)). simpl in Hb. lra.
Qed.
Print Assumptions C09_boxes_refuted.

(** A data set meeting the hypotheses of the positive theorems: 6 rows, column 0 widest. *)
Definition wide : list (list R) := zmat [[0;1];[10;0];[20;1];[30;0];[40;1];[50;0]]%Z.
Lemma wide_ok : is_matrix 2 wide /\ first_column_widest 2 wide /\ length wide = 6%nat.
Proof.
  split; [|split; [|reflexivity]].
  - intros r Hr. simpl in Hr. repeat (destruct Hr as [<-|Hr]; [reflexivity|]). destruct Hr.
  - intros j s0 sj Hj (lo0 & hi0 & Hlo0 & Hhi0 & Hb0 & ->) (lo & hi & Hlo & Hhi & Hb & ->).
    assert (0 <= hi0 - lo0 /\ 50 <= hi0 - lo0).
    { pose proof (Hb0 0 ltac:(simpl; auto)). pose proof (Hb0 50 ltac:(simpl; tauto)). lra. }
    destruct j as [|[|]]; [| |lia].
    + pose proof (Hb0 _ Hhi). pose proof (Hb0 _ Hlo). lra.
    + assert (Hc : forall x, In x (column 1 wide) -> 0 <= x <= 1).
      { intros x Hx. simpl in Hx. repeat (destruct Hx as [<-|Hx]; [lra|]). destruct Hx. }
      pose proof (Hc _ Hlo). pose proof (Hc _ Hhi). lra.
Qed.
Example C09_case : exists nodes t, real_build 2 2 wide = Ok nodes /\ tree_at nodes 0 t /\ boxed 2 t /\ length nodes = 7%nat.
Proof.
  destruct wide_ok as (H1 & H2 & H3).
  assert (E : exists nodes, real_build 2 2 wide = Ok nodes /\ length nodes = 7%nat)
    by (unfold wide; rewrite real_build_Z; eexists; split; vm_compute; reflexivity).
  destruct E as (nodes & E & HL). destruct (C09_boxes _ _ _ _ H1 H2 E) as (t & Ht & Hb). eauto 10.
Qed.

(** C10: if column 0 is the widest, every completed query is exact. *)
Theorem C10_exact :
  forall m pick leaf_size nf data nodes qs k ans,
    is_matrix nf data -> first_column_widest nf data -> real_build leaf_size nf data = Ok nodes ->
    is_matrix nf qs -> (0 < k <= length data)%nat -> real_query m pick nodes qs k = Ok ans ->
    Forall2 (fun q a => exists l, a = map (fun p => (Some (fst p), snd p)) l /\ k_nearest m data q k l) qs ans.
Proof.
  intros m pick leaf_size nf data nodes qs k ans Hm Hw Eb Hqs Hk E.
  revert ans E. induction qs as [|q qs IH]; intros ans E; cbn [real_query query mapM] in E.
  - injection E as <-. constructor.
  - destruct (real_query_single m pick leaf_size nf data nodes q k Hm Hw Eb (Hqs q (or_introl eq_refl)) Hk)
      as [(E1 & _)|(l & E1 & Hl)]; unfold real_query, query in E; cbn [mapM] in E; rewrite E1 in E; [discriminate|].
    cbn [bind] in E.
    destruct (mapM (fun q => query_single Rltb Rminus (norm_of m) pick nodes q k) qs) as [bs| | |] eqn:E2; try discriminate.
    injection E as <-. constructor; [eauto|]. apply IH; [intros r Hr; apply Hqs; now right|exact E2].
Qed.
Print Assumptions C10_exact.
(** With leaves of at least 5 rows and at least 6 rows of data every query completes. *)
Theorem C10_completes :
  forall m pick leaf_size nf data nodes qs k,
    is_matrix nf data -> first_column_widest nf data -> real_build leaf_size nf data = Ok nodes ->
    is_matrix nf qs -> (0 < k <= length data)%nat -> (5 <= leaf_size)%nat -> (6 <= length data)%nat ->
    exists ans, real_query m pick nodes qs k = Ok ans.
Proof.
  intros m pick leaf_size nf data nodes qs k Hm Hw Eb Hqs Hk H5 H6.
  induction qs as [|q qs IH]; [now exists []|].
  destruct (real_query_single m pick leaf_size nf data nodes q k Hm Hw Eb (Hqs q (or_introl eq_refl)) Hk)
    as [(_ & H)|(l & E1 & _)]; [tauto|].
  destruct IH as (ans & E2); [intros r Hr; apply Hqs; now right|].
  unfold real_query, query in *. cbn [mapM]. rewrite E1. cbn [bind]. rewrite E2. cbn [bind]. eauto.
Qed.
Print Assumptions C10_completes.
Example C10_case : exists nodes ans, real_build 5 2 wide = Ok nodes /\
  real_query Euclidean (fun _ => 0%nat) nodes [[11; 2]; [50; 50]] 3 = Ok ans.
Proof.
  destruct wide_ok as (H1 & H2 & H3).
  assert (E : exists nodes, real_build 5 2 wide = Ok nodes) by (apply C09_defined; [assumption|rewrite H3; lia]).
  destruct E as (nodes & E). exists nodes.
  destruct (C10_completes Euclidean (fun _ => 0%nat) 5 2 wide nodes [[11; 2]; [50; 50]] 3 H1 H2 E) as (ans & Ea);
    try rewrite H3; try lia; [|eauto].
  intros r [<-|[<-|[]]]; reflexivity.
Qed.

(** With column 1 the widest, a query can miss the nearest row although it is in the data. *)
Definition tall24 : list (list Z) := map (fun i => [0; 10 * Z.of_nat i]%Z) (seq 0 24).
Theorem C10_other_axis_refuted :
  exists m pick leaf_size nf data nodes q a,
    is_matrix nf data /\ real_build leaf_size nf data = Ok nodes /\ length q = nf /\ (6 <= length data)%nat /\ (5 <= leaf_size)%nat /\
    real_query m pick nodes [q] 1 = Ok [[(Some (dist m a q), 11%nat)]] /\
    nth_error data 11 = Some a /\ dist m a q = 10 /\
    exists b, nth_error data 12 = Some b /\ dist m b q = 0.
Proof.
  exists Manhattan, (fun _ => 0%nat), 5%nat, 2%nat, (zmat tall24). eexists.
  exists (map IZR [0; 120]%Z), (map IZR [0; 110]%Z).
  assert (Ed : dist Manhattan (map IZR [0; 110]%Z) (map IZR [0; 120]%Z) = 10).
  { change (dist Manhattan (map IZR [0; 110]%Z) (map IZR [0; 120]%Z)) with (distance Rminus (norm_of Manhattan) (map IZR [0; 110]%Z) (map IZR [0; 120]%Z)).
    rewrite (distance_hom _ _ IZR Z.sub Rminus IZR_sub znorm1 (norm_of Manhattan) IZR_norm1). reflexivity. }
  split; [|split; [|split; [|split; [|split; [|split; [|split; [|split; [exact Ed|]]]]]]]].
  - intros r Hr. unfold zmat, tall24 in Hr. rewrite map_map in Hr. apply in_map_iff in Hr. destruct Hr as (i & <- & _). reflexivity.
  - rewrite real_build_Z. vm_compute build_tree. cbn [omap]. reflexivity.
  - reflexivity.
  - vm_compute. lia.
  - lia.
  - rewrite Ed. change [map IZR [0; 120]%Z] with (zmat [[0; 120]]%Z). rewrite real_query_Z. vm_compute. reflexivity.
  - vm_compute. reflexivity.
  - exists (map IZR [0; 120]%Z). split; [vm_compute; reflexivity|].
    change (dist Manhattan (map IZR [0; 120]%Z) (map IZR [0; 120]%Z)) with (distance Rminus (norm_of Manhattan) (map IZR [0; 120]%Z) (map IZR [0; 120]%Z)).
    rewrite (distance_hom _ _ IZR Z.sub Rminus IZR_sub znorm1 (norm_of Manhattan) IZR_norm1). reflexivity.
Qed.
Print Assumptions C10_other_axis_refuted.
(** Leaves of one or two rows make the query read outside an array. *)
Theorem C10_small_leaf_refuted :
  exists m pick leaf_size nf data nodes q k,
    is_matrix nf data /\ first_column_widest nf data /\ real_build leaf_size nf data = Ok nodes /\ length q = nf /\
    (0 < k <= length data)%nat /\ real_query m pick nodes [q] k = UB.
Proof.
  exists Manhattan, (fun _ => 0%nat), 2%nat, 2%nat, wide. eexists. exists (map IZR [0; 0]%Z), 1%nat.
  destruct wide_ok as (H1 & H2 & H3). split; [assumption|]. split; [assumption|].
  split; [unfold wide; rewrite real_build_Z; vm_compute build_tree; cbn [omap]; reflexivity|].
  split; [reflexivity|]. split; [rewrite H3; lia|].
  change [map IZR [0; 0]%Z] with (zmat [[0; 0]]%Z). rewrite real_query_Z. vm_compute. reflexivity.
Qed.
Print Assumptions C10_small_leaf_refuted.

(** C11: radius queries return rows within the radius, each once, ... *)
Theorem C11_sound :
  forall m leaf_size nf data nodes q radius,
    is_matrix nf data -> real_build leaf_size nf data = Ok nodes -> length q = nf ->
    exists ans, query_radius_single Rltb Rminus (norm_of m) nodes q radius = Ok ans /\
      real_query_radius m nodes [q] radius = Ok (match ans with [] => [] | _ => [ans] end) /\
      radius_sound m data q radius ans.
Proof.
  intros m leaf_size nf data nodes q radius Hm Eb Hq.
  destruct (real_radius_single m leaf_size nf data nodes q radius Hm Eb Hq) as (ans & E & Hs & _).
  exists ans. split; [exact E|]. split; [|exact Hs].
  unfold real_query_radius, query_radius. cbn [mapM]. rewrite E. cbn [bind]. destruct ans; reflexivity.
Qed.
Print Assumptions C11_sound.
(** ... and all rows nearer than the radius, if column 0 is the widest. *)
Theorem C11_complete_inside :
  forall m leaf_size nf data nodes q radius ans,
    is_matrix nf data -> first_column_widest nf data -> real_build leaf_size nf data = Ok nodes -> length q = nf ->
    query_radius_single Rltb Rminus (norm_of m) nodes q radius = Ok ans ->
    radius_complete_inside m data q radius ans.
Proof.
  intros m leaf_size nf data nodes q radius ans Hm Hw Eb Hq E.
  destruct (real_radius_single m leaf_size nf data nodes q radius Hm Eb Hq) as (ans' & E' & _ & Hc).
  rewrite E in E'. injection E' as <-. auto.
Qed.
Print Assumptions C11_complete_inside.
Example C11_complete_inside_case : exists nodes ans, real_build 5 2 wide = Ok nodes /\ query_radius_single Rltb Rminus (norm_of Euclidean) nodes [11; 2] 12 = Ok ans /\
  radius_sound Euclidean wide [11; 2] 12 ans /\ radius_complete_inside Euclidean wide [11; 2] 12 ans.
Proof.
  destruct C10_case as (nodes & _ & E & _), wide_ok as (H1 & H2 & H3).
  destruct (C11_sound Euclidean 5 2 wide nodes [11; 2] 12 H1 E eq_refl) as (ans & Ea & _ & S).
  exists nodes, ans. repeat (split; [assumption|]). exact (C11_complete_inside Euclidean 5 2 wide nodes [11; 2] 12 ans H1 H2 E eq_refl Ea).
Qed.
Definition line3 : list (list R) := zmat [[1];[2];[3]]%Z.
(** Rows at exactly the radius are lost: querying a training row with radius 0 finds nothing. *)
Theorem C11_boundary_refuted :
  exists m leaf_size nf data nodes q, is_matrix nf data /\ first_column_widest nf data /\
    real_build leaf_size nf data = Ok nodes /\ In q data /\ dist m q q = 0 /\
    real_query_radius m nodes [q] 0 = Ok [].
Proof.
  exists Manhattan, 2%nat, 1%nat, line3. eexists. exists (map IZR [2]%Z). split; [|split; [|split; [|split; [|split]]]].
  - intros r [<-|[<-|[<-|[]]]]; reflexivity.
  - intros j s0 sj Hj (lo0 & hi0 & Hlo0 & Hhi0 & Hb0 & ->) (lo & hi & Hlo & Hhi & Hb & ->).
    assert (j = 0%nat) as -> by lia. pose proof (Hb0 _ Hhi). pose proof (Hb0 _ Hlo). lra.
  - unfold line3. rewrite real_build_Z. vm_compute build_tree. cbn [omap]. reflexivity.
  - simpl. auto.
  - unfold dist, norm_of, sum. simpl. replace (2 - 2) with 0 by lra. rewrite Rabs_R0. lra.
  - change [map IZR [2]%Z] with (zmat [[2]]%Z). change 0 with (IZR 0). rewrite real_query_radius_Z. vm_compute. reflexivity.
Qed.
Print Assumptions C11_boundary_refuted.
(** With column 1 the widest even rows well inside the radius are lost. *)
Theorem C11_other_axis_refuted :
  exists m leaf_size nf data nodes q, is_matrix nf data /\
    real_build leaf_size nf data = Ok nodes /\ In q data /\ dist m q q = 0 /\ real_query_radius m nodes [q] 5 = Ok [].
Proof.
  exists Manhattan, 2%nat, 2%nat, tall. eexists. exists (map IZR [0; 20]%Z). split; [|split; [|split; [|split]]].
  - apply tall_matrix.
  - unfold tall. rewrite real_build_Z. vm_compute build_tree. cbn [omap]. reflexivity.
  - simpl. auto.
  - unfold dist, norm_of, sum. simpl. replace (0 - 0) with 0 by lra. replace (20 - 20) with 0 by lra. rewrite Rabs_R0. lra.
  - change [map IZR [0; 20]%Z] with (zmat [[0; 20]]%Z). change 5 with (IZR 5). rewrite real_query_radius_Z. vm_compute. reflexivity.
Qed.
Print Assumptions C11_other_axis_refuted.
Example C11_case : exists nodes, real_build 2 2 wide = Ok nodes /\
  real_query_radius Manhattan nodes [map IZR [11; 0]%Z] (IZR 12) = Ok [[(IZR 1, 1%nat); (IZR 10, 2%nat); (IZR 12, 0%nat)]].
Proof.
  eexists. split; [unfold wide; rewrite real_build_Z; vm_compute build_tree; cbn [omap]; reflexivity|].
  change [map IZR [11; 0]%Z] with (zmat [[11; 0]]%Z). rewrite real_query_radius_Z. vm_compute. reflexivity.
Qed.

(** C12: answers of [query] are in the order of the queries, each as if asked alone. *)
Theorem C12_query_aligned :
  forall m pick nodes qs k ans, real_query m pick nodes qs k = Ok ans ->
    Forall2 (fun q a => real_query m pick nodes [q] k = Ok [a]) qs ans.
Proof.
  intros m pick nodes qs k. induction qs as [|q qs IH]; intros ans E; unfold real_query, query in *; cbn [mapM] in *.
  - injection E as <-. constructor.
  - destruct (query_single Rltb Rminus (norm_of m) pick nodes q k) as [a| | |] eqn:E1; try discriminate. cbn [bind] in E.
    destruct (mapM (fun q => query_single Rltb Rminus (norm_of m) pick nodes q k) qs) as [bs| | |] eqn:E2; try discriminate.
    injection E as <-. constructor; [|apply IH; reflexivity]. rewrite E1. reflexivity.
Qed.
Print Assumptions C12_query_aligned.
Example C12_query_aligned_case : exists nodes a b, real_build 5 2 wide = Ok nodes /\
  real_query Euclidean (fun _ => 0%nat) nodes [[11; 2]] 3 = Ok [a] /\ real_query Euclidean (fun _ => 0%nat) nodes [[50; 50]] 3 = Ok [b].
Proof.
  destruct C10_case as (nodes & ans & E & Ea). pose proof (C12_query_aligned _ _ _ _ _ _ Ea) as H.
  inversion H as [|? a ? ? Ha H']; subst. inversion H' as [|? b ? ? Hb H'']; subst. exists nodes, a, b. split; [exact E|split; assumption].
Qed.
(** [query_radius] returns the non-empty answers, in order: aligned if no answer is empty. *)
Theorem C12_radius_nonempty :
  forall m nodes qs radius ans, real_query_radius m nodes qs radius = Ok ans ->
    exists all, Forall2 (fun q a => real_query_radius m nodes [q] radius = Ok (match a with [] => [] | _ => [a] end)) qs all /\
      ans = filter (fun a => match a with [] => false | _ => true end) all /\
      (Forall (fun a => a <> []) all -> ans = all).
Proof.
  intros m nodes qs radius ans E. unfold real_query_radius, query_radius in *.
  destruct (mapM (fun q => query_radius_single Rltb Rminus (norm_of m) nodes q radius) qs) as [all| | |] eqn:E1; try discriminate.
  cbn [bind] in E. injection E as <-. exists all. split; [|split; [reflexivity|]].
  - revert all E1. induction qs as [|q qs IH]; intros all E1; cbn [mapM] in E1.
    + injection E1 as <-. constructor.
    + destruct (query_radius_single Rltb Rminus (norm_of m) nodes q radius) as [a| | |] eqn:E2; try discriminate. cbn [bind] in E1.
      destruct (mapM (fun q => query_radius_single Rltb Rminus (norm_of m) nodes q radius) qs) as [bs| | |] eqn:E3; try discriminate.
      injection E1 as <-. constructor; [|apply IH; reflexivity]. cbn [mapM]. rewrite E2. destruct a; reflexivity.
  - clear E1. intros H. induction H as [|a all Ha H IH]; [reflexivity|]. simpl. destruct a; [congruence|]. now rewrite IH.
Qed.
Print Assumptions C12_radius_nonempty.
(** Otherwise later answers shift: the second query's answer comes first. *)
Theorem C12_radius_refuted :
  exists m leaf_size nf data nodes q1 q2 a, is_matrix nf data /\ real_build leaf_size nf data = Ok nodes /\
    real_query_radius m nodes [q1; q2] 2 = Ok [a] /\ real_query_radius m nodes [q1] 2 = Ok [] /\
    real_query_radius m nodes [q2] 2 = Ok [a].
Proof.
  exists Manhattan, 2%nat, 1%nat, line3. eexists. exists (map IZR [9]%Z), (map IZR [2]%Z). eexists.
  split; [intros r [<-|[<-|[<-|[]]]]; reflexivity|].
  split; [unfold line3; rewrite real_build_Z; vm_compute build_tree; cbn [omap]; reflexivity|].
  change [map IZR [9]%Z; map IZR [2]%Z] with (zmat [[9]; [2]]%Z). change [map IZR [9]%Z] with (zmat [[9]]%Z).
  change [map IZR [2]%Z] with (zmat [[2]]%Z). change 2 with (IZR 2). rewrite !real_query_radius_Z.
  split; [vm_compute; reflexivity|split; vm_compute; reflexivity].
Qed.
Print Assumptions C12_radius_refuted.

Example C09_partition_case : exists nodes t, real_build 2 2 wide = Ok nodes /\ tree_at nodes 0 t /\ separated 2 t.
Proof.
  destruct C09_case as (nodes & _ & E & _), wide_ok as (H1 & _).
  destruct (C09_partition _ _ _ _ H1 E) as (t & Ht & _ & _ & Hs & _). exists nodes, t. split; [exact E|split; assumption].
Qed.
Example C10_exact_case : exists ans, Forall2 (fun q a => exists l, a = map (fun p => (Some (fst p), snd p)) l /\ k_nearest Euclidean wide q 3 l) [[11; 2]; [50; 50]] ans.
Proof.
  destruct C10_case as (nodes & ans & E & Ea), wide_ok as (H1 & H2 & H3). exists ans. refine (C10_exact _ _ _ _ _ _ _ _ _ H1 H2 E _ _ Ea).
  - intros r [<-|[<-|[]]]; reflexivity.
  - rewrite H3. lia.
Qed.
Example C12_radius_nonempty_case : exists nodes all, real_build 2 2 wide = Ok nodes /\
  Forall2 (fun q a => real_query_radius Manhattan nodes [q] 12 = Ok (match a with [] => [] | _ => [a] end)) [map IZR [11; 0]%Z] all.
Proof.
  destruct C11_case as (nodes & E & Ea). destruct (C12_radius_nonempty _ _ _ _ _ Ea) as (all & H & _). exists nodes, all. split; assumption.
Qed.
