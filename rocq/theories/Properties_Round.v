(** Property theorems for the program with rounded arithmetic (C61).  Specification: [Round_Spec].
    [build_tree Rltb (rsub rnd) Rabs] and [query Rltb (rsub rnd) (computed_norm rnd s m)] are the model's constructor and query
    with every subtraction, multiplication, addition and square root rounded. *)
From Coq Require Import Reals Lra.
From Flocq Require Import Core.
From Verif Require Import Base KDTree_Model KDTree_Spec KDBuild_Proofs KDQuery_Proofs KDReal_Proofs Properties_KDTree Round_Spec Round_Proofs.
Local Open Scope R_scope.

(** The roundings of double and float are roundings. *)
Theorem C61_formats : rounding binary64 /\ rounding binary32.
Proof. split; [exact binary64_rounding|exact binary32_rounding]. Qed.
Print Assumptions C61_formats.
(** C61: whatever the rounding and the order of additions, a completed query returns rows with the smallest computed
    distances. *)
Theorem C61_exact :
  forall rnd s m pick leaf_size nf data nodes qs k ans,
    rounding rnd -> is_matrix nf data -> first_column_widest nf data ->
    build_tree Rltb (rsub rnd) Rabs leaf_size nf data = Ok nodes -> is_matrix nf qs -> (0 < k <= length data)%nat ->
    query Rltb (rsub rnd) (computed_norm rnd s m) pick nodes qs k = Ok ans ->
    Forall2 (fun q a => exists l, a = map (fun p => (Some (fst p), snd p)) l /\ nearest_by (computed_dist rnd s m) data q k l) qs ans.
Proof.
  intros rnd s m pick leaf_size nf data nodes qs k ans HR Hm Hw Eb Hqs Hk E.
  revert ans E. induction qs as [|q qs IH]; intros ans E; cbn [query mapM] in E.
  - injection E as <-. constructor.
  - destruct (rounded_query_single rnd HR s m pick leaf_size nf data nodes q k Hm Hw Eb (Hqs q (or_introl eq_refl)) Hk)
      as [(E1 & _)|(l & E1 & Hl)]; unfold query in E; cbn [mapM] in E; rewrite E1 in E; [discriminate|].
    cbn [bind] in E.
    destruct (mapM (fun q => query_single Rltb (rsub rnd) (computed_norm rnd s m) pick nodes q k) qs) as [bs| | |] eqn:E2; try discriminate.
    injection E as <-. constructor; [eauto|]. apply IH; [intros r Hr; apply Hqs; now right|exact E2].
Qed.
Print Assumptions C61_exact.
(** Queries complete as they do in exact arithmetic. *)
Theorem C61_completes :
  forall rnd s m pick leaf_size nf data qs k,
    rounding rnd -> is_matrix nf data -> first_column_widest nf data -> (1 <= nf)%nat ->
    is_matrix nf qs -> (0 < k <= length data)%nat -> (5 <= leaf_size)%nat -> (6 <= length data)%nat ->
    exists nodes ans, build_tree Rltb (rsub rnd) Rabs leaf_size nf data = Ok nodes /\
      query Rltb (rsub rnd) (computed_norm rnd s m) pick nodes qs k = Ok ans.
Proof.
  intros rnd s m pick leaf_size nf data qs k HR Hm Hw Hnf Hqs Hk H5 H6.
  destruct (@build_tree_spec R Rltb (rsub rnd) Rabs Rltb_irrefl Rltb_trans Rltb_total nf Hnf leaf_size data ltac:(lia) ltac:(lia) (rows_ok_of _ _ Hm))
    as (nodes & nd & t & Eb & _).
  exists nodes. enough (H : exists ans, query Rltb (rsub rnd) (computed_norm rnd s m) pick nodes qs k = Ok ans) by (destruct H; eauto).
  induction qs as [|q qs IH]; [now exists []|].
  destruct (rounded_query_single rnd HR s m pick leaf_size nf data nodes q k Hm Hw Eb (Hqs q (or_introl eq_refl)) Hk)
    as [(_ & H)|(l & E1 & _)]; [tauto|].
  destruct IH as (ans & E2); [intros r Hr; apply Hqs; now right|].
  unfold query in *. cbn [mapM]. rewrite E1. cbn [bind]. rewrite E2. cbn [bind]. eauto.
Qed.
Print Assumptions C61_completes.
(** Radius queries return rows whose computed distance is within the radius, each once, and all whose computed distance
    is smaller. *)
Theorem C61_radius :
  forall rnd s m leaf_size nf data nodes q radius,
    rounding rnd -> is_matrix nf data -> first_column_widest nf data ->
    build_tree Rltb (rsub rnd) Rabs leaf_size nf data = Ok nodes -> length q = nf ->
    exists ans, query_radius_single Rltb (rsub rnd) (computed_norm rnd s m) nodes q radius = Ok ans /\
      query_radius Rltb (rsub rnd) (computed_norm rnd s m) nodes [q] radius = Ok (match ans with [] => [] | _ => [ans] end) /\
      within_by (computed_dist rnd s m) data q radius ans.
Proof.
  intros rnd s m leaf_size nf data nodes q radius HR Hm Hw Eb Hq.
  destruct (rounded_radius_single rnd HR s m leaf_size nf data nodes q radius Hm Hw Eb Hq) as (ans & E & H).
  exists ans. split; [exact E|]. split; [|exact H].
  unfold query_radius. cbn [mapM]. rewrite E. cbn [bind]. destruct ans; reflexivity.
Qed.
Print Assumptions C61_radius.
(** With at most two columns, or the Chebyshev metric, the order of additions is no choice. *)
Theorem C61_orders :
  forall rnd s1 s2 m nf x y, (nf <= 2)%nat \/ m = Chebyshev ->
    Permutation (entries_of s1) (seq 0 nf) -> Permutation (entries_of s2) (seq 0 nf) ->
    computed_dist rnd s1 m x y = computed_dist rnd s2 m x y.
Proof.
  intros rnd s1 s2 m nf x y [Hnf| ->] H1 H2; [|reflexivity].
  assert (E : forall v, add_up rnd s1 v = add_up rnd s2 v).
  { intros v. destruct (few_orders _ _ H1 Hnf) as [(E1 & ->)|(E1 & D1)], (few_orders _ _ H2 Hnf) as [(E2 & ->)|(E2 & D2)]; try lia; try reflexivity.
    destruct D1 as [-> | ->], D2 as [-> | ->]; try reflexivity; cbn; f_equal; lra. }
  unfold computed_dist. destruct m; cbn [computed_norm]; now rewrite ?E.
Qed.
Print Assumptions C61_orders.
Example C61_case : exists nodes ans, build_tree Rltb (rsub binary64) Rabs 5 2 wide = Ok nodes /\
  query Rltb (rsub binary64) (computed_norm binary64 (Add (Entry 0) (Entry 1)) Euclidean) (fun _ => 0%nat) nodes [[11; /3]; [50; 50]] 3 = Ok ans /\
  Forall2 (fun q a => exists l, a = map (fun p => (Some (fst p), snd p)) l /\
    nearest_by (computed_dist binary64 (Add (Entry 0) (Entry 1)) Euclidean) wide q 3 l) [[11; /3]; [50; 50]] ans.
Proof.
  destruct wide_ok as (H1 & H2 & H3).
  assert (Hq : is_matrix 2 [[11; /3]; [50; 50]]) by (intros r [<-|[<-|[]]]; reflexivity).
  destruct (C61_completes binary64 (Add (Entry 0) (Entry 1)) Euclidean (fun _ => 0%nat) 5 2 wide [[11; /3]; [50; 50]] 3 binary64_rounding H1 H2)
    as (nodes & ans & E1 & E2); try rewrite H3; auto with arith; try lia.
  exists nodes, ans. split; [exact E1|]. split; [exact E2|].
  eapply C61_exact; eauto using binary64_rounding. rewrite H3. lia.
Qed.
