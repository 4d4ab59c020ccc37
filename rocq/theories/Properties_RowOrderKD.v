(** C65, continued: nearest neighbours and frequent itemsets. *)
From Coq Require Import Reals Lra QArith.
From Verif Require Import Base Apriori_Model Tree_Spec Tree_Proofs KDTree_Model KDTree_Spec KDReal_Proofs KDHom_Proofs RowOrder_Proofs RowOrderKD_Proofs
  Properties_KDTree.
Local Open Scope R_scope.

(** Nearest neighbours: for each query the distances are the same list (the row numbers of course refer to the given order),
    with any leaf sizes and any choice among ties. *)
Theorem C65_neighbours : forall m pick pick' leaf leaf' nf data data' nodes nodes' qs k ans ans',
  is_matrix nf data -> first_column_widest nf data -> is_matrix nf qs -> (0 < k <= length data)%nat -> Permutation data data' ->
  real_build leaf nf data = Ok nodes -> real_build leaf' nf data' = Ok nodes' ->
  real_query m pick nodes qs k = Ok ans -> real_query m pick' nodes' qs k = Ok ans' ->
  map (map fst) ans = map (map fst) ans'.
Proof.
  intros m pick pick' leaf leaf' nf data data' nodes nodes' qs k ans ans' Hm Hw Hq Hk HP Eb Eb' E E'.
  pose proof (C10_exact _ _ _ _ _ _ _ _ _ Hm Hw Eb Hq Hk E) as H.
  assert (Hk' : (0 < k <= length data')%nat) by (rewrite <- (Permutation_length HP); assumption).
  pose proof (C10_exact _ _ _ _ _ _ _ _ _ (matrix_kd_perm HP Hm) (widest_perm HP Hw) Eb' Hq Hk' E') as H'.
  clear - H H' HP. revert ans' H'. induction H as [|q a qs ans (l & -> & Hl) H IH]; intros ans' H'; inversion H' as [|? a' ? t (l' & -> & Hl') H'']; subst; [reflexivity|].
  cbn [map]. f_equal; [|now apply IH]. rewrite !map_map. cbn [fst].
  rewrite <- !(map_map fst Some). f_equal. rewrite (k_nearest_distances Hl), (k_nearest_distances Hl').
  f_equal. apply isort_perm_eq. now apply Permutation_map.
Qed.
Print Assumptions C65_neighbours.
Example C65_neighbours_case : exists nodes nodes' ans ans', rev wide <> wide /\ real_build 5 2 wide = Ok nodes /\ real_build 5 2 (rev wide) = Ok nodes' /\
  real_query Euclidean (fun _ => 0%nat) nodes [[11; 2]; [50; 50]] 3 = Ok ans /\ real_query Euclidean (fun _ => 0%nat) nodes' [[11; 2]; [50; 50]] 3 = Ok ans' /\
  map (map fst) ans = map (map fst) ans'.
Proof.
  destruct wide_ok as (H1 & H2 & H3). pose proof (Permutation_rev wide) as HP.
  assert (H1' := matrix_kd_perm HP H1). assert (H2' := widest_perm HP H2).
  assert (HQ : is_matrix 2 [[11; 2]; [50; 50]]) by (intros r [<-|[<-|[]]]; reflexivity).
  destruct (proj2 (C09_defined 5 2 wide H1)) as (nodes & E); [rewrite H3; lia|].
  destruct (proj2 (C09_defined 5 2 (rev wide) H1')) as (nodes' & E'); [rewrite rev_length, H3; lia|].
  destruct (C10_completes Euclidean (fun _ => 0%nat) 5 2 wide nodes [[11; 2]; [50; 50]] 3 H1 H2 E HQ) as (ans & Ea); try rewrite H3; try lia.
  destruct (C10_completes Euclidean (fun _ => 0%nat) 5 2 (rev wide) nodes' [[11; 2]; [50; 50]] 3 H1' H2' E' HQ) as (ans' & Ea');
    try rewrite rev_length, H3; try lia.
  exists nodes, nodes', ans, ans'. split; [unfold wide; cbn; intros H; injection H; intros; lra|]. repeat (split; [assumption|]).
  refine (C65_neighbours _ _ _ _ _ _ _ _ _ _ _ 3%nat _ _ H1 H2 HQ _ HP E E' Ea Ea'). rewrite H3. lia.
Qed.

(** Apriori is an exception: the order of the transactions changes which itemsets are reported. *)
Theorem C65_apriori_refuted : exists X X' ms mc a a' I, Permutation X X' /\
  fit_transform ms mc apriori_new X = Ok a /\ fit_transform ms mc apriori_new X' = Ok a' /\
  In I (map fst (ap_freq a)) /\ ~ In I (map fst (ap_freq a')).
Proof.
  exists [[1;2;3];[2;3]]%Z, [[2;3];[1;2;3]]%Z, (1#2)%Q, (1#2)%Q. do 2 eexists. exists [1;2]%Z. split; [apply perm_swap|].
  split; [vm_compute; reflexivity|]. split; [vm_compute; reflexivity|]. split; vm_compute; [tauto|].
  intros [H|[H|[H|[H|[]]]]]; discriminate.
Qed.
Print Assumptions C65_apriori_refuted.
