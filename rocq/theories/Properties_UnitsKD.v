(** C67, continued: nearest neighbours. *)
From Coq Require Import Reals Lra QArith.
From Verif Require Import Base Sorting Tree_Spec Tree_Proofs KDTree_Model KDTree_Spec KDReal_Proofs KDHom_Proofs RowOrder_Proofs RowOrderKD_Proofs
  Units_Spec Units_Proofs UnitsMore_Proofs UnitsNB_Proofs Properties_KDTree.
Local Open Scope R_scope.

(** All features in one common unit and moved by any vector: every distance is multiplied by the unit, with any leaf sizes and any choice among
    ties. *)
Theorem C67_neighbours : forall c b m pick pick' leaf leaf' nf data nodes nodes' qs k ans ans', 0 < c ->
  is_matrix nf data -> first_column_widest nf data -> is_matrix nf qs -> (0 < nf)%nat -> (0 < k <= length data)%nat ->
  real_build leaf nf data = Ok nodes -> real_build leaf' nf (in_units (fun _ => c) b data) = Ok nodes' ->
  real_query m pick nodes qs k = Ok ans -> real_query m pick' nodes' (in_units (fun _ => c) b qs) k = Ok ans' ->
  map (map fst) ans' = map (map (fun e => option_map (Rmult c) (fst e))) ans.
Proof.
  intros c b m pick pick' leaf leaf' nf data nodes nodes' qs k ans ans' Hc Hm Hw Hq Hnf Hk Eb Eb' E E'.
  pose proof (C10_exact _ _ _ _ _ _ _ _ _ Hm Hw Eb Hq Hk E) as H.
  assert (Hk' : (0 < k <= length (in_units (fun _ => c) b data))%nat) by (unfold in_units; now rewrite map_length).
  pose proof (C10_exact _ _ _ _ _ _ _ _ _ (matrix_units c b Hm) (widest_units b Hc Hnf Hm Hw) Eb' (matrix_units c b Hq) Hk' E') as H'.
  clear - H H' Hc Hm Hq. revert ans' Hq H'. unfold in_units at 2. induction H as [|q a qs ans (l & -> & Hl) H IH]; intros ans' Hq H';
    cbn [map] in H'; inversion H' as [|? a' ? t (l' & -> & Hl') H'']; subst; [reflexivity|].
  cbn [map]. f_equal; [|apply IH; [intros r Hr; apply Hq; now right|assumption]]. rewrite !map_map. cbn [fst option_map].
  rewrite <- (map_map fst Some), <- (map_map fst (fun d => Some (c * d))), <- (map_map (Rmult c) Some). f_equal.
  rewrite (k_nearest_distances Hl), (k_nearest_distances Hl').
  rewrite <- firstn_map. f_equal. rewrite <- (@isort_hom R R (Rmult c) Rltb Rltb).
  2: { intros x y. apply UnitsMore_Proofs.Rltb_scale; assumption. }
  f_equal. unfold in_units. rewrite !map_map. apply map_ext_in. intros r Hr. rewrite dist_units.
  - now rewrite Rabs_right by lra.
  - rewrite (Hm r Hr). symmetry. apply Hq. now left.
Qed.
Print Assumptions C67_neighbours.
Example C67_neighbours_case : exists nodes nodes' ans ans', real_build 5 2 wide = Ok nodes /\ real_build 6 2 (in_units (fun _ => 3) (fun j => INR j) wide) = Ok nodes' /\
  real_query Euclidean (fun _ => 0%nat) nodes [[11; 2]; [50; 50]] 3 = Ok ans /\
  real_query Euclidean (fun _ => 0%nat) nodes' (in_units (fun _ => 3) (fun j => INR j) [[11; 2]; [50; 50]]) 3 = Ok ans' /\
  map (map fst) ans' = map (map (fun e => option_map (Rmult 3) (fst e))) ans.
Proof.
  destruct wide_ok as (H1 & H2 & H3). assert (H3c : 0 < 3) by lra.
  assert (H1' := matrix_units 3 (fun j => INR j) H1). assert (H2' := widest_units (fun j => INR j) H3c Nat.lt_0_2 H1 H2).
  assert (HL : length (in_units (fun _ => 3) (fun j => INR j) wide) = 6%nat) by (unfold in_units; now rewrite map_length).
  assert (HQ : is_matrix 2 [[11; 2]; [50; 50]]) by (intros r [<-|[<-|[]]]; reflexivity).
  assert (HQ' := matrix_units 3 (fun j => INR j) HQ).
  destruct (proj2 (C09_defined 5 2 wide H1)) as (nodes & E); [rewrite H3; lia|].
  destruct (proj2 (C09_defined 6 2 _ H1')) as (nodes' & E'); [rewrite HL; lia|].
  destruct (C10_completes Euclidean (fun _ => 0%nat) 5 2 wide nodes [[11; 2]; [50; 50]] 3 H1 H2 E HQ) as (ans & Ea); try rewrite H3; try lia.
  destruct (C10_completes Euclidean (fun _ => 0%nat) 6 2 _ nodes' _ 3 H1' H2' E' HQ') as (ans' & Ea'); try rewrite HL; try lia.
  exists nodes, nodes', ans, ans'. repeat (split; [assumption|]).
  refine (C67_neighbours 3 _ _ _ _ _ _ _ _ _ _ _ 3%nat _ _ H3c H1 H2 HQ Nat.lt_0_2 _ E E' Ea Ea'). rewrite H3. lia.
Qed.
