(** C69: on doubles of moderate size the KD-tree code, run on IEEE doubles, cannot overflow, and finds the nearest rows by the distances it computes. *)
From Coq Require Import Reals Lra.
From Flocq Require Import Core BinarySingleNaN.
From Verif Require Import Base KDTree_Model KDTree_Spec KDReal_Proofs KDHom_Proofs Round_Spec Round_Proofs Properties_Round Double_Spec Double_Model Double_Proofs Bounded_Spec Bounded_Model Bounded_Proofs Properties_KDTree Properties_Double.
Local Open Scope R_scope.

Lemma model_norm ord m v : dlp_norm ord m v = dmetric_norm ord m v.
Proof. now destruct m. Qed.
Lemma model_query ord m pick t qs k : dquery (dlp_norm ord m) pick t qs k = dquery (dmetric_norm ord m) pick t qs k.
Proof. now destruct m. Qed.

(** A completed query returns the rows at the smallest computed distances. *)
Theorem C69_nearest :
  forall ord m pick leaf_size nf data nodes qs k ans,
    fair ord -> (1 <= nf)%nat -> (Z.of_nat nf < 2 ^ 53)%Z -> table nf data -> Forall (Forall moderate) data -> table nf qs -> Forall (Forall moderate) qs ->
    first_column_widest nf (values data) -> dbuild leaf_size nf data = Ok nodes -> (0 < k <= length data)%nat ->
    dquery (dlp_norm ord m) pick nodes qs k = Ok ans ->
    Forall2 (fun q a => dnearest (ddistance ord m) data q k a) qs ans.
Proof.
  intros ord m pick leaf_size nf data nodes qs k ans HF Hn Hn2 HT HM HTq HMq HW Eb Hk E. rewrite model_query in E.
  pose proof (build_related nf leaf_size data HM) as B. rewrite Eb in B. inversion B as [t t' Ht Et Et'| | |]. subst t. symmetry in Et'.
  pose proof (query_related ord m nf HF Hn Hn2 pick nodes t' qs k Ht HTq HMq) as Q. rewrite E in Q. inversion Q as [a a' Ha Ea Ea'| | |]. subst a. symmetry in Ea'.
  assert (HL : length (values data) = length data) by apply map_length.
  pose proof (C61_exact binary64 (ord nf) m pick leaf_size nf (values data) t' (values qs) k a' binary64_rounding (table_matrix nf _ HT) HW Et' (table_matrix nf _ HTq) ltac:(now rewrite HL) Ea') as X.
  clear -HF Hn Hn2 HT HM HTq HMq Ha X. unfold values in X at 2. remember (map (map value) qs) as qs' eqn:Eq. revert qs Eq HTq HMq ans Ha.
  induction X as [|q' b qs' a' (l & -> & Hl) X IH]; intros [|q qs] Eq HTq HMq ans Ha; try discriminate; inversion Ha as [|x y xs ys Hx Hxs]; subst; constructor.
  - injection Eq as -> _. exact (nearest_transfer ord m nf HF Hn Hn2 data q k x l HT HM (Forall_inv HTq) (Forall_inv HMq) Hx Hl).
  - injection Eq as _ ->. apply IH; [reflexivity|exact (Forall_inv_tail HTq)|exact (Forall_inv_tail HMq)|exact Hxs].
Qed.
Print Assumptions C69_nearest.
(** Queries complete, with no undefined behaviour and no exhausted search. *)
Theorem C69_completes :
  forall ord m pick leaf_size nf data qs k,
    fair ord -> (1 <= nf)%nat -> (Z.of_nat nf < 2 ^ 53)%Z -> table nf data -> Forall (Forall moderate) data -> table nf qs -> Forall (Forall moderate) qs ->
    first_column_widest nf (values data) -> (0 < k <= length data)%nat -> (5 <= leaf_size)%nat -> (6 <= length data)%nat ->
    exists nodes ans, dbuild leaf_size nf data = Ok nodes /\ dquery (dlp_norm ord m) pick nodes qs k = Ok ans.
Proof.
  intros ord m pick leaf_size nf data qs k HF Hn Hn2 HT HM HTq HMq HW Hk H5 H6. assert (HL : length (values data) = length data) by apply map_length.
  destruct (C61_completes binary64 (ord nf) m pick leaf_size nf (values data) (values qs) k binary64_rounding (table_matrix nf _ HT) HW Hn (table_matrix nf _ HTq)) as (t' & a' & Et & Ea);
    try (rewrite HL); auto.
  pose proof (build_related nf leaf_size data HM) as B. rewrite Et in B. inversion B as [t t0 Ht E1 E2| | |]. subst t0. exists t.
  pose proof (query_related ord m nf HF Hn Hn2 pick t t' qs k Ht HTq HMq) as Q. rewrite Ea in Q. inversion Q as [a a0 Ha E3 E4| | |]. exists a. split; [reflexivity|]. now rewrite model_query.
Qed.
Print Assumptions C69_completes.
(** Radius queries return rows whose computed distance is within the radius, each once, and all whose computed distance is smaller. *)
Theorem C69_radius :
  forall ord m leaf_size nf data nodes q radius,
    fair ord -> (1 <= nf)%nat -> (Z.of_nat nf < 2 ^ 53)%Z -> table nf data -> Forall (Forall moderate) data -> length q = nf -> Forall moderate q -> finite radius ->
    first_column_widest nf (values data) -> dbuild leaf_size nf data = Ok nodes ->
    exists ans, dquery_radius ord m nodes q radius = Ok ans /\ dwithin (ddistance ord m) data q radius ans.
Proof.
  intros ord m leaf_size nf data nodes q radius HF Hn Hn2 HT HM Hq Mq Fr HW Eb.
  pose proof (build_related nf leaf_size data HM) as B. rewrite Eb in B. inversion B as [t t' Ht Et Et'| | |]. subst t. symmetry in Et'.
  destruct (C61_radius binary64 (ord nf) m leaf_size nf (values data) t' (map value q) (value radius) binary64_rounding (table_matrix nf _ HT) HW Et' ltac:(now rewrite map_length)) as (a' & Ea & _ & Hw).
  pose proof (radius_related ord m nf HF Hn Hn2 nodes t' q radius Ht Hq Mq Fr) as Q. rewrite Ea in Q. inversion Q as [a a0 Ha E3 E4| | |]. subst a0. exists a.
  split; [symmetry; destruct m; exact E3|]. now apply within_transfer with (nf := nf) (l := a').
Qed.
Print Assumptions C69_radius.
(** The computed distances are finite, and are what the rounding model computes on the values of the coordinates. *)
Theorem C69_distance :
  forall ord m nf x y, fair ord -> (1 <= nf)%nat -> (Z.of_nat nf < 2 ^ 53)%Z -> length x = nf -> length y = nf -> Forall moderate x -> Forall moderate y ->
    finite (ddistance ord m x y) /\ value (ddistance ord m x y) = computed_dist binary64 (ord nf) m (map value x) (map value y).
Proof. intros. now apply (distance_related ord m nf). Qed.
Print Assumptions C69_distance.

Definition dwide : list (list double) := map (map (fun z => dbl z 0)) [[0;1];[10;0];[20;1];[30;0];[40;1];[50;0]]%Z.
Definition dpoints : list (list double) := [[dbl 11 0; dbl 1 (-2)]; [dbl 1 400; dbl (-3) 401]].
Lemma dwide_values : values dwide = wide.
Proof.
  assert (G : forall z, (Z.abs z < 2 ^ 53)%Z -> B2R (dbl z 0) = IZR z) by (intros z Hz; rewrite (proj2 (dbl_exact z 0 Hz ltac:(lia))); cbn [bpow]; apply Rmult_1_r).
  unfold values, dwide, wide, zmat. cbn [map]. unfold value. rewrite ?G by (cbn; lia). reflexivity.
Qed.
(** A table and two query points, one of them far away, for which all hypotheses hold. *)
Example C69_case : exists nodes ans, dbuild 5 2 dwide = Ok nodes /\ dquery (dlp_norm left_to_right Euclidean) (fun _ => 0%nat) nodes dpoints 3 = Ok ans /\
  Forall2 (fun q a => dnearest (ddistance left_to_right Euclidean) dwide q 3 a) dpoints ans.
Proof.
  destruct wide_ok as (H1 & H2 & H3). assert (HT : table 2 dwide) by (repeat constructor). assert (HTq : table 2 dpoints) by (repeat constructor).
  assert (HM : Forall (Forall moderate) dwide) by (unfold dwide, dpoints; cbn [map]; repeat (apply Forall_cons; [repeat (apply Forall_cons; [apply dbl_moderate; cbn; lia|]); apply Forall_nil|]); apply Forall_nil).
  assert (HMq : Forall (Forall moderate) dpoints) by (unfold dwide, dpoints; cbn [map]; repeat (apply Forall_cons; [repeat (apply Forall_cons; [apply dbl_moderate; cbn; lia|]); apply Forall_nil|]); apply Forall_nil).
  destruct (C69_completes left_to_right Euclidean (fun _ => 0%nat) 5 2 dwide dpoints 3 fair_left ltac:(lia) eq_refl HT HM HTq HMq) as (nodes & ans & E1 & E2);
    [now rewrite dwide_values|cbn; lia|lia|cbn; lia|]. exists nodes, ans. split; [exact E1|]. split; [exact E2|].
  eapply (C69_nearest left_to_right Euclidean (fun _ => 0%nat) 5 2 dwide nodes dpoints 3 ans); auto using fair_left; [lia|now rewrite dwide_values|cbn; lia].
Qed.
