(** C52: majority vote among nearest neighbours. *)
From Coq Require Import Reals Lra.
From Verif Require Import Base KDTree_Model KDTree_Spec KDReal_Proofs Properties_KDTree Stats_Model Stats_Spec Stats_Proofs Loss_Proofs Knn_Model Properties_Stats.
Local Open Scope R_scope.

Lemma Forall2_len {A B} (P : A -> B -> Prop) u v : Forall2 P u v -> length u = length v.
Proof. induction 1; simpl; congruence. Qed.
Lemma mapM_length {A B} (f : A -> outcome B) l r : mapM f l = Ok r -> length r = length l.
Proof. intros H. apply mapM_inv in H. symmetry. eapply Forall2_len; eauto. Qed.
Definition nearest_to (m : metric) (X : list (list R)) (q : list R) (i : nat) : Prop :=
  exists r, nth_error X i = Some r /\ forall r', In r' X -> dist m r q <= dist m r' q.
Lemma nearest_labels m X y qs ans : length y = length X ->
  Forall2 (fun q a => exists l, a = map (fun p => (Some (fst p), snd p)) l /\ k_nearest m X q 1 l) qs ans ->
  exists idx, mapM (neighbour_labels y) ans = Ok (map (fun i => [nth i y 0]) idx) /\ Forall2 (nearest_to m X) qs idx.
Proof.
  intros Hy HA. induction HA as [|q a qs ans Ha HA IH]; [exists []; split; [reflexivity|constructor]|].
  destruct IH as (idx & E & HF). destruct Ha as (l & -> & (K1 & K2 & K3 & K4 & K5)). destruct l as [|(d, i) [|]]; simpl in K1; try discriminate.
  destruct (K3 d i (or_introl eq_refl)) as (r & Hr & ->). exists (i :: idx).
  assert (Hi : (i < length y)%nat) by (rewrite Hy; apply nth_error_Some; congruence).
  split; [cbn; unfold vget; rewrite (nth_error_nth' y 0 Hi); cbn; rewrite E; reflexivity|]. constructor; [|exact HF]. exists r. split; [exact Hr|].
  intros r' Hr'. destruct (In_nth_error _ _ Hr') as (i' & Hi'). destruct (Nat.eq_dec i' i) as [->|N]; [rewrite Hr in Hi'; injection Hi' as ->; lra|].
  apply (K5 i' r' Hi'); [simpl; intros [C|[]]; congruence|now left].
Qed.
Lemma vote idx y : idx <> [] -> exists l c, mode Reqb Rltb 0 1 (map (fun i => [nth i y 0]) idx) 0 = Ok [(l, c)] /\ is_mode Req_EM_T (map (fun i => nth i y 0) idx) l c.
Proof.
  intros Hi. assert (HS : shape (length idx) 1 (map (fun i => [nth i y 0]) idx)) by (split; [now rewrite map_length|]; intros r Hr; apply in_map_iff in Hr; destruct Hr as (i & <- & _); reflexivity).
  assert (HL : (0 < length idx)%nat) by (destruct idx; [congruence|simpl; lia]).
  destruct (C44_mode _ 1 _ HL ltac:(lia) HS) as ((r & Er & Hr) & _). unfold cols_of in Hr. cbn [seq map] in Hr.
  inversion Hr as [|c p cs ps Hp Hps E1 E2]; subst. inversion Hps; subst. destruct p as (l, c). exists l, c. split; [exact Er|].
  destruct Hp as (Hp & _). unfold col in Hp. rewrite map_map in Hp. exact Hp.
Qed.

(** With more than one neighbour (or none) no prediction is ever returned. *)
Theorem C52_many_neighbours_refuted : forall m pick leaf_size nf X y k queries labels, k <> 1%nat ->
  knn_predict m pick leaf_size nf X y k queries <> Ok labels.
Proof.
  intros m pick ls nf X y k qs labels Hk E. unfold knn_predict in E. destruct (real_build ls nf X) as [nodes| | |]; try discriminate. cbn [bind] in E.
  destruct (real_query m pick nodes qs k) as [ans| | |]; try discriminate. cbn [bind] in E.
  destruct (mapM (neighbour_labels y) ans) as [pl| | |]; try discriminate. cbn [bind] in E.
  destruct (mode Reqb Rltb 0 k pl 0) as [r| | |] eqn:Er; try discriminate. cbn [bind] in E. unfold mode in Er. cbn [Z.eqb] in Er.
  apply mapM_length in Er. rewrite seq_length in Er. rewrite Er in E. destruct (Nat.eqb_spec k 1); [congruence|discriminate].
Qed.
Print Assumptions C52_many_neighbours_refuted.

(** With one neighbour, and data on which the tree's queries are exact, every query has a nearest sample, and the one
    label returned is a most frequent one among the labels of those samples. *)
Theorem C52_one_neighbour : forall m pick leaf_size nf X y queries labels,
  is_matrix nf X -> first_column_widest nf X -> length y = length X -> is_matrix nf queries -> queries <> [] ->
  knn_predict m pick leaf_size nf X y 1 queries = Ok labels ->
  exists nearest label c, labels = [label] /\ Forall2 (nearest_to m X) queries nearest /\
    is_mode Req_EM_T (map (fun i => nth i y 0) nearest) label c.
Proof.
  intros m pick ls nf X y qs labels HX Hw Hy Hqs Hne E. unfold knn_predict in E. destruct (real_build ls nf X) as [nodes| | |] eqn:Eb; try discriminate. cbn [bind] in E.
  destruct (real_query m pick nodes qs 1) as [ans| | |] eqn:Eq; try discriminate. cbn [bind] in E.
  destruct (mapM (neighbour_labels y) ans) as [pl| | |] eqn:Ep; try discriminate. cbn [bind] in E.
  assert (HX0 : (0 < 1 <= length X)%nat).
  { split; [lia|]. pose proof (proj1 (C09_defined ls nf X HX) (ex_intro _ _ Eb)). lia. }
  pose proof (C10_exact m pick ls nf X nodes qs 1 ans HX Hw Eb Hqs HX0 Eq) as HA.
  destruct (nearest_labels m X y qs ans Hy HA) as (idx & Ei & HN). rewrite Ei in Ep. injection Ep as <-.
  destruct (vote idx y) as (l & c & Em & Hm); [intros ->; inversion HN; subst; congruence|]. rewrite Em in E. cbn in E. injection E as <-. eauto 10.
Qed.
Print Assumptions C52_one_neighbour.
(** A label is returned once the leaves hold at least 5 samples and there are at least 6. *)
Theorem C52_defined : forall m pick leaf_size nf X y queries,
  is_matrix nf X -> first_column_widest nf X -> length y = length X -> is_matrix nf queries -> queries <> [] ->
  (5 <= leaf_size)%nat -> (6 <= length X)%nat -> (0 < nf)%nat ->
  exists label, knn_predict m pick leaf_size nf X y 1 queries = Ok [label].
Proof.
  intros m pick ls nf X y qs HX Hw Hy Hqs Hne H5 H6 Hnf. destruct (proj2 (C09_defined ls nf X HX)) as (nodes & Eb); [lia|].
  destruct (C10_completes m pick ls nf X nodes qs 1 HX Hw Eb Hqs) as (ans & Eq); try lia.
  pose proof (C10_exact m pick ls nf X nodes qs 1 ans HX Hw Eb Hqs ltac:(lia) Eq) as HA.
  destruct (nearest_labels m X y qs ans Hy HA) as (idx & Ei & HN).
  destruct (vote idx y) as (l & c & Em & _); [intros ->; inversion HN; subst; congruence|].
  exists l. unfold knn_predict. rewrite Eb. cbn [bind]. rewrite Eq. cbn [bind]. rewrite Ei. cbn [bind]. rewrite Em. reflexivity.
Qed.
Print Assumptions C52_defined.
(** So one query gets the label of a nearest sample ... *)
Theorem C52_one_query : forall m pick leaf_size nf X y q labels,
  is_matrix nf X -> first_column_widest nf X -> length y = length X -> length q = nf ->
  knn_predict m pick leaf_size nf X y 1 [q] = Ok labels ->
  exists i r, nth_error X i = Some r /\ labels = [nth i y 0] /\ forall r', In r' X -> dist m r q <= dist m r' q.
Proof.
  intros m pick ls nf X y q labels HX Hw Hy Hq E.
  destruct (C52_one_neighbour m pick ls nf X y [q] labels HX Hw Hy) as (near & l & c & -> & HF & HM); auto; [|discriminate|].
  { intros r [<-|[]]. assumption. }
  inversion HF as [|q' i qs' is' Hi HF' E1 E2]; subst. inversion HF'; subst. destruct Hi as (r & Hr & Hd). exists i, r. split; [exact Hr|]. split; [|exact Hd].
  destruct HM as (M1 & M2 & _). simpl in M1. destruct (Req_EM_T (nth i y 0) l) as [->|N]; [reflexivity|lia].
Qed.
Print Assumptions C52_one_query.
(** ... but several queries get a single label between them. *)
Theorem C52_batch_refuted : forall m pick leaf_size nf X y k queries labels, (2 <= length queries)%nat ->
  knn_predict m pick leaf_size nf X y k queries = Ok labels -> length labels <> length queries.
Proof.
  intros m pick ls nf X y k qs labels Hq E. destruct (Nat.eq_dec k 1) as [->|Hk]; [|now apply C52_many_neighbours_refuted in E].
  unfold knn_predict in E. destruct (real_build ls nf X) as [nodes| | |]; try discriminate. cbn [bind] in E.
  destruct (real_query m pick nodes qs 1) as [ans| | |]; try discriminate. cbn [bind] in E.
  destruct (mapM (neighbour_labels y) ans) as [pl| | |]; try discriminate. cbn [bind] in E.
  destruct (mode Reqb Rltb 0 1 pl 0) as [r| | |] eqn:Er; try discriminate. cbn [bind] in E. destruct (Nat.eqb_spec (length r) 1) as [L|]; [|discriminate].
  injection E as <-. rewrite map_length. lia.
Qed.
Print Assumptions C52_batch_refuted.

Example knn_case : exists label, knn_predict Euclidean (fun _ => 0%nat) 5 2 wide [0; 0; 0; 1; 1; 1] 1 [[11; 2]; [50; 50]] = Ok [label].
Proof.
  destruct wide_ok as (H1 & H2 & H3). apply C52_defined; auto; try rewrite H3; try lia; [|discriminate].
  intros r [<-|[<-|[]]]; reflexivity.
Qed.

Example C52_one_neighbour_case : exists nearest label c, Forall2 (nearest_to Euclidean wide) [[11; 2]; [50; 50]] nearest /\
  is_mode Req_EM_T (map (fun i => nth i [0; 0; 0; 1; 1; 1] 0) nearest) label c.
Proof.
  destruct knn_case as (label & E), wide_ok as (H1 & H2 & H3).
  destruct (C52_one_neighbour Euclidean (fun _ => 0%nat) 5 2 wide [0; 0; 0; 1; 1; 1] [[11; 2]; [50; 50]] _ H1 H2 ltac:(rewrite H3; reflexivity) ltac:(intros r [<-|[<-|[]]]; reflexivity) ltac:(discriminate) E)
    as (n & l & c & _ & Hn & Hm). exists n, l, c. split; assumption.
Qed.
Example C52_one_query_case : exists i r, nth_error wide i = Some r /\ forall r', In r' wide -> dist Manhattan r [11; 2] <= dist Manhattan r' [11; 2].
Proof.
  destruct wide_ok as (H1 & H2 & H3).
  destruct (C52_defined Manhattan (fun _ => 0%nat) 5 2 wide [0; 0; 0; 1; 1; 1] [[11; 2]]) as (l & E); auto; try rewrite H3; try lia; try discriminate.
  - intros r [<-|[]]; reflexivity.
  - destruct (C52_one_query Manhattan (fun _ => 0%nat) 5 2 wide [0; 0; 0; 1; 1; 1] [11; 2] _ H1 H2 ltac:(rewrite H3; reflexivity) eq_refl E) as (i & r & Hr & _ & H). exists i, r. split; assumption.
Qed.
