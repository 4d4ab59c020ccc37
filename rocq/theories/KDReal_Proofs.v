(** The KD-tree over the real numbers. *)
From Coq Require Import Reals Lra.
From Verif Require Import Base Sorting Common_Model CommonMisc_Proofs Argsort_Model Argsort_Proofs
  KDTree_Model KDBuild_Proofs KDQuery_Proofs KDTree_Spec.
Local Open Scope R_scope.

Definition Rltb (a b : R) : bool := if Rlt_dec a b then true else false.
Lemma Rltb_true a b : Rltb a b = true <-> a < b.
Proof. unfold Rltb. destruct (Rlt_dec a b); split; intros; try assumption; try reflexivity; try discriminate; contradiction. Qed.
Lemma Rltb_false a b : Rltb a b = false <-> b <= a.
Proof.
  unfold Rltb. destruct (Rlt_dec a b); split; intros; try discriminate; try lra; reflexivity.
Qed.
Lemma Rltb_irrefl a : Rltb a a = false.
Proof. apply Rltb_false. lra. Qed.
Lemma Rltb_trans a b c : Rltb a b = true -> Rltb b c = true -> Rltb a c = true.
Proof. rewrite !Rltb_true. lra. Qed.
Lemma Rltb_total a b : Rltb a b = false -> Rltb b a = false -> a = b.
Proof. rewrite !Rltb_false. lra. Qed.

Lemma sum_mono (f : R -> R) : forall a b, length a = length b ->
  (forall j x y, nth_error a j = Some x -> nth_error b j = Some y -> f x <= f y) ->
  sum (map f a) <= sum (map f b).
Proof.
  induction a as [|x a IH]; intros [|y b] Hl H; simpl in *; try lia; [lra|].
  assert (f x <= f y) by (apply (H 0%nat); reflexivity).
  assert (sum (map f a) <= sum (map f b)) by (apply IH; [lia|]; intros j; apply (H (S j))). unfold sum in *. lra.
Qed.
Lemma rmax_mono (f : R -> R) : forall a b, length a = length b ->
  (forall j x y, nth_error a j = Some x -> nth_error b j = Some y -> f x <= f y) ->
  fold_right Rmax 0 (map f a) <= fold_right Rmax 0 (map f b).
Proof.
  induction a as [|x a IH]; intros [|y b] Hl H; simpl in *; try lia; [lra|].
  apply Rmax_lub.
  - eapply Rle_trans; [apply (H 0%nat x y); reflexivity|apply Rmax_l].
  - eapply Rle_trans; [apply (IH b); [lia|]; intros j; apply (H (S j))|apply Rmax_r].
Qed.
Lemma norm_mono m a b : length a = length b ->
  (forall j x y, nth_error a j = Some x -> nth_error b j = Some y -> Rltb (Rabs y) (Rabs x) = false) ->
  Rltb (norm_of m b) (norm_of m a) = false.
Proof.
  intros Hl H. apply Rltb_false.
  assert (H' : forall j x y, nth_error a j = Some x -> nth_error b j = Some y -> Rabs x <= Rabs y).
  { intros j x y Hx Hy. apply Rltb_false. eauto. }
  destruct m; simpl.
  - now apply sum_mono.
  - apply sqrt_le_1_alt. apply sum_mono; [assumption|]. intros j x y Hx Hy.
    apply Rsqr_le_abs_1. eauto.
  - now apply rmax_mono.
Qed.

Lemma clamp_closer q lo hi x : Rltb x lo = false -> Rltb hi x = false ->
  Rltb (Rabs (x - q)) (Rabs (clamp1 Rltb q lo hi - q)) = false.
Proof.
  rewrite !Rltb_false. intros H1 H2. unfold clamp1, Rltb.
  destruct (Rlt_dec hi q) as [Ha|Ha].
  - destruct (Rlt_dec hi lo); [lra|]. rewrite !Rabs_left1 by lra. lra.
  - destruct (Rlt_dec q lo).
    + rewrite !Rabs_right by lra. lra.
    + replace (q - q) with 0 by lra. rewrite Rabs_R0. apply Rabs_pos.
Qed.

Lemma distance_dist m x y : distance Rminus (norm_of m) x y = dist m x y.
Proof. reflexivity. Qed.

Lemma fold_tmin_In c : forall x, In (fold_left (tmin Rltb) c x) (x :: c).
Proof.
  induction c as [|y c IH]; intros x; simpl; [now left|].
  destruct (IH (tmin Rltb x y)) as [H|H]; [|now right; right].
  unfold tmin in H at 1. destruct (Rltb y x); rewrite <- H; simpl; auto.
Qed.
Lemma fold_tmax_In c : forall x, In (fold_left (tmax Rltb) c x) (x :: c).
Proof.
  induction c as [|y c IH]; intros x; simpl; [now left|].
  destruct (IH (tmax Rltb x y)) as [H|H]; [|now right; right].
  unfold tmax in H at 1. destruct (Rltb x y); rewrite <- H; simpl; auto.
Qed.
Lemma col_range_spread c s : col_range Rltb Rminus Rabs c = Some s -> spread c s.
Proof.
  unfold col_range, col_min, col_max. destruct c as [|x c]; [discriminate|]. intros E. injection E as <-.
  exists (fold_left (tmin Rltb) c x), (fold_left (tmax Rltb) c x).
  destruct (fold_tmin_le Rltb Rltb_irrefl Rltb_trans Rltb_total c x) as (H1 & H2).
  destruct (fold_tmax_ge Rltb Rltb_irrefl Rltb_trans Rltb_total c x) as (H3 & H4).
  split; [apply fold_tmin_In|]. split; [apply fold_tmax_In|].
  assert (Hb : forall y, In y (x :: c) -> fold_left (tmin Rltb) c x <= y <= fold_left (tmax Rltb) c x).
  { intros y [<-|Hy]; split; apply Rltb_false; auto. }
  split; [assumption|]. apply Rabs_right. specialize (Hb x (or_introl eq_refl)). lra.
Qed.
Lemma first_widest_of nf data : first_column_widest nf data -> is_matrix nf data -> (0 < nf)%nat -> data <> [] ->
  first_widest Rltb Rminus Rabs nf data.
Proof.
  intros H Hm Hnf Hne j a b d Hj Ea Eb. apply Rltb_false. unfold range_at in *.
  assert (E : forall i, (i < nf)%nat -> map (fun r => nth i r d) data = column i data).
  { intros i Hi. apply map_ext_in. intros r Hr. apply nth_indep. now rewrite (Hm r Hr). }
  rewrite E in Ea, Eb by assumption. apply (H j b a Hj); now apply col_range_spread.
Qed.

(** From the representation used in the proofs to the specification's trees. *)
Fixpoint to_bsp {T} (t : kd T) : bsp T :=
  match t with
  | KLeaf d i => Leaf (combine d i)
  | KNode lr rr l r => Cut lr rr (to_bsp l) (to_bsp r)
  end.
Lemma rows_below_to {T} (t : kd T) : rows_below (to_bsp t) = kd_pairs t.
Proof. induction t; simpl; congruence. Qed.
Lemma node_count_to {T} (t : kd T) : node_count (to_bsp t) = kd_size t.
Proof. induction t; simpl; congruence. Qed.
Lemma tree_at_to {T} (tree : list (node T)) lo hi t : Forall (fun l => length (fst l) = length (snd l)) (kd_leaves t) ->
  forall i nd, nth_error tree i = Some nd -> rep lo hi tree nd t -> tree_at tree i (to_bsp t).
Proof.
  induction t as [d idx|lr rr l IHl r IHr]; simpl; intros HF i nd Hi Hrep.
  - inversion HF; subst. econstructor; eassumption.
  - apply Forall_app in HF. destruct HF as (HF1 & HF2).
    destruct Hrep as (H1 & H2 & H3 & (a & c & Ha1 & Ha2 & Ha3 & Ha4) & (b & e & Hb1 & Hb2 & Hb3 & Hb4)).
    eapply at_cut; eauto.
Qed.
Lemma separated_to nf t : cuts_ok Rltb nf t -> separated nf (to_bsp t).
Proof.
  induction t as [d idx|lr rr l IHl r IHr]; simpl; [auto|].
  intros ((j & v & Hj & HL & HR) & H1 & H2). split; [|auto].
  exists j, v. split; [assumption|]. rewrite !rows_below_to. rewrite Forall_forall in HL, HR.
  split; intros p Hp.
  - destruct (HL p Hp) as (w & Ew & Hw). apply Rltb_false in Hw. now rewrite (nth_error_nth _ _ _ Ew).
  - destruct (HR p Hp) as (w & Ew & Hw). apply Rltb_false in Hw. now rewrite (nth_error_nth _ _ _ Ew).
Qed.
Lemma in_box_of nf r b : in_rect Rltb nf r b -> in_box nf r b.
Proof.
  intros (H1 & H2 & H3 & H4 & H5) j Hj.
  pose proof (nth_error_nth' r 0 (n := j) ltac:(lia)) as E1.
  pose proof (nth_error_nth' (fst b) 0 (n := j) ltac:(lia)) as E2.
  pose proof (nth_error_nth' (snd b) 0 (n := j) ltac:(lia)) as E3.
  split; apply Rltb_false; eauto.
Qed.
Lemma boxed_to nf t : boxes_ok Rltb nf t -> boxed nf (to_bsp t).
Proof.
  induction t as [d idx|lr rr l IHl r IHr]; simpl; [auto|].
  intros (HL & HR & H1 & H2). rewrite !rows_below_to. rewrite Forall_forall in HL, HR.
  split; [intros; apply in_box_of; auto|]. split; [intros; apply in_box_of; auto|]. auto.
Qed.
Lemma leaf_sizes_to {T} (t : kd T) P : Forall (fun l => length (fst l) = length (snd l) /\ P (length (fst l))) (kd_leaves t) ->
  Forall P (leaf_sizes (to_bsp t)).
Proof.
  induction t as [d idx|lr rr l IHl r IHr]; simpl; intros HF.
  - inversion HF as [|? ? (H1 & H2) _]; subst. simpl in *. repeat constructor. rewrite combine_length.
    now replace (Nat.min (length d) (length idx)) with (length d) by lia.
  - apply Forall_app in HF. apply Forall_app. tauto.
Qed.

(** ** The real instance *)
Definition real_build := build_tree Rltb Rminus Rabs.
Definition real_query m := query Rltb Rminus (norm_of m).
Definition real_query_radius m := query_radius Rltb Rminus (norm_of m).

Lemma rows_ok_of nf data : is_matrix nf data -> rows_ok nf data.
Proof. intros H. apply Forall_forall. exact H. Qed.

Lemma build_no_columns leaf_size data : is_matrix 0 data -> real_build leaf_size 0 data = UB.
Proof.
  intros H. destruct data as [|r data]; [reflexivity|].
  assert (r = []) as -> by (apply length_zero_iff_nil, H; now left). reflexivity.
Qed.

Lemma real_build_defined leaf_size nf data tree : is_matrix nf data ->
  real_build leaf_size nf data = Ok tree -> (3 <= length data)%nat /\ (2 <= leaf_size)%nat /\ (0 < nf)%nat.
Proof.
  intros Hm E. assert (Hnf : (0 < nf)%nat).
  { destruct nf; [|lia]. rewrite build_no_columns in E by assumption. discriminate. }
  unfold real_build in E.
  assert (H : (3 <= length data)%nat /\ (2 <= leaf_size)%nat) by (eapply build_tree_defined in E; eauto using Rltb_irrefl, Rltb_trans, Rltb_total).
  lia.
Qed.

Lemma real_build_spec leaf_size nf data : is_matrix nf data -> (0 < nf)%nat -> (2 <= leaf_size)%nat -> (3 <= length data)%nat ->
  exists nodes t, real_build leaf_size nf data = Ok nodes /\ tree_at nodes 0 t /\ node_count t = length nodes /\
    Permutation (rows_below t) (combine data (seq 0 (length data))) /\
    separated nf t /\ Forall (fun n => (0 < n <= leaf_size)%nat) (leaf_sizes t) /\
    (first_column_widest nf data -> boxed nf t).
Proof.
  intros Hm Hnf H2 H3.
  destruct (@build_tree_spec R Rltb Rminus Rabs Rltb_irrefl Rltb_trans Rltb_total nf Hnf leaf_size data H2 H3 (rows_ok_of _ _ Hm))
    as (tree & nd & t & Eb & Hroot & Hrep & Hsz & Hpairs & Hcut & Hrl & Hbox & Hlv & _).
  exists tree, (to_bsp t). split; [exact Eb|]. split.
  { eapply tree_at_to; [|exact Hroot|exact Hrep]. eapply Forall_impl; [|exact Hlv]. simpl. tauto. }
  split; [rewrite node_count_to; assumption|]. split; [now rewrite rows_below_to|].
  split; [now apply separated_to|]. split.
  { apply (leaf_sizes_to t (fun n => (0 < n <= leaf_size)%nat)). eapply Forall_impl; [|exact Hlv]. simpl. tauto. }
  intros Hf. apply boxed_to, Hbox. apply first_widest_of; auto. intros ->. simpl in H3. lia.
Qed.

Lemma in_combine_seq {A} (l : list A) : forall s x i, In (x, i) (combine l (seq s (length l))) <->
  exists j, i = (s + j)%nat /\ nth_error l j = Some x.
Proof.
  induction l as [|y l IH]; intros s x i; simpl.
  - split; [contradiction|]. intros ([|j] & _ & H); discriminate.
  - rewrite IH. split.
    + intros [H|(j & -> & Hj)].
      * injection H as <- <-. exists 0%nat. split; [lia|reflexivity].
      * exists (S j). split; [lia|assumption].
    + intros ([|j] & -> & Hj); simpl in Hj.
      * left. injection Hj as ->. f_equal. lia.
      * right. exists j. split; [lia|assumption].
Qed.
Lemma pairs_facts m data q (l : list (R * nat)) rest f :
  (forall p, f p = (dist m (fst p) q, snd p)) ->
  Permutation (l ++ rest) (map f (combine data (seq 0 (length data)))) ->
  NoDup (map snd l) /\
  (forall d i, In (d, i) l -> exists r, nth_error data i = Some r /\ d = dist m r q) /\
  (forall i r, nth_error data i = Some r -> ~ In i (map snd l) -> In (dist m r q, i) rest).
Proof.
  intros Hf HP. repeat split.
  - assert (H : Permutation (map snd l ++ map snd rest) (seq 0 (length data))).
    { rewrite <- map_app, HP, map_map. erewrite map_ext; [|intros p; rewrite Hf; simpl; reflexivity].
      clear. generalize 0%nat. induction data as [|r data IH]; intros s; simpl; [constructor|]. constructor. apply IH. }
    apply Permutation_sym, Permutation_NoDup in H; [|apply seq_NoDup].
    clear -H. induction (map snd l) as [|x l0 IH]; [constructor|]. simpl in H. inversion H as [|? ? H1 H2]; subst.
    constructor; [|auto]. intros Hx. apply H1, in_app_iff. now left.
  - intros d i Hin. assert (H : In (d, i) (map f (combine data (seq 0 (length data))))).
    { apply (Permutation_in _ HP), in_app_iff. now left. }
    apply in_map_iff in H. destruct H as ((r & j) & E & H). rewrite Hf in E. simpl in E. injection E as <- <-.
    apply in_combine_seq in H. destruct H as (j' & -> & H). exists r. auto.
  - intros i r Hi Hn. assert (H : In (dist m r q, i) (l ++ rest)).
    { apply (Permutation_in _ (Permutation_sym HP)), in_map_iff. exists (r, i). rewrite Hf. split; [reflexivity|].
      apply in_combine_seq. exists i. auto. }
    apply in_app_iff in H. destruct H as [H|H]; [|assumption]. exfalso. apply Hn, in_map_iff. now exists (dist m r q, i).
Qed.

Lemma real_query_single m pick leaf_size nf data nodes q k : is_matrix nf data -> first_column_widest nf data ->
  real_build leaf_size nf data = Ok nodes -> length q = nf -> (0 < k <= length data)%nat ->
  (query_single Rltb Rminus (norm_of m) pick nodes q k = UB /\ ~ (5 <= leaf_size /\ 6 <= length data)%nat) \/
  exists ans, query_single Rltb Rminus (norm_of m) pick nodes q k = Ok (map (fun p => (Some (fst p), snd p)) ans) /\
    k_nearest m data q k ans.
Proof.
  intros Hm Hw Eb Hq Hk. destruct (real_build_defined _ _ _ _ Hm Eb) as (H3 & H2 & Hnf).
  destruct (@query_single_spec R Rltb Rminus Rabs Rltb_irrefl Rltb_trans Rltb_total nf Hnf (norm_of m) (norm_mono m)
             clamp_closer pick leaf_size data nodes q k H2 H3 (rows_ok_of _ _ Hm)) as [H|(r & rest & E & Hl & HP & Hs & Hle)];
    [|exact Eb|assumption|assumption|now left|].
  { apply first_widest_of; auto. intros ->. simpl in H3. lia. }
  right. exists r. split; [exact E|].
  destruct (pairs_facts m data q r rest _ (fun p => eq_refl) HP) as (F1 & F2 & F3).
  repeat split; auto.
  - clear -Hs. induction Hs as [|a l Hs IH Hall]; simpl; constructor; [assumption|].
    rewrite Forall_forall in *. intros x Hx. apply in_map_iff in Hx. destruct Hx as (p & <- & Hp).
    apply Rltb_false. now apply Hall.
  - intros i row Hi Hn d Hd. apply in_map_iff in Hd. destruct Hd as (p & <- & Hp).
    apply Rltb_false. apply (Hle p (dist m row q, i)); [assumption|]. now apply F3.
Qed.

Lemma real_radius_single m leaf_size nf data nodes q radius : is_matrix nf data ->
  real_build leaf_size nf data = Ok nodes -> length q = nf ->
  exists ans, query_radius_single Rltb Rminus (norm_of m) nodes q radius = Ok ans /\
    radius_sound m data q radius ans /\
    (first_column_widest nf data -> radius_complete_inside m data q radius ans).
Proof.
  intros Hm Eb Hq. destruct (real_build_defined _ _ _ _ Hm Eb) as (H3 & H2 & Hnf).
  destruct (@query_radius_single_spec R Rltb Rminus Rabs Rltb_irrefl Rltb_trans Rltb_total nf Hnf (norm_of m) (norm_mono m)
             clamp_closer (fun _ => 0%nat) leaf_size data nodes q radius H2 H3 (rows_ok_of _ _ Hm)) as (found & missed & E & HP & Hmiss);
    [exact Eb|assumption|].
  exists found. split; [exact E|].
  set (all := map (fun p => (dist m (fst p) q, snd p)) (combine data (seq 0 (length data)))) in *.
  assert (Hall : exists rest, Permutation (found ++ rest) all).
  { exists (missed ++ filter (fun e => Rltb radius (fst e)) all). rewrite app_assoc.
    change (distance Rminus (norm_of m)) with (dist m) in HP. fold all in HP. rewrite HP.
    clear. induction all as [|e l IH]; simpl; [constructor|].
    destruct (Rltb radius (fst e)); simpl; [|now constructor].
    rewrite <- Permutation_middle. now constructor. }
  destruct Hall as (rest & Hall).
  destruct (pairs_facts m data q found rest _ (fun p => eq_refl) Hall) as (F1 & F2 & F3).
  assert (Hin : forall e, In e (found ++ missed) <-> In e all /\ fst e <= radius).
  { intros e. change (distance Rminus (norm_of m)) with (dist m) in HP. fold all in HP. split.
    - intros He. apply (Permutation_in _ HP), filter_In in He. destruct He as (He & Hr).
      apply Bool.negb_true_iff, Rltb_false in Hr. auto.
    - intros (He & Hr). apply (Permutation_in _ (Permutation_sym HP)), filter_In. split; [assumption|].
      apply Bool.negb_true_iff, Rltb_false. assumption. }
  split.
  - split; [assumption|]. intros d i Hd. destruct (F2 d i Hd) as (r & Hr & Ed). exists r. repeat split; auto.
    apply (Hin (d, i)). apply in_app_iff. now left.
  - intros Hw i r Hi Hlt.
    assert (He : In (dist m r q, i) (found ++ missed)).
    { apply Hin. split; [|simpl; lra]. apply in_map_iff. exists (r, i). split; [reflexivity|].
      apply in_combine_seq. exists i. auto. }
    apply in_app_iff in He. destruct He as [He|He]; [apply in_map_iff; now exists (dist m r q, i)|].
    exfalso. specialize (Hmiss (first_widest_of _ _ Hw Hm Hnf ltac:(intros ->; simpl in H3; lia)) _ He). simpl in Hmiss. lra.
Qed.
