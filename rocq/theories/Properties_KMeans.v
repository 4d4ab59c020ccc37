(** Theorems about k-means clustering (C27, C28, C29).  Arithmetic is over the reals. *)
From Coq Require Import Reals Lra.
From Verif Require Import Base Impurity_Spec Impurity_Proofs Vec KDReal_Proofs KMeans_Model KMeans_Spec KMeans_Proofs KMeansPP_Proofs.
Local Open Scope R_scope.

(** * C27: every sample gets the first nearest centroid *)
Theorem C27_nearest :
  forall nf X C, rows nf X -> rows nf C -> C <> [] ->
    exists labels, predict (length C) C X = Ok labels /\ Forall2 (first_nearest C) X labels.
Proof.
  intros nf X C HX HC Hne. exists (map (label_of C) X). split.
  - unfold predict. apply mapM_Ok. intros x Hx. now apply (label_of_spec HX HC Hne).
  - assert (G : forall x, In x X -> first_nearest C x (label_of C x)) by (intros x Hx; now apply (label_of_spec HX HC Hne)).
    clear HX. induction X as [|x X IH]; constructor; [apply G; now left|]. apply IH. intros; apply G; now right.
Qed.
Print Assumptions C27_nearest.

(** The distance compared is the Euclidean one: same order as [sqdist]. *)
Theorem C27_distance :
  forall u v, length u = length v -> row_sub u v = Ok (vsub u v) /\ norm (vsub u v) = sqrt (sqdist u v).
Proof. intros u v H. unfold row_sub. rewrite H, Nat.eqb_refl. split; [reflexivity|]. apply norm_sqdist. Qed.
Print Assumptions C27_distance.
Example C27_distance_case := C27_distance [1; 2] [4; 6] eq_refl.

(** Predicting for samples of another width is undefined. *)
Theorem C27_width_refuted :
  forall nf x C X, rows nf C -> C <> [] -> length x <> nf -> predict (length C) C (x :: X) = UB.
Proof.
  intros nf x C X HC Hne Hx. unfold predict. cbn [mapM]. destruct C as [|c C]; [congruence|].
  unfold closest. cbn [length seq foldM]. unfold closest_step at 1. cbn [vget nth_error bind]. unfold row_sub.
  rewrite (HC c) by now left. apply Nat.eqb_neq in Hx. rewrite Hx. reflexivity.
Qed.
Print Assumptions C27_width_refuted.

Example C27_case : exists ls, predict 2 [[0;0];[4;3]] [[1;0];[4;4]] = Ok ls /\
  Forall2 (first_nearest [[0;0];[4;3]]) [[1;0];[4;4]] ls /\ ls = [0%nat; 1%nat].
Proof.
  destruct (C27_nearest 2 [[1;0];[4;4]] [[0;0];[4;3]]) as (ls & E & H).
  - intros r [<-|[<-|[]]]; reflexivity.
  - intros r [<-|[<-|[]]]; reflexivity.
  - discriminate.
  - exists ls. split; [exact E|]. split; [exact H|]. inversion H as [|? k1 ? l1 F1 H1]; subst. inversion H1 as [|? k2 ? l2 F2 H2]; subst. inversion H2; subst.
    f_equal; [|f_equal].
    + destruct F1 as (c & E1 & F). destruct (F 0%nat [0;0] eq_refl) as (G & _).
      destruct k1 as [|[|k1]]; [reflexivity| |destruct k1; discriminate]. simpl in E1. injection E1 as <-. simpl in G. lra.
    + destruct F2 as (c & E1 & F). destruct (F 1%nat [4;3] eq_refl) as (G & _).
      destruct k2 as [|[|k2]]; [|reflexivity|destruct k2; discriminate]. simpl in E1. injection E1 as <-. simpl in G. lra.
Qed.

(** * C28: one iteration and the whole run *)

(** One iteration is defined (assertions off, or one feature), and replaces each centroid by the
    mean of the samples for which it is the first nearest; a centroid without samples stays.  The
    reported movement is the sum of the distances moved. *)
Theorem C28_iteration :
  forall asserts nf X C, rows nf X -> rows nf C -> C <> [] -> asserts = false \/ nf = 1%nat ->
    exists C' labels, iteration asserts nf (length C) X C = Ok (C', total (map2 (fun c c' => sqrt (sqdist c c')) C C')) /\
      length C' = length C /\ rows nf C' /\ Forall2 (first_nearest C) X labels /\
      forall k c c', nth_error C k = Some c -> nth_error C' k = Some c' ->
        let members := map fst (filter (fun p => snd p =? k)%nat (combine X labels)) in
        (members = [] /\ c' = c) \/ (members <> [] /\ is_mean nf members c').
Proof.
  intros asserts nf X C HX HC Hne Ha. pose proof (label_of_spec HX HC Hne) as HL.
  destruct (iteration_spec (label_of C) HX HC HL Ha) as (C' & E & EL & HN).
  exists C', (map (label_of C) X). split; [exact E|]. split; [assumption|]. split; [exact (@moved_rows nf X C (label_of C) C' HX HC EL HN)|]. split.
  - assert (G : forall x, In x X -> first_nearest C x (label_of C x)) by (intros x Hx; now apply HL). clear - G.
    induction X as [|x X IH]; constructor; [apply G; now left|]. apply IH. intros; apply G; now right.
  - intros k c c' Hc Hc'. cbn zeta.
    assert (Em : map fst (filter (fun p => (snd p =? k)%nat) (combine X (map (label_of C) X))) = filter (fun x => label_of C x =? k)%nat X).
    { clear. generalize (label_of C). intros lab. induction X as [|x X IH]; [reflexivity|]. simpl. destruct (lab x =? k)%nat; simpl; now rewrite IH. }
    rewrite Em. rewrite HN, Hc in Hc'. simpl in Hc'. injection Hc' as <-. unfold moved.
    destruct (filter (fun x => (label_of C x =? k)%nat) X) as [|y l] eqn:Ef; [now left|]. right. split; [discriminate|].
    rewrite <- Ef. apply vmean_is_mean. intros x Hx. apply filter_In in Hx. now apply HX.
Qed.
Print Assumptions C28_iteration.

(** An iteration never increases the objective, and decreases it strictly if any centroid moves. *)
Theorem C28_monotone :
  forall asserts nf X C C' eps, rows nf X -> rows nf C -> C <> [] ->
    iteration asserts nf (length C) X C = Ok (C', eps) ->
    objective X C' <= objective X C /\ (C' <> C -> objective X C' < objective X C).
Proof.
  intros asserts nf X C C' eps HX HC Hne E. pose proof (label_of_spec HX HC Hne) as HL.
  assert (Ha : asserts = false \/ nf = 1%nat \/ X = []).
  { destruct asserts; [|now left]. right. destruct (Nat.eq_dec nf 1) as [?|Hn]; [now left|]. right.
    destruct X as [|x X]; [reflexivity|]. exfalso. rewrite (iteration_UB (label_of C) HX HC HL Hn ltac:(discriminate)) in E. discriminate. }
  assert (Ha' : X = [] \/ (asserts = false \/ nf = 1%nat)) by tauto. destruct Ha' as [-> |Ha'].
  - unfold iteration, assign in E. cbn [length seq foldM bind] in E. injection E as <- <-. split; [right; reflexivity|congruence].
  - destruct (iteration_spec (label_of C) HX HC HL Ha') as (C2 & E2 & EL & HN). rewrite E2 in E. injection E as <- _.
    split; [|now apply (objective_strict (label_of C) HX HC HL)]. pose proof (objective_decrease (label_of C) HX HC HL C2 EL HN) as H.
    match type of H with (_ + total (map ?f ?l) <= _)%R => assert (Hp : (0 <= total (map f l))%R) end; [|lra].
    apply total_nonneg. intros k _. apply Rmult_le_pos; [apply pos_INR|apply sqdist_nonneg].
Qed.
Print Assumptions C28_monotone.

(** The whole run: it is a chain of at most [max_iter] iterations; it ends either after exactly
    [max_iter] of them or with an iteration that moved less than the tolerance; the objective
    never exceeds its initial value. *)
Theorem C28_run :
  forall asserts nf X tol max_iter C C', rows nf X -> rows nf C -> C <> [] ->
    lloyd asserts nf (length C) tol X max_iter C = Ok C' ->
    objective X C' <= objective X C /\ length C' = length C /\ rows nf C' /\
    exists n, (n <= max_iter)%nat /\
      chain (fun A B => exists eps, iteration asserts nf (length C) X A = Ok (B, eps)) n C C' /\
      (n = max_iter \/ exists A eps, iteration asserts nf (length C) X A = Ok (C', eps) /\ eps < tol).
Proof.
  intros asserts nf X tol max_iter C C' HX HC Hne.
  assert (G : forall m n D, length D = length C -> rows nf D -> objective X D <= objective X C ->
    chain (fun A B => exists eps, iteration asserts nf (length C) X A = Ok (B, eps)) n C D ->
    lloyd asserts nf (length C) tol X m D = Ok C' ->
    objective X C' <= objective X C /\ length C' = length C /\ rows nf C' /\
    exists k, (k <= n + m)%nat /\ chain (fun A B => exists eps, iteration asserts nf (length C) X A = Ok (B, eps)) k C C' /\
      (k = (n + m)%nat \/ exists A eps, iteration asserts nf (length C) X A = Ok (C', eps) /\ eps < tol)).
  { induction m as [|m IH]; intros n D HL HD HO Hch E; cbn [lloyd] in E.
    - injection E as <-. split; [assumption|]. split; [assumption|]. split; [assumption|]. exists n. split; [lia|]. split; [assumption|]. left. lia.
    - destruct (iteration asserts nf (length C) X D) as [[D' eps]| | |] eqn:Ei; cbn [bind] in E; try discriminate.
      assert (HDne : D <> []) by (destruct D; [destruct C; [congruence|discriminate]|discriminate]).
      assert (Hstep : length D' = length D /\ rows nf D' /\ objective X D' <= objective X D).
      { rewrite <- HL in Ei. pose proof (C28_monotone _ _ _ _ _ _ HX HD HDne Ei) as (HM & _).
        destruct X as [|x0 X0] eqn:EX.
        - unfold iteration, assign in Ei. cbn [length seq foldM bind] in Ei. injection Ei as <- <-. auto.
        - rewrite <- EX in *. assert (Ha : asserts = false \/ nf = 1%nat).
          { destruct asserts; [|now left]. right. destruct (Nat.eq_dec nf 1) as [?|Hn]; [assumption|]. exfalso.
            rewrite (iteration_UB (label_of D) HX HD (label_of_spec HX HD HDne) Hn) in Ei; [discriminate|subst; discriminate]. }
          destruct (C28_iteration asserts nf X D HX HD HDne Ha) as (D2 & ls & E2 & L2 & R2 & _). rewrite E2 in Ei. injection Ei as <- _. auto. }
      destruct Hstep as (L' & R' & O').
      assert (Hch' : chain (fun A B => exists eps, iteration asserts nf (length C) X A = Ok (B, eps)) (S n) C D') by (econstructor; [exact Hch|eauto]).
      destruct (Rltb eps tol) eqn:Eb.
      + injection E as <-. apply Rltb_true in Eb. split; [lra|]. split; [congruence|]. split; [assumption|]. exists (S n). split; [lia|].
        split; [assumption|]. right. eauto.
      + destruct (IH (S n) D' ltac:(congruence) R' ltac:(lra) Hch' E) as (A1 & A2 & A3 & k & K1 & K2 & K3).
        split; [assumption|]. split; [assumption|]. split; [assumption|]. exists k. split; [lia|]. split; [assumption|].
        destruct K3 as [-> |K3]; [left; lia|now right]. }
  intros E. apply (G max_iter 0%nat C eq_refl HC (Rle_refl _) (chain_0 _ _) E).
Qed.
Print Assumptions C28_run.

Theorem C28_defined :
  forall asserts nf X tol max_iter C, rows nf X -> rows nf C -> C <> [] -> asserts = false \/ nf = 1%nat ->
    exists C', lloyd asserts nf (length C) tol X max_iter C = Ok C'.
Proof.
  intros asserts nf X tol max_iter C HX HC Hne Ha. remember (length C) as K eqn:EK. revert C HC Hne EK.
  induction max_iter as [|m IH]; intros C HC Hne ->; cbn [lloyd]; [eauto|].
  destruct (C28_iteration asserts nf X C HX HC Hne Ha) as (D & ls & E & L & HR & _). rewrite E. cbn [bind].
  destruct (Rltb _ tol); [eauto|]. apply IH; [assumption|destruct D; [destruct C; [congruence|discriminate]|discriminate]|now symmetry].
Qed.
Print Assumptions C28_defined.
Lemma pair_rows : rows 1 [[0];[2]].
Proof. intros r [<-|[<-|[]]]; reflexivity. Qed.
Lemma start_rows : rows 1 [[0]].
Proof. intros r [<-|[]]; reflexivity. Qed.
Example C28_defined_case := C28_defined false 1 [[0];[2]] (1/100) 300 [[0]] pair_rows start_rows ltac:(discriminate) (or_introl eq_refl).
(** The run of this case, and the theorems above about it. *)
Example C28_run_case : exists C', lloyd false 1 1 (1/100) [[0];[2]] 300 [[0]] = Ok C' /\ objective [[0];[2]] C' <= objective [[0];[2]] [[0]].
Proof.
  destruct C28_defined_case as (C' & E). exists C'. split; [exact E|].
  exact (proj1 (C28_run false 1 _ _ _ [[0]] C' pair_rows start_rows ltac:(discriminate) E)).
Qed.

(** How much an iteration gains: at least the square of the total movement, divided by the number of centroids. *)
Theorem C28_gain :
  forall asserts nf X C C' eps, rows nf X -> rows nf C -> C <> [] ->
    iteration asserts nf (length C) X C = Ok (C', eps) ->
    0 <= eps /\ objective X C' + eps ^ 2 / INR (length C) <= objective X C.
Proof.
  intros asserts nf X C C' eps HX HC Hne E. pose proof (label_of_spec HX HC Hne) as HL.
  assert (HK : 0 < INR (length C)) by (apply lt_0_INR; destruct C; [congruence|simpl; lia]).
  destruct X as [|x0 X0] eqn:EX.
  - unfold iteration, assign in E. cbn [length seq foldM bind] in E. injection E as <- <-. split; [lra|]. unfold objective. cbn. unfold Rdiv. rewrite Rmult_0_l, Rmult_0_l. lra.
  - rewrite <- EX in *. assert (Ha : asserts = false \/ nf = 1%nat).
    { destruct asserts; [|now left]. right. destruct (Nat.eq_dec nf 1) as [?|Hn]; [assumption|]. exfalso.
      rewrite (iteration_UB (label_of C) HX HC HL Hn) in E; [discriminate|subst; discriminate]. }
    destruct (iteration_spec (label_of C) HX HC HL Ha) as (C2 & E2 & EL & HN). rewrite E2 in E. injection E as <- <-.
    pose proof (objective_decrease (label_of C) HX HC HL C2 EL HN) as H.
    assert (Es : total (map2 (fun c c' => sqrt (sqdist c c')) C C2) = total (map (fun k => sqrt (sqdist (nth k C2 []) (nth k C []))) (seq 0 (length C)))).
    { clear - EL. rewrite <- EL. revert C EL. induction C2 as [|c C2 IH]; intros [|d C] EL; try discriminate; [reflexivity|]. cbn [map2 total length seq map nth].
      rewrite <- seq_shift, map_map. cbn [nth]. unfold total; cbn [fold_right]; fold (total (map2 (fun c c0 : list R => sqrt (sqdist c c0)) C C2)). rewrite IH by (cbn in EL; lia). now rewrite sqdist_sym. }
    rewrite Es. split; [apply total_nonneg; intros; apply sqrt_pos|].
    set (D := fun k => sqdist (nth k C2 []) (nth k C [])) in *.
    assert (H1 : total (map D (seq 0 (length C))) <= total (map (fun k => INR (length (filter (fun x => (label_of C x =? k)%nat) X)) * D k) (seq 0 (length C)))).
    { apply total_le. intros k Hk. apply in_seq in Hk. assert (P : 0 <= D k) by apply sqdist_nonneg.
      destruct (filter (fun x => (label_of C x =? k)%nat) X) as [|y l] eqn:Ef.
      - assert (Z : D k = 0). { specialize (HN k). rewrite (nth_error_nth' C []), (nth_error_nth' C2 []) in HN by lia. cbn in HN. injection HN as HN. unfold D. rewrite HN. unfold moved. rewrite Ef. apply sqdist_refl. }
        rewrite Z. lra.
      - cbn [length]. rewrite S_INR. pose proof (pos_INR (length l)). nra. }
    assert (H2 : (total (map (fun k => sqrt (D k)) (seq 0 (length C)))) ^ 2 <= INR (length C) * total (map D (seq 0 (length C)))).
    { rewrite <- (seq_length (length C) 0) at 2. generalize (seq 0 (length C)). intro l. assert (P : forall k, 0 <= D k) by (intro; apply sqdist_nonneg). clear - P.
      assert (Q : forall l, 0 <= total (map D l)) by (intro; apply total_nonneg; auto).
      induction l as [|k l IH]; [cbn; lra|]. cbn [map length]. assert (TC : forall a m, total (a :: m) = a + total m) by reflexivity. rewrite !TC. rewrite S_INR. set (s := total (map (fun k => sqrt (D k)) l)) in *. set (t := total (map D l)) in *. set (n := INR (length l)) in *.
      pose proof (pos_INR (length l)) as Pn. fold n in Pn. pose proof (Q l) as Pt. fold t in Pt.
      pose proof (sqrt_sqrt (D k) (P k)) as Sq. pose proof (sqrt_pos (D k)) as Sp. set (r := sqrt (D k)) in *. rewrite <- Sq.
      (* 2 r s <= n r^2 + t *)
      assert (2 * r * s <= n * (r * r) + t).
      { destruct (Req_dec n 0) as [Z|Z].
        - assert (s ^ 2 <= 0) by (rewrite Z in IH; lra). assert (s = 0) by nra. nra.
        - assert (0 < n) by lra. assert (S2 : s ^ 2 / n <= t). { apply (Rmult_le_reg_l n); [lra|]. replace (n * (s ^ 2 / n)) with (s ^ 2) by (field; lra). exact IH. }
          assert (0 <= n * (r - s / n) ^ 2) by (apply Rmult_le_pos; [lra|apply pow2_ge_0]).
          replace (n * (r - s / n) ^ 2) with (n * (r * r) - 2 * r * s + s ^ 2 / n) in H0 by (field; lra). lra. }
      nra. }
    apply Rle_trans with (objective X C2 + total (map D (seq 0 (length C)))); [|eapply Rle_trans; [apply Rplus_le_compat_l; exact H1|exact H]].
    apply Rplus_le_compat_l. apply (Rmult_le_reg_l (INR (length C))); [lra|]. unfold Rdiv. rewrite (Rmult_comm (_ ^ 2)), <- Rmult_assoc, Rinv_r, Rmult_1_l by lra. exact H2.
Qed.
Print Assumptions C28_gain.

(** Therefore the tolerance is reached: with a positive tolerance and at least K * (initial objective) / tol^2 + 1 iterations allowed, the run ends with
    an iteration that moved the centroids by less than the tolerance, in total. *)
Theorem C28_converges :
  forall asserts nf X tol max_iter C C', rows nf X -> rows nf C -> C <> [] -> 0 < tol ->
    INR (length C) * objective X C / tol ^ 2 < INR max_iter ->
    lloyd asserts nf (length C) tol X max_iter C = Ok C' ->
    exists A eps, iteration asserts nf (length C) X A = Ok (C', eps) /\ 0 <= eps < tol.
Proof.
  intros asserts nf X tol max_iter C C' HX HC Hne Ht HB E.
  assert (G : forall m D, length D = length C -> rows nf D -> INR (length C) * objective X D / tol ^ 2 < INR m -> lloyd asserts nf (length C) tol X m D = Ok C' ->
    exists A eps, iteration asserts nf (length C) X A = Ok (C', eps) /\ 0 <= eps < tol).
  { assert (HK : 0 < INR (length C)) by (apply lt_0_INR; destruct C; [congruence|simpl; lia]).
    assert (T2 : 0 < tol ^ 2) by (apply pow_lt; lra).
    induction m as [|m IH]; intros D HL HD B Er.
    - exfalso. assert (0 <= objective X D) by (apply total_nonneg; intros; apply cost_nonneg). cbn [INR] in B.
      assert (0 <= INR (length C) * objective X D / tol ^ 2) by (apply Rmult_le_pos; [apply Rmult_le_pos; lra|left; now apply Rinv_0_lt_compat]). lra.
    - cbn [lloyd] in Er. destruct (iteration asserts nf (length C) X D) as [[D' eps]| | |] eqn:Ei; cbn [bind] in Er; try discriminate.
      assert (HDne : D <> []) by (destruct D; [destruct C; [congruence|discriminate]|discriminate]).
      pose proof Ei as Ei'. rewrite <- HL in Ei'. destruct (C28_gain _ _ _ _ _ _ HX HD HDne Ei') as [P Gn].
      destruct (Rltb eps tol) eqn:Eb.
      + injection Er as <-. apply Rltb_true in Eb. exists D, eps. auto.
      + assert (Eb' : tol <= eps) by (apply Rnot_lt_le; intro H; apply Rltb_true in H; congruence).
        assert (R1 : lloyd asserts nf (length D) tol X 1 D = Ok D'). { cbn [lloyd]. rewrite Ei'. cbn [bind]. now rewrite Eb. }
        destruct (C28_run _ _ _ _ _ _ _ HX HD HDne R1) as (_ & L' & R' & _).
        apply (IH D'); [congruence|exact R'| |exact Er]. rewrite HL in Gn. rewrite S_INR in B.
        assert (Q : tol ^ 2 <= eps ^ 2) by (apply pow_incr; lra).
        assert (Q2 : INR (length C) * objective X D' / tol ^ 2 + 1 <= INR (length C) * objective X D / tol ^ 2).
        { apply (Rmult_le_reg_l (tol ^ 2)); [exact T2|]. replace (tol ^ 2 * (INR (length C) * objective X D' / tol ^ 2 + 1)) with (INR (length C) * objective X D' + tol ^ 2) by (field; lra).
          replace (tol ^ 2 * (INR (length C) * objective X D / tol ^ 2)) with (INR (length C) * objective X D) by (field; lra).
          apply (Rmult_le_compat_l (INR (length C))) in Gn; [|lra]. rewrite Rmult_plus_distr_l in Gn. replace (INR (length C) * (eps ^ 2 / INR (length C))) with (eps ^ 2) in Gn by (field; lra). lra. }
        lra. }
  exact (G max_iter C eq_refl HC HB E).
Qed.
Print Assumptions C28_converges.
(** With a tolerance of zero or less the run never stops early, even when no centroid moves any more. *)
Theorem C28_no_tolerance :
  forall asserts nf X tol max_iter C, rows nf X -> rows nf C -> C <> [] -> asserts = false \/ nf = 1%nat -> tol <= 0 ->
    exists C', lloyd asserts nf (length C) tol X max_iter C = Ok C' /\
      chain (fun A B => exists eps, iteration asserts nf (length C) X A = Ok (B, eps)) max_iter C C'.
Proof.
  intros asserts nf X tol max_iter C HX HC Hne Ha Ht.
  assert (G : forall m n D, length D = length C -> rows nf D -> chain (fun A B => exists eps, iteration asserts nf (length C) X A = Ok (B, eps)) n C D ->
    exists C', lloyd asserts nf (length C) tol X m D = Ok C' /\ chain (fun A B => exists eps, iteration asserts nf (length C) X A = Ok (B, eps)) (n + m) C C').
  { induction m as [|m IH]; intros n D HL HD Hch; cbn [lloyd]; [exists D; rewrite Nat.add_0_r; auto|].
    assert (HDne : D <> []) by (destruct D; [destruct C; [congruence|discriminate]|discriminate]).
    destruct (C28_iteration asserts nf X D HX HD HDne Ha) as (D' & ls & Ei & L' & R' & _). rewrite HL in Ei. pose proof Ei as Ei2. rewrite <- HL in Ei2.
    destruct (C28_gain _ _ _ _ _ _ HX HD HDne Ei2) as [P _]. rewrite Ei; cbn [bind].
    destruct (Rltb _ tol) eqn:Eb; [apply Rltb_true in Eb; lra|]. rewrite <- Nat.add_succ_comm. apply IH; [congruence|auto|]. econstructor; [exact Hch|eauto]. }
  exact (G max_iter 0%nat C eq_refl HC (chain_0 _ _)).
Qed.
Print Assumptions C28_no_tolerance.
Example C28_no_tolerance_case := C28_no_tolerance false 1 [[0];[2]] 0 300 [[0]] pair_rows start_rows ltac:(discriminate) (or_introl eq_refl) ltac:(lra).

(** With Eigen's assertions compiled in, the first iteration fails for every data set with more
    than one feature: the row of a centroid is assigned a column. *)
Theorem C28_assertion_refuted :
  forall nf X tol max_iter C, rows nf X -> rows nf C -> C <> [] -> X <> [] -> nf <> 1%nat -> (0 < max_iter)%nat ->
    lloyd true nf (length C) tol X max_iter C = UB.
Proof.
  intros nf X tol max_iter C HX HC Hne HXne Hnf Hm. destruct max_iter as [|m]; [lia|]. cbn [lloyd].
  rewrite (iteration_UB (label_of C) HX HC (label_of_spec HX HC Hne) Hnf HXne). reflexivity.
Qed.
Print Assumptions C28_assertion_refuted.

(** A case in which a centroid moves. *)
Example C28_case : exists C' eps, iteration false 1 1 [[0];[2]] [[0]] = Ok (C', eps) /\ C' = [[1]] /\ objective [[0];[2]] C' < objective [[0];[2]] [[0]].
Proof.
  assert (H1 : rows 1 [[0];[2]]) by (intros r [<-|[<-|[]]]; reflexivity).
  assert (H2 : rows 1 [[0]]) by (intros r [<-|[]]; reflexivity).
  destruct (C28_iteration false 1 [[0];[2]] [[0]] H1 H2) as (C' & ls & E & L & HR & F & M); [discriminate|now left|].
  exists C'. eexists. split; [exact E|].
  inversion F as [|? k1 ? l1 F1 H3]; subst. inversion H3 as [|? k2 ? l2 F2 H4]; subst. inversion H4; subst.
  assert (K : forall x k, first_nearest [[0]] x k -> k = 0%nat).
  { intros x k (c & Ec & _). destruct k as [|[|k]]; [reflexivity|discriminate|discriminate]. }
  rewrite (K _ _ F1), (K _ _ F2) in M. destruct C' as [|c' [|? ?]]; try discriminate.
  specialize (M 0%nat [0] c' eq_refl eq_refl). simpl in M. destruct M as [(M & _)|(_ & Hl & M)]; [discriminate|].
  destruct c' as [|v [|? ?]]; try discriminate. specialize (M 0%nat v eq_refl). simpl in M.
  assert (Hv : v = 1) by lra. clear M. rewrite Hv. split; [reflexivity|]. unfold objective. simpl. lra.
Qed.

(** * C29: initialisation *)

(** k-means++ over any draws in [0,1]: the first centre is the drawn row; every further centre is a
    row of the data, drawn by one of the numbers of its round, and no other draw of that round
    would have given a smaller objective. *)
Theorem C29_plusplus :
  forall nf X first draws x0, rows nf X -> nth_error X first = Some x0 ->
    (forall rs, In rs draws -> rs <> [] /\ forall r, In r rs -> 0 <= r <= 1) ->
    objective X [x0] < dbl_max ->
    exists Cs, kmeans_plusplus X first draws = Ok (x0 :: Cs) /\ length Cs = length draws /\
      forall m c rs, nth_error Cs m = Some c -> nth_error draws m = Some rs ->
        let before := x0 :: firstn m Cs in
        (exists r k, In r rs /\ drawn X before r k /\ nth_error X k = Some c) /\
        forall r k x, In r rs -> drawn X before r k -> nth_error X k = Some x ->
          objective X (before ++ [c]) <= objective X (before ++ [x]).
Proof.
  intros nf X first draws x0 HX E0 Hd Hmax.
  assert (HXne : X <> []) by (destruct X; [destruct first; discriminate|discriminate]).
  destruct (@more_centres_spec nf X HX HXne draws [x0]) as (Cs & E & L & H); [discriminate|assumption|assumption|].
  exists Cs. split; [|split; [assumption|]].
  - unfold kmeans_plusplus, vget. rewrite E0. cbn [bind].
    rewrite (sq_dists_spec x0 HX) by (apply HX; eapply nth_error_In; exact E0). cbn [bind].
    rewrite Impurity_Proofs.Rsum_total. cbn in E. unfold objective in E. cbn [cost nearest_cost] in E.
    rewrite (map_ext (fun x => sqdist x x0) (cost [x0])) by reflexivity. unfold objective in E.
    match goal with |- context [more_centres X draws ?a ?b] => change (more_centres X draws a b) with (more_centres X draws (map (cost [x0]) X) (objective X [x0])) end.
    change (more_centres X draws (map (cost [x0]) X) (objective X [x0]) = Ok Cs) in E. rewrite E. reflexivity.
  - intros m c rs H1 H2. exact (H m c rs H1 H2).
Qed.
Print Assumptions C29_plusplus.

(** The potential never increases as centres are added, and all centres are rows of the data. *)
Theorem C29_potential :
  forall nf X first draws x0 Cs, rows nf X -> nth_error X first = Some x0 ->
    (forall rs, In rs draws -> rs <> [] /\ forall r, In r rs -> 0 <= r <= 1) -> objective X [x0] < dbl_max ->
    kmeans_plusplus X first draws = Ok Cs ->
    length Cs = S (length draws) /\ (forall c, In c Cs -> In c X) /\
    forall m, (0 < m)%nat -> objective X (firstn (S m) Cs) <= objective X (firstn m Cs).
Proof.
  intros nf X first draws x0 Cs HX E0 Hd Hmax E.
  destruct (C29_plusplus nf X first draws x0 HX E0 Hd Hmax) as (Cs' & E' & L & H). rewrite E' in E. injection E as <-.
  split; [simpl; lia|]. split.
  - intros c [<-|Hc]; [eapply nth_error_In; exact E0|]. apply In_nth_error in Hc. destruct Hc as (m & Hm).
    destruct (nth_error draws m) as [rs|] eqn:Er.
    + destruct (H m c rs Hm Er) as ((r & k & _ & _ & Hk) & _). eapply nth_error_In. exact Hk.
    + apply nth_error_None in Er. assert (m < length Cs')%nat by (apply nth_error_Some; congruence). lia.
  - intros [|m] Hm; [lia|]. change (firstn (S (S m)) (x0 :: Cs')) with (x0 :: firstn (S m) Cs'). change (firstn (S m) (x0 :: Cs')) with (x0 :: firstn m Cs').
    destruct (nth_error Cs' m) as [c|] eqn:Ec.
    + rewrite (firstn_S Cs' m Ec). apply (objective_app X c (C := x0 :: firstn m Cs')). discriminate.
    + apply nth_error_None in Ec. rewrite !firstn_all2 by lia. right. reflexivity.
Qed.
Print Assumptions C29_potential.

(** With draws in (0,1], a centre never repeats an earlier one as long as some sample is not a
    centre yet. *)
Theorem C29_distinct :
  forall nf X first draws x0 Cs, rows nf X -> nth_error X first = Some x0 ->
    (forall rs, In rs draws -> rs <> [] /\ forall r, In r rs -> 0 < r <= 1) -> objective X [x0] < dbl_max ->
    kmeans_plusplus X first draws = Ok Cs ->
    forall m c, (0 < m)%nat -> nth_error Cs m = Some c -> 0 < objective X (firstn m Cs) -> ~ In c (firstn m Cs).
Proof.
  intros nf X first draws x0 Cs HX E0 Hd Hmax E [|m] c Hm Hc Ho; [lia|].
  destruct (C29_plusplus nf X first draws x0 HX E0) as (Cs' & E' & L & H); [|assumption|].
  { intros rs Hrs. destruct (Hd rs Hrs) as (A & B). split; [assumption|]. intros r Hr. specialize (B r Hr). lra. }
  rewrite E' in E. injection E as <-. simpl in Hc. change (firstn (S m) (x0 :: Cs')) with (x0 :: firstn m Cs') in *.
  destruct (nth_error draws m) as [rs|] eqn:Er.
  2: { apply nth_error_None in Er. assert (m < length Cs')%nat by (apply nth_error_Some; congruence). lia. }
  destruct (H m c rs Hc Er) as ((r & k & Hr & Hk & Ek) & _). destruct (Hd rs (nth_error_In _ _ Er)) as (_ & Hr'). specialize (Hr' r Hr).
  pose proof (drawn_positive Hk (proj1 Hr') Ho Ek) as Hpos. intros Hin.
  pose proof (@cost_le (x0 :: firstn m Cs') c c Hin) as Hle. rewrite sqdist_refl in Hle. lra.
Qed.
Print Assumptions C29_distinct.

(** But the generator may return 0, and the draw 0 always selects the first row, also when it is a
    centre already and the other rows are not. *)
Theorem C29_zero_draw_refuted :
  exists X draws, kmeans_plusplus X 0 draws = Ok [[0];[0]] /\ In [1] X /\ forall rs, In rs draws -> length rs = 2%nat /\ forall r, In r rs -> r = 0.
Proof.
  exists [[0];[1]], [[0;0]]. split; [|split; [simpl; auto|intros rs [<-|[]]; split; [reflexivity|intros r [<-|[<-|[]]]; reflexivity]]].
  destruct (C29_plusplus 1 [[0];[1]] 0 [[0;0]] [0]) as (Cs & E & L & H).
  - intros r [<-|[<-|[]]]; reflexivity.
  - reflexivity.
  - intros rs [<-|[]]. split; [discriminate|]. intros r [<-|[<-|[]]]; lra.
  - unfold objective. simpl.
    assert (1 < dbl_max); [|lra]. unfold dbl_max. assert (2 ^ 1 < 2 ^ 1023) by (apply Rlt_pow; [lra|apply Nat.ltb_lt; reflexivity]).
    assert (/ 2 ^ 52 < / 2 ^ 0) by (apply Rinv_lt_contravar; [apply Rmult_lt_0_compat; apply pow_lt; lra|apply Rlt_pow; [lra|apply Nat.ltb_lt; reflexivity]]).
    rewrite pow_1 in *. simpl (2 ^ 0) in *. rewrite Rinv_1 in *. nra.
  - rewrite E. destruct Cs as [|c [|? ?]]; try discriminate. do 2 f_equal. f_equal.
    destruct (H 0%nat c [0;0] eq_refl eq_refl) as ((r & k & Hr & (Hk & _ & Hj) & Ec) & _).
    assert (r = 0) by (destruct Hr as [<-|[<-|[]]]; reflexivity). subst r. destruct k as [|k]; [simpl in Ec; congruence|].
    specialize (Hj 0%nat (Nat.lt_0_succ k)). rewrite Rmult_0_l in Hj. simpl in Hj. lra.
Qed.
Print Assumptions C29_zero_draw_refuted.

(** Initialisation "random": rows at different positions, if there are enough rows. *)
Theorem C29_random :
  forall K X perm, Permutation perm (seq 0 (length X)) ->
    ((K <= length X)%nat -> exists C idx, init_centroid K X (InitRandom perm) = Ok C /\ length C = K /\ NoDup idx /\
        Forall2 (fun i c => nth_error X i = Some c) idx C) /\
    ((length X < K)%nat -> init_centroid K X (InitRandom perm) = UB).
Proof.
  intros K X perm HP. pose proof (Permutation_length HP) as HL. rewrite seq_length in HL.
  assert (ND : NoDup perm) by (eapply Permutation_NoDup; [symmetry; exact HP|apply seq_NoDup]).
  unfold init_centroid. split; intros HK.
  - destruct (Nat.leb_spec K (length perm)); [|lia].
    assert (Hin : forall i, In i (firstn K perm) -> (i < length X)%nat).
    { intros i Hi. assert (In i perm) by (rewrite <- (firstn_skipn K perm); apply in_app_iff; now left).
      apply (Permutation_in _ HP), in_seq in H0. lia. }
    rewrite (mapM_Ok _ (fun i => nth i X [])) by (intros i Hi; apply vget_Ok; auto).
    eexists. exists (firstn K perm). split; [reflexivity|]. split; [rewrite map_length, firstn_length; lia|]. split.
    + rewrite <- (firstn_skipn K perm) in ND. exact (NoDup_app_l _ _ ND).
    + revert Hin. generalize (firstn K perm). intros l Hin. induction l as [|i l IH]; constructor.
      * apply nth_error_nth'. apply Hin. now left.
      * apply IH. intros; apply Hin; now right.
  - destruct (Nat.leb_spec K (length perm)); [lia|reflexivity].
Qed.
Print Assumptions C29_random.
Example C29_random_case := proj1 (C29_random 2 [[0];[2];[5]] [1;2;0]%nat ltac:(cbn; apply perm_trans with [1;0;2]%nat; [apply perm_skip, perm_swap|apply perm_swap])) ltac:(cbn; lia).

(** Any other initialisation name leaves the centroids uninitialised. *)
Theorem C29_other_init_refuted :
  forall asserts nf K tol max_iter X, kmeans_fit asserts nf K tol max_iter InitOther X = UB.
Proof. reflexivity. Qed.
Print Assumptions C29_other_init_refuted.

Example C28_monotone_case : exists C' eps, iteration false 1 1 [[0];[2]] [[0]] = Ok (C', eps) /\
  objective [[0];[2]] C' <= objective [[0];[2]] [[0]] /\ objective [[0];[2]] C' + eps ^ 2 / INR 1 <= objective [[0];[2]] [[0]].
Proof.
  destruct C28_case as (C' & eps & E & _). exists C', eps. split; [exact E|]. split.
  - exact (proj1 (C28_monotone false 1 [[0];[2]] [[0]] C' eps pair_rows start_rows ltac:(discriminate) E)).
  - exact (proj2 (C28_gain false 1 [[0];[2]] [[0]] C' eps pair_rows start_rows ltac:(discriminate) E)).
Qed.
Example C28_converges_case : exists C' A eps, lloyd false 1 1 1 [[0];[2]] 5 [[0]] = Ok C' /\ iteration false 1 1 [[0];[2]] A = Ok (C', eps) /\ 0 <= eps < 1.
Proof.
  destruct (C28_defined false 1 [[0];[2]] 1 5 [[0]] pair_rows start_rows ltac:(discriminate) (or_introl eq_refl)) as (C' & E).
  destruct (C28_converges false 1 [[0];[2]] 1 5 [[0]] C' pair_rows start_rows ltac:(discriminate) ltac:(lra) ltac:(unfold objective; cbn; lra) E) as (A & eps & H).
  exists C', A, eps. split; [exact E|exact H].
Qed.
(** Seeding three points of a line: one more center, two trials. *)
Lemma seeds_ok : forall rs, In rs [[1/4; 3/4]] -> rs <> [] /\ forall r, In r rs -> 0 < r <= 1.
Proof. intros rs [<-|[]]. split; [discriminate|]. intros r [<-|[<-|[]]]; lra. Qed.
Lemma seeds_fit : objective [[0];[2];[5]] [[0]] < dbl_max.
Proof.
  unfold objective, dbl_max. cbn [map cost total fold_right sqdist]. apply Rlt_le_trans with (1 * 2 ^ 6); [cbn; lra|].
  apply Rmult_le_compat; [lra|apply pow_le; lra| |apply Rle_pow; [lra|lia]].
  assert (/ 2 ^ 52 <= / 2 ^ 1) by (apply Rinv_le_contravar; [lra|apply Rle_pow; [lra|lia]]). lra.
Qed.
Example C29_case : exists c, kmeans_plusplus [[0];[2];[5]] 0 [[1/4; 3/4]] = Ok [[0]; c] /\ In c [[0];[2];[5]] /\ c <> [0] /\
  objective [[0];[2];[5]] [[0]; c] <= objective [[0];[2];[5]] [[0]].
Proof.
  assert (HR : rows 1 [[0];[2];[5]]) by (intros r [<-|[<-|[<-|[]]]]; reflexivity).
  assert (W : forall rs, In rs [[1/4; 3/4]] -> rs <> [] /\ forall r, In r rs -> 0 <= r <= 1).
  { intros rs H. destruct (seeds_ok rs H) as (A & B). split; [exact A|]. intros r Hr. specialize (B r Hr). lra. }
  destruct (C29_plusplus 1 [[0];[2];[5]] 0 [[1/4; 3/4]] [0] HR eq_refl W seeds_fit) as (Cs & E & L & _).
  destruct Cs as [|c [|]]; try discriminate. exists c. split; [exact E|].
  destruct (C29_potential 1 [[0];[2];[5]] 0 [[1/4; 3/4]] [0] _ HR eq_refl W seeds_fit E) as (_ & I & M).
  split; [apply I; right; now left|]. split; [|exact (M 1%nat ltac:(lia))].
  pose proof (C29_distinct 1 [[0];[2];[5]] 0 [[1/4; 3/4]] [0] _ HR eq_refl seeds_ok seeds_fit E 1%nat c ltac:(lia) eq_refl) as D.
  intros ->. apply D; [unfold objective; cbn; lra|now left].
Qed.
