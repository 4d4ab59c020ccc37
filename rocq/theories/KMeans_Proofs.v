From Coq Require Import Reals Lra.
From Verif Require Import Base Sorting Common_Model RDR_Proofs KDReal_Proofs Impurity_Model Impurity_Spec Impurity_Proofs Vec
  KMeans_Model KMeans_Spec.
Local Open Scope R_scope.
Set Implicit Arguments.

Lemma sqdist_sqn u v : sqdist u v = sqn (vsub u v).
Proof. revert v. induction u as [|a u IH]; intros [|b v]; try reflexivity. simpl. rewrite IH. unfold sqn, vsub. simpl map2. rewrite dot_cons. ring. Qed.
Lemma sqdist_sym u v : sqdist u v = sqdist v u.
Proof. revert v. induction u as [|a u IH]; intros [|b v]; try reflexivity. simpl. rewrite IH. ring. Qed.
Lemma sqdist_nonneg u v : 0 <= sqdist u v.
Proof. rewrite sqdist_sqn. apply sqn_nonneg. Qed.
Lemma sqdist_refl u : sqdist u u = 0.
Proof. induction u as [|a u IH]; simpl; [reflexivity|]. rewrite IH. ring. Qed.
Lemma sqdist_zero u v : length u = length v -> sqdist u v = 0 -> u = v.
Proof. intros H. rewrite sqdist_sqn. now apply vsub_self_zero. Qed.
Lemma norm_sqdist u v : norm (vsub u v) = sqrt (sqdist u v).
Proof. unfold norm. now rewrite Rsum_total, <- sqn_sum, sqdist_sqn. Qed.
Lemma sqrt_lt_iff a b : 0 <= a -> 0 <= b -> (sqrt a < sqrt b <-> a < b).
Proof.
  intros Ha Hb. split; [|apply sqrt_lt_1; assumption]. intros H. apply Rnot_le_lt. intros H1. apply sqrt_le_1 in H1; [lra|assumption|assumption].
Qed.

(** * Assignment *)
Lemma closest_loop nf C x n : rows nf C -> length x = nf -> (1 <= n <= length C)%nat ->
  exists k c, foldM (closest_step C x) (seq 0 n) (None, 0%nat) = Ok (Some (sqrt (sqdist x c)), k) /\
    (k < n)%nat /\ nth_error C k = Some c /\
    forall j d, (j < n)%nat -> nth_error C j = Some d -> sqdist x c <= sqdist x d /\ ((j < k)%nat -> sqdist x c < sqdist x d).
Proof.
  intros HC Hx Hn. induction n as [|n IH]; [lia|].
  assert (Hrow : forall j, (j < length C)%nat -> exists d, nth_error C j = Some d /\ forall s,
    closest_step C x s j = Ok (if below (sqrt (sqdist x d)) (fst s) then (Some (sqrt (sqdist x d)), j) else s)).
  { intros j Hj. destruct (nth_error C j) as [d|] eqn:E; [|apply nth_error_None in E; lia]. exists d. split; [reflexivity|]. intros s.
    unfold closest_step, vget. rewrite E. cbn [bind]. unfold row_sub. rewrite Hx, (HC d) by (eapply nth_error_In; exact E).
    rewrite Nat.eqb_refl. cbn [bind]. now rewrite norm_sqdist. }
  rewrite seq_S, foldM_app. cbn [plus]. destruct (Hrow n) as (d & Ed & Hd); [lia|].
  destruct n as [|n].
  - cbn [seq foldM bind]. rewrite Hd. cbn [fst below bind]. exists 0%nat, d. split; [reflexivity|]. split; [lia|]. split; [assumption|].
    intros j e Hj He. assert (j = 0%nat) by lia. subst j. rewrite Ed in He. injection He as <-. split; [lra|lia].
  - destruct IH as (k & c & E & Hk & Ec & Hmin); [lia|]. rewrite E. cbn [bind foldM]. rewrite Hd. cbn [fst below bind].
    destruct (Rltb (sqrt (sqdist x d)) (sqrt (sqdist x c))) eqn:Eb.
    + apply Rltb_true in Eb. apply (proj1 (sqrt_lt_iff (sqdist_nonneg x d) (sqdist_nonneg x c))) in Eb. exists (S n), d. split; [reflexivity|]. split; [lia|]. split; [assumption|].
      intros j e Hj He. destruct (Nat.eq_dec j (S n)) as [->|Hne].
      * rewrite Ed in He. injection He as <-. split; [lra|lia].
      * destruct (Hmin j e ltac:(lia) He) as (H1 & _). split; [lra|intros _; lra].
    + apply Rltb_false in Eb. assert (Hle : sqdist x c <= sqdist x d).
      { apply Rnot_lt_le. intros H. apply (proj2 (sqrt_lt_iff (sqdist_nonneg x d) (sqdist_nonneg x c))) in H. lra. }
      exists k, c. split; [reflexivity|]. split; [lia|]. split; [assumption|].
      intros j e Hj He. destruct (Nat.eq_dec j (S n)) as [->|Hne].
      * rewrite Ed in He. injection He as <-. split; [lra|lia].
      * apply Hmin; [lia|assumption].
Qed.

Lemma closest_spec nf C x : rows nf C -> length x = nf -> C <> [] ->
  exists k, closest (length C) C x = Ok k /\ first_nearest C x k.
Proof.
  intros HC Hx Hne. destruct (@closest_loop nf C x (length C) HC Hx) as (k & c & E & Hk & Ec & Hmin).
  { destruct C; [congruence|simpl; lia]. }
  exists k. unfold closest. rewrite E. cbn [bind snd]. split; [reflexivity|]. exists c. split; [assumption|].
  intros j d Hd. apply Hmin; [|assumption]. apply nth_error_Some. congruence.
Qed.

(** * Costs *)
Lemma nearest_cost_le x C : forall c d, In d (c :: C) -> nearest_cost x c C <= sqdist x d.
Proof.
  induction C as [|e C IH]; intros c d; [intros [<- |[]]; simpl; lra|]. intros [<-|Hin]; cbn [nearest_cost].
  - apply Rmin_l.
  - eapply Rle_trans; [apply Rmin_r|]. now apply IH.
Qed.
Lemma nearest_cost_ex x C : forall c, exists d, In d (c :: C) /\ nearest_cost x c C = sqdist x d.
Proof.
  induction C as [|e C IH]; intros c; [exists c; split; [now left|reflexivity]|]. cbn [nearest_cost].
  destruct (IH e) as (d & H1 & H2). unfold Rmin. destruct (Rle_dec _ _).
  - exists c. split; [now left|reflexivity].
  - exists d. split; [now right|assumption].
Qed.
Lemma cost_le C x d : In d C -> cost C x <= sqdist x d.
Proof. destruct C as [|c C]; [intros []|]. apply nearest_cost_le. Qed.
Lemma cost_ex C x : C <> [] -> exists d, In d C /\ cost C x = sqdist x d.
Proof. destruct C as [|c C]; [congruence|]. intros _. apply nearest_cost_ex. Qed.
Lemma cost_nonneg C x : 0 <= cost C x.
Proof. destruct C as [|c C]; [simpl; lra|]. destruct (@cost_ex (c :: C) x) as (d & _ & ->); [discriminate|]. apply sqdist_nonneg. Qed.
Lemma cost_nearest C x k c : first_nearest C x k -> nth_error C k = Some c -> cost C x = sqdist x c.
Proof.
  intros (c' & E & H) E'. rewrite E in E'. injection E' as ->. apply Rle_antisym.
  - apply cost_le. eapply nth_error_In. exact E.
  - destruct (@cost_ex C x) as (d & Hd & ->); [destruct C; [destruct k; discriminate|discriminate]|].
    apply In_nth_error in Hd. destruct Hd as (j & Hj). apply (H j d Hj).
Qed.
Lemma cost_app C1 C2 x : C1 <> [] -> C2 <> [] -> cost (C1 ++ C2) x = Rmin (cost C1 x) (cost C2 x).
Proof.
  intros N1 N2. destruct (@cost_ex C1 x N1) as (d1 & D1 & E1). destruct (@cost_ex C2 x N2) as (d2 & D2 & E2).
  destruct (@cost_ex (C1 ++ C2) x) as (d & D & E); [destruct C1; [congruence|discriminate]|].
  apply Rle_antisym.
  - apply Rmin_glb; rewrite ?E1, ?E2; apply cost_le, in_app_iff; auto.
  - rewrite E. apply in_app_iff in D. destruct D as [D|D]; [eapply Rle_trans; [apply Rmin_l|]|eapply Rle_trans; [apply Rmin_r|]]; now apply cost_le.
Qed.

(** * Grouping the samples by label *)
Section Group.
  Variable lab : list R -> nat.
  Lemma total_group (f : list R -> R) K : forall X, (forall x, In x X -> (lab x < K)%nat) ->
    total (map f X) = total (map (fun k => total (map f (filter (fun x => lab x =? k)%nat X))) (seq 0 K)).
  Proof.
    induction X as [|x X IH]; intros H.
    - simpl. rewrite total_const. lra.
    - rewrite (total_ext (fun k => total (map f (filter (fun x0 => (lab x0 =? k)%nat) (x :: X))))
                (fun k => (if (lab x =? k)%nat then f x else 0) + total (map f (filter (fun x => lab x =? k)%nat X)))).
      2: { intros k _. simpl. destruct (lab x =? k)%nat; simpl; lra. }
      rewrite total_plus, <- IH by (intros; apply H; now right). simpl. f_equal.
      assert (Hx : (lab x < K)%nat) by (apply H; now left). clear - Hx.
      assert (G : forall a n, total (map (fun k => if (lab x =? k)%nat then f x else 0) (seq a n)) =
        if ((a <=? lab x) && (lab x <? a + n))%nat then f x else 0).
      { intros a n. revert a. induction n as [|n IH]; intros a; cbn [seq map].
        - destruct (Nat.leb_spec a (lab x)), (Nat.ltb_spec (lab x) (a + 0)); try lia; reflexivity.
        - cbn [total fold_right]. fold (total (map (fun k => if (lab x =? k)%nat then f x else 0) (seq (S a) n))). rewrite IH.
          destruct (Nat.eqb_spec (lab x) a), (Nat.leb_spec (S a) (lab x)), (Nat.ltb_spec (lab x) (S a + n)),
            (Nat.leb_spec a (lab x)), (Nat.ltb_spec (lab x) (a + S n)); try lia; simpl; lra. }
      rewrite G. destruct (Nat.leb_spec 0 (lab x)), (Nat.ltb_spec (lab x) (0 + K)); try lia; reflexivity.
  Qed.
End Group.

(** * One iteration *)
Lemma mapM_app {A B} (f : A -> outcome B) l1 l2 b1 b2 : mapM f l1 = Ok b1 -> mapM f l2 = Ok b2 -> mapM f (l1 ++ l2) = Ok (b1 ++ b2).
Proof.
  revert b1. induction l1 as [|a l1 IH]; intros b1; simpl.
  - intros [= <-]. auto.
  - destruct (f a); simpl; try discriminate. destruct (mapM f l1) eqn:E; simpl; try discriminate. intros [= <-] H.
    rewrite (IH _ eq_refl H). reflexivity.
Qed.
Lemma firstn_S {A} (l : list A) n a : nth_error l n = Some a -> firstn (S n) l = firstn n l ++ [a].
Proof.
  revert n. induction l as [|b l IH]; intros [|n]; simpl; try discriminate; [now intros [= ->]|]. intros H. now rewrite <- (IH n H).
Qed.

Section Iter.
  Variables (nf : nat) (X C : list (list R)) (lab : list R -> nat).
  Hypothesis HX : rows nf X.
  Hypothesis HC : rows nf C.
  Hypothesis Hlab : forall x, In x X -> closest (length C) C x = Ok (lab x) /\ first_nearest C x (lab x).
  Notation mem k := (filter (fun x => lab x =? k)%nat X).

  Lemma assign_spec : exists m, assign (length C) C X = Ok m /\ om_sorted Nat.compare m /\
    forall k, match om_find Nat.compare k m with
              | Some is => mem k <> [] /\ mapM (vget X) is = Ok (mem k)
              | None => mem k = []
              end.
  Proof.
    unfold assign.
    assert (G : forall n, (n <= length X)%nat -> exists m,
      foldM (fun m i => let! x := vget X i in let! k := closest (length C) C x in Ok (push_sample m k i)) (seq 0 n) [] = Ok m /\
      om_sorted Nat.compare m /\
      forall k, match om_find Nat.compare k m with
              | Some is => filter (fun x => lab x =? k)%nat (firstn n X) <> [] /\ mapM (vget X) is = Ok (filter (fun x => lab x =? k)%nat (firstn n X))
              | None => filter (fun x => lab x =? k)%nat (firstn n X) = []
              end).
    { induction n as [|n IH]; intros Hn; [exists []; split; [reflexivity|]; split; [constructor|]; intros k; reflexivity|].
      destruct IH as (m & Em & Hs & Hm); [lia|]. rewrite seq_S, foldM_app, Em. cbn [bind foldM plus].
      destruct (nth_error X n) as [x|] eqn:Ex; [|apply nth_error_None in Ex; lia].
      assert (Hin : In x X) by (eapply nth_error_In; exact Ex). destruct (Hlab x Hin) as (El & _).
      assert (Ev : vget X n = Ok x) by (unfold vget; now rewrite Ex). rewrite Ev. cbn [bind]. rewrite El. cbn [bind].
      eexists. split; [reflexivity|]. unfold push_sample.
      assert (A1 : forall a b, Nat.compare a b = Eq <-> a = b) by (intros; apply Nat.compare_eq_iff).
      assert (A2 : forall a b, Nat.compare a b = CompOpp (Nat.compare b a)) by (intros; apply Nat.compare_antisym).
      assert (A3 : forall a b c, Nat.compare a b = Lt -> Nat.compare b c = Lt -> Nat.compare a c = Lt) by (intros a b c; rewrite !Nat.compare_lt_iff; lia).
      split; [apply om_set_sorted; assumption|]. intros k. rewrite (om_set_find A1 A2) by assumption.
      rewrite (firstn_S X n Ex), filter_app. cbn [filter]. destruct (Nat.compare k (lab x)) eqn:Ek.
      - apply A1 in Ek. subst k. rewrite Nat.eqb_refl. split; [destruct (filter _ (firstn n X)); discriminate|].
        specialize (Hm (lab x)). apply mapM_app.
        + destruct (om_find Nat.compare (lab x) m) as [is|]; [apply Hm|rewrite Hm; reflexivity].
        + cbn [mapM]. rewrite Ev. reflexivity.
      - specialize (Hm k). assert (lab x <> k) by (intros E; rewrite E, Nat.compare_refl in Ek; discriminate).
        apply Nat.eqb_neq in H. rewrite H, app_nil_r. exact Hm.
      - specialize (Hm k). assert (lab x <> k) by (intros E; rewrite E, Nat.compare_refl in Ek; discriminate).
        apply Nat.eqb_neq in H. rewrite H, app_nil_r. exact Hm. }
    destruct (G (length X) (le_n _)) as (m & H1 & H2 & H3). exists m. rewrite firstn_all in H3. auto.
  Qed.

  (** New centroid of cluster [k]. *)
  Definition moved (k : nat) (c : list R) : list R := match mem k with [] => c | _ => vmean nf (mem k) end.

  Lemma mem_width k : width nf (mem k).
  Proof. intros x Hx. apply filter_In in Hx. now apply HX. Qed.
  Lemma moved_length k c : length c = nf -> length (moved k c) = nf.
  Proof. intros H. unfold moved. destruct (mem k) eqn:E; [assumption|]. rewrite <- E. apply vmean_length, mem_width. Qed.

  Lemma lab_lt x : In x X -> (lab x < length C)%nat.
  Proof. intros H. destruct (Hlab x H) as (_ & c & E & _). apply nth_error_Some. congruence. Qed.

  Lemma nth_error_set_nth {A} (l : list A) i v j : (i < length l)%nat ->
    nth_error (set_nth l i v) j = if Nat.eq_dec j i then Some v else nth_error l j.
  Proof.
    revert i j. induction l as [|a l IH]; intros [|i] [|j] H; simpl in *; try lia; try reflexivity.
    rewrite IH by lia. destruct (Nat.eq_dec j i), (Nat.eq_dec (S j) (S i)); try lia; reflexivity.
  Qed.
  Lemma total_map2_set (f : list R -> list R -> R) : forall (C C1 : list (list R)) k v c c1, nth_error C k = Some c -> nth_error C1 k = Some c1 ->
    total (map2 f C (set_nth C1 k v)) = total (map2 f C C1) + f c v - f c c1.
  Proof.
    induction C0 as [|a C0 IH]; intros [|b C1] [|k] v c c1; cbn [nth_error]; try discriminate.
    - intros [= ->] [= ->]. simpl. unfold total. lra.
    - intros H1 H2. simpl. rewrite (IH C1 k v c c1 H1 H2). unfold total. lra.
  Qed.

  Lemma move_spec asserts m : (asserts = false \/ nf = 1%nat) -> om_sorted Nat.compare m ->
    (forall k is, In (k, is) m -> mem k <> [] /\ mapM (vget X) is = Ok (mem k)) ->
    forall C1 eps, length C1 = length C -> (forall k is, In (k, is) m -> nth_error C1 k = nth_error C k) ->
    eps = total (map2 (fun c c' => sqrt (sqdist c c')) C C1) ->
    exists C2, foldM (move_one asserts nf X) m (C1, eps) = Ok (C2, total (map2 (fun c c' => sqrt (sqdist c c')) C C2)) /\ length C2 = length C /\
      forall k, nth_error C2 k = if in_dec Nat.eq_dec k (map fst m) then option_map (moved k) (nth_error C k) else nth_error C1 k.
  Proof.
    intros Ha. induction m as [|[k is] m IH]; intros Hs Hm C1 eps HL HU ->.
    - exists C1. split; [reflexivity|]. split; [assumption|]. intros k. reflexivity.
    - assert (A3 : forall a b c, Nat.compare a b = Lt -> Nat.compare b c = Lt -> Nat.compare a c = Lt) by (intros a b c; rewrite !Nat.compare_lt_iff; lia).
      cbn [foldM]. destruct (Hm k is (or_introl eq_refl)) as (Hne & Em).
      assert (Hk : (k < length C)%nat).
      { destruct (mem k) as [|x l] eqn:E; [congruence|]. assert (Hx : In x (mem k)) by (rewrite E; now left).
        apply filter_In in Hx. destruct Hx as (Hx & Hx2). apply Nat.eqb_eq in Hx2. subst k. now apply lab_lt. }
      destruct (nth_error C k) as [c|] eqn:Ec; [|apply nth_error_None in Ec; lia].
      assert (Ec1 : nth_error C1 k = Some c) by (rewrite (HU k is) by (now left); assumption).
      assert (Hlc : length c = nf) by (apply HC; eapply nth_error_In; exact Ec).
      unfold move_one at 1. cbn [fst snd]. rewrite Em. cbn [bind]. unfold col_mean.
      assert (Ecm : (match mem k with [] => UB | _ => Ok (vscale (/ INR (length (mem k))) (vsum nf (mem k))) end) = Ok (vmean nf (mem k)))
        by (destruct (mem k); [congruence|reflexivity]).
      rewrite Ecm. cbn [bind]. unfold vget. rewrite Ec1. cbn [bind]. unfold row_sub. rewrite vmean_length by apply mem_width.
      rewrite Hlc, Nat.eqb_refl. cbn [bind].
      assert (Eas : asserts && negb (nf =? 1)%nat = false).
      { destruct Ha as [-> | ->]; [reflexivity|]. rewrite Nat.eqb_refl. apply andb_false_r. }
      rewrite Eas. cbn [bind].
      inversion Hs as [|? ? Hs' Hlt]; subst.
      assert (Hnk : forall k' is', In (k', is') m -> k' <> k).
      { intros k' is' Hin ->. rewrite Forall_forall in Hlt. specialize (Hlt _ Hin). simpl in Hlt. rewrite Nat.compare_refl in Hlt. discriminate. }
      destruct (IH Hs') with (C1 := set_nth C1 k (vmean nf (mem k)))
        (eps := total (map2 (fun c c' => sqrt (sqdist c c')) C C1) + norm (vsub (vmean nf (mem k)) c)) as (C2 & E2 & L2 & N2).
      + intros k' is' Hin. apply Hm. now right.
      + now rewrite set_nth_length.
      + intros k' is' Hin. rewrite nth_error_set_nth by lia. destruct (Nat.eq_dec k' k) as [->|_]; [exfalso; eapply Hnk; eauto|].
        apply (HU k' is'). now right.
      + rewrite (total_map2_set _ C C1 k _ Ec Ec1), sqdist_refl, sqrt_0, norm_sqdist, sqdist_sym. lra.
      + exists C2. split; [exact E2|]. split; [assumption|]. intros k'. rewrite N2. cbn [map fst].
        rewrite nth_error_set_nth by lia.
        destruct (in_dec Nat.eq_dec k' (map fst m)) as [I1|I1], (in_dec Nat.eq_dec k' (k :: map fst m)) as [I2|I2].
        * reflexivity.
        * exfalso. apply I2. now right.
        * destruct I2 as [<-|I2]; [|contradiction]. destruct (Nat.eq_dec k k); [|congruence]. rewrite Ec. simpl. unfold moved.
          destruct (mem k); [congruence|reflexivity].
        * destruct (Nat.eq_dec k' k) as [->|_]; [exfalso; apply I2; now left|reflexivity].
  Qed.

  Lemma iteration_spec asserts : (asserts = false \/ nf = 1%nat) ->
    exists C', iteration asserts nf (length C) X C = Ok (C', total (map2 (fun c c' => sqrt (sqdist c c')) C C')) /\ length C' = length C /\
      forall k, nth_error C' k = option_map (moved k) (nth_error C k).
  Proof.
    intros Ha. destruct assign_spec as (m & Em & Hs & Hm). unfold iteration. rewrite Em. cbn [bind].
    assert (A1 : forall a b, Nat.compare a b = Eq <-> a = b) by (intros; apply Nat.compare_eq_iff).
    assert (A2 : forall a b, Nat.compare a b = CompOpp (Nat.compare b a)) by (intros; apply Nat.compare_antisym).
    assert (A3 : forall a b c, Nat.compare a b = Lt -> Nat.compare b c = Lt -> Nat.compare a c = Lt) by (intros a b c; rewrite !Nat.compare_lt_iff; lia).
    destruct (move_spec Ha Hs) with (C1 := C) (eps := 0) as (C2 & E & L & N).
    - intros k is Hin. specialize (Hm k). rewrite (om_In_find Nat.compare A1 k is m (om_sorted_NoDup A1 Hs) Hin) in Hm. exact Hm.
    - reflexivity.
    - reflexivity.
    - symmetry. clear. induction C as [|c C0 IH]; [reflexivity|]. simpl. rewrite sqdist_refl, sqrt_0. rewrite IH. lra.
    - exists C2. split; [assumption|]. split; [assumption|]. intros k. rewrite N. destruct (in_dec Nat.eq_dec k (map fst m)) as [I|I]; [reflexivity|].
      specialize (Hm k). destruct (om_find Nat.compare k m) as [is|] eqn:E2.
      + exfalso. apply I. apply (om_find_In Nat.compare A1) in E2. change k with (fst (k, is)). now apply in_map.
      + unfold moved. rewrite Hm. now destruct (nth_error C k).
  Qed.

  (** With the shape assertion of the row assignment, more than one feature fails. *)
  Lemma iteration_UB : nf <> 1%nat -> X <> [] -> iteration true nf (length C) X C = UB.
  Proof.
    intros Hnf Hne. destruct assign_spec as (m & Em & Hs & Hm). unfold iteration. rewrite Em. cbn [bind].
    assert (A1 : forall a b, Nat.compare a b = Eq <-> a = b) by (intros; apply Nat.compare_eq_iff).
    assert (A2 : forall a b, Nat.compare a b = CompOpp (Nat.compare b a)) by (intros; apply Nat.compare_antisym).
    assert (A3 : forall a b c, Nat.compare a b = Lt -> Nat.compare b c = Lt -> Nat.compare a c = Lt) by (intros a b c; rewrite !Nat.compare_lt_iff; lia).
    destruct m as [|[k is] m].
    - exfalso. destruct X as [|x X']; [congruence|]. specialize (Hm (lab x)). simpl in Hm. rewrite Nat.eqb_refl in Hm. discriminate.
    - cbn [foldM]. pose proof (om_In_find Nat.compare A1 k is _ (om_sorted_NoDup A1 Hs) (or_introl eq_refl)) as Hf. specialize (Hm k). rewrite Hf in Hm.
      destruct Hm as (Hn & Er).
      assert (Hk : (k < length C)%nat).
      { destruct (mem k) as [|x l] eqn:E; [congruence|]. assert (Hx : In x (mem k)) by (rewrite E; now left).
        apply filter_In in Hx. destruct Hx as (Hx & Hx2). apply Nat.eqb_eq in Hx2. subst k. now apply lab_lt. }
      destruct (nth_error C k) as [c|] eqn:Ec; [|apply nth_error_None in Ec; lia].
      assert (Hlc : length c = nf) by (apply HC; eapply nth_error_In; exact Ec).
      unfold move_one. cbn [fst snd]. rewrite Er. cbn [bind]. unfold col_mean.
      assert (Ecm : (match mem k with [] => UB | _ => Ok (vscale (/ INR (length (mem k))) (vsum nf (mem k))) end) = Ok (vmean nf (mem k)))
        by (destruct (mem k); [congruence|reflexivity]).
      rewrite Ecm. cbn [bind]. unfold vget. rewrite Ec. cbn [bind]. unfold row_sub. rewrite vmean_length by apply mem_width.
      rewrite Hlc, Nat.eqb_refl. cbn [bind]. apply Nat.eqb_neq in Hnf. rewrite Hnf. reflexivity.
  Qed.

  (** * The objective *)
  Lemma objective_labels : objective X C = total (map (fun x => sqdist x (nth (lab x) C [])) X).
  Proof.
    apply total_ext. intros x Hx. destruct (Hlab x Hx) as (_ & H). apply (cost_nearest H).
    rewrite <- (nth_error_nth' C []) by now apply lab_lt. reflexivity.
  Qed.
  Lemma moved_decrease k c : length c = nf ->
    total (map (fun x => sqdist x c) (mem k)) =
    total (map (fun x => sqdist x (moved k c)) (mem k)) + INR (length (mem k)) * sqdist (moved k c) c.
  Proof.
    intros Hc. unfold moved. destruct (mem k) as [|y l] eqn:E; [simpl; lra|]. rewrite <- E. pose proof (mem_width k) as HW.
    rewrite !(total_ext (fun x => sqdist x _) (fun x => sqn (vsub x _)) (mem k)) by (intros; apply sqdist_sqn).
    rewrite (sum_sqn_center c HW Hc) by (rewrite E; discriminate). now rewrite sqdist_sqn.
  Qed.
  Lemma objective_decrease C' : length C' = length C -> (forall k, nth_error C' k = option_map (moved k) (nth_error C k)) ->
    objective X C' + total (map (fun k => INR (length (mem k)) * sqdist (nth k C' []) (nth k C [])) (seq 0 (length C))) <= objective X C.
  Proof.
    intros HL HN.
    assert (Hnth : forall k, (k < length C)%nat -> nth k C' [] = moved k (nth k C [])).
    { intros k Hk. specialize (HN k). rewrite (nth_error_nth' C []), (nth_error_nth' C' []) in HN by lia. simpl in HN. congruence. }
    assert (H1 : objective X C' <= total (map (fun x => sqdist x (nth (lab x) C' [])) X)).
    { apply total_le. intros x Hx. apply cost_le. apply nth_In. rewrite HL. now apply lab_lt. }
    rewrite (total_group lab (fun x => sqdist x (nth (lab x) C' [])) (K := length C) X) in H1 by exact lab_lt.
    rewrite objective_labels, (total_group lab (fun x => sqdist x (nth (lab x) C [])) (K := length C) X) by exact lab_lt.
    eapply Rle_trans; [apply Rplus_le_compat_r; exact H1|]. rewrite <- total_plus. right. apply total_ext. intros k Hk. apply in_seq in Hk.
    rewrite (total_ext (fun x => sqdist x (nth (lab x) C' [])) (fun x => sqdist x (moved k (nth k C []))) (mem k)).
    2: { intros x Hx. apply filter_In in Hx. destruct Hx as (_ & Hx). apply Nat.eqb_eq in Hx. rewrite Hx, Hnth by lia. reflexivity. }
    rewrite (total_ext (fun x => sqdist x (nth (lab x) C [])) (fun x => sqdist x (nth k C [])) (mem k)).
    2: { intros x Hx. apply filter_In in Hx. destruct Hx as (_ & Hx). apply Nat.eqb_eq in Hx. now rewrite Hx. }
    rewrite Hnth by lia. symmetry. apply moved_decrease. apply HC. apply nth_In. lia.
  Qed.
  Lemma objective_strict C' : length C' = length C -> (forall k, nth_error C' k = option_map (moved k) (nth_error C k)) ->
    C' <> C -> objective X C' < objective X C.
  Proof.
    intros HL HN Hne. pose proof (objective_decrease _ HL HN) as H.
    assert (Hk : exists k, (k < length C)%nat /\ nth k C' [] <> nth k C []).
    { clear - HL Hne. revert C' HL Hne. induction C as [|c C0 IH]; intros [|c' C'] HL Hne; simpl in HL; try lia; [congruence|].
      destruct (list_eq_dec Req_EM_T c' c) as [->|Hc].
      - destruct (IH C') as (k & Hk & Hk2); [lia|congruence|]. exists (S k). simpl. split; [lia|assumption].
      - exists 0%nat. simpl. split; [lia|assumption]. }
    destruct Hk as (k & Hk & Hk2).
    set (f := fun k => INR (length (mem k)) * sqdist (nth k C' []) (nth k C [])) in *.
    assert (Hf : forall k, 0 <= f k) by (intros; unfold f; apply Rmult_le_pos; [apply pos_INR|apply sqdist_nonneg]).
    assert (Hpos : 0 < total (map f (seq 0 (length C)))).
    { destruct (Rle_lt_or_eq_dec 0 (total (map f (seq 0 (length C))))) as [?|E]; [apply total_nonneg; auto|assumption|]. exfalso.
      symmetry in E. pose proof (total_zero f (seq 0 (length C)) (fun k _ => Hf k) E k) as E0. specialize (E0 ltac:(apply in_seq; lia)).
      specialize (HN k). rewrite (nth_error_nth' C []), (nth_error_nth' C' []) in HN by lia. simpl in HN. injection HN as HN.
      unfold f in E0. apply Rmult_integral in E0. destruct E0 as [E0|E0].
      - apply (INR_eq _ 0) in E0. apply length_zero_iff_nil in E0. unfold moved in HN. rewrite E0 in HN. congruence.
      - apply Hk2. apply sqdist_zero; [|assumption]. assert (Hc : length (nth k C []) = nf) by (apply HC, nth_In; lia).
        rewrite HN, moved_length; congruence. }
    lra.
  Qed.
End Iter.

Definition label_of (C : list (list R)) (x : list R) : nat := match closest (length C) C x with Ok k => k | _ => 0%nat end.
Lemma label_of_spec nf X C : rows nf X -> rows nf C -> C <> [] ->
  forall x, In x X -> closest (length C) C x = Ok (label_of C x) /\ first_nearest C x (label_of C x).
Proof.
  intros HX HC Hne x Hx. destruct (@closest_spec nf C x HC (HX x Hx) Hne) as (k & E & H). unfold label_of. rewrite E. auto.
Qed.
Lemma moved_rows nf X C lab C' : rows nf X -> rows nf C -> length C' = length C ->
  (forall k, nth_error C' k = option_map (moved nf X lab k) (nth_error C k)) -> rows nf C'.
Proof.
  intros HX HC HL HN c Hc. apply In_nth_error in Hc. destruct Hc as (k & Hk). rewrite HN in Hk.
  destruct (nth_error C k) as [d|] eqn:E; [|discriminate]. simpl in Hk. injection Hk as <-. apply moved_length; [assumption|].
  apply HC. eapply nth_error_In. exact E.
Qed.
Lemma vmean_is_mean nf xs : width nf xs -> is_mean nf xs (vmean nf xs).
Proof.
  intros HW. split; [now apply vmean_length|]. intros j v. unfold vmean, vscale. rewrite nth_error_map.
  assert (G : forall xs, width nf xs -> forall j w, nth_error (vsum nf xs) j = Some w -> w = total (map (fun x => nth j x 0) xs)).
  { clear. induction xs as [|x xs IH]; intros HW j w.
    - simpl. intros H. apply nth_error_In, repeat_spec in H. now subst.
    - apply width_cons in HW. destruct HW as (H1 & H2). simpl. unfold vadd. rewrite nth_error_map2.
      destruct (nth_error x j) as [a|] eqn:Ea; [|discriminate]. destruct (nth_error (vsum nf xs) j) as [b|] eqn:Eb; [|discriminate].
      intros [= <-]. rewrite (IH H2 j b Eb). rewrite (nth_error_nth x j 0 Ea). reflexivity. }
  destruct (nth_error (vsum nf xs) j) as [w|] eqn:E; [|discriminate]. simpl. intros [= <-]. rewrite (G xs HW j w E). unfold Rdiv. ring.
Qed.
Lemma NoDup_app_l {A} (a b : list A) : NoDup (a ++ b) -> NoDup a.
Proof.
  induction a as [|x a IH]; simpl; intros H; [constructor|]. inversion H as [|? ? H1 H2]; subst. constructor; [|auto].
  intros Hx. apply H1, in_app_iff. now left.
Qed.
