From Coq Require Import Reals Lra.
From Verif Require Import Base Sorting Common_Model RDR_Proofs KDReal_Proofs Impurity_Model Impurity_Spec Impurity_Proofs Vec
  KMeans_Model KMeans_Spec KMeans_Proofs.
Local Open Scope R_scope.
Set Implicit Arguments.

Lemma sq_dists_spec nf X c : rows nf X -> length c = nf -> sq_dists X c = Ok (map (fun x => sqdist x c) X).
Proof.
  intros HX Hc. unfold sq_dists. apply mapM_Ok. intros x Hx. unfold row_sub. rewrite (HX x Hx), Hc, Nat.eqb_refl. cbn [bind].
  now rewrite Rsum_total, <- sqn_sum, sqdist_sqn.
Qed.

Lemma cumsum_length s l : length (cumsum_from s l) = length l.
Proof. revert s. induction l as [|a l IH]; intros s; simpl; auto. Qed.
Lemma cumsum_nth l : forall s k, (k < length l)%nat -> nth_error (cumsum_from s l) k = Some (s + total (firstn (S k) l)).
Proof.
  induction l as [|a l IH]; intros s k Hk; [simpl in Hk; lia|]. destruct k as [|k].
  - simpl. f_equal. lra.
  - simpl in Hk. change (nth_error (cumsum_from s (a :: l)) (S k)) with (nth_error (cumsum_from (s + a) l) k). rewrite IH by lia.
    f_equal. change (firstn (S (S k)) (a :: l)) with (a :: firstn (S k) l). cbn [total fold_right]. fold (total (firstn (S k) l)). lra.
Qed.

Lemma total_firstn_mono l : (forall a, In a l -> 0 <= a) -> forall i j, (i <= j)%nat -> total (firstn i l) <= total (firstn j l).
Proof.
  induction l as [|a l IH]; intros H i j Hij; [rewrite !firstn_nil; lra|]. destruct i as [|i], j as [|j]; try lia; simpl.
  - lra.
  - assert (0 <= a) by (apply H; now left). specialize (IH (fun b Hb => H b (or_intror Hb)) 0%nat j ltac:(lia)). simpl in IH. lra.
  - specialize (IH (fun b Hb => H b (or_intror Hb)) i j ltac:(lia)). lra.
Qed.

Lemma lower_bound_spec l v : (forall i j a b, (i <= j)%nat -> nth_error l i = Some a -> nth_error l j = Some b -> a <= b) ->
  exists k, lower_bound l v = Ok k /\ (k <= length l)%nat /\
    (forall j a, (j < k)%nat -> nth_error l j = Some a -> a < v) /\
    (forall j a, (k <= j)%nat -> nth_error l j = Some a -> v <= a).
Proof.
  intros Hs.
  assert (G : forall fuel first len, (len <= fuel)%nat -> (first + len <= length l)%nat ->
    (forall j a, (j < first)%nat -> nth_error l j = Some a -> a < v) ->
    (forall j a, (first + len <= j)%nat -> nth_error l j = Some a -> v <= a) ->
    exists k, lower_bound_loop fuel l v first len = Ok k /\ (k <= length l)%nat /\
    (forall j a, (j < k)%nat -> nth_error l j = Some a -> a < v) /\
    (forall j a, (k <= j)%nat -> nth_error l j = Some a -> v <= a)).
  { induction fuel as [|fuel IH]; intros first len Hf Hl H1 H2.
    - assert (len = 0%nat) by lia. subst len. exists first. split; [reflexivity|]. split; [lia|]. split; [assumption|].
      intros j a Hj. apply H2. lia.
    - destruct len as [|len]; [exists first; split; [reflexivity|]; split; [lia|]; split; [assumption|]; intros j a Hj; apply H2; lia|].
      cbn [lower_bound_loop]. set (half := Nat.div2 (S len)).
      assert (Hh : (half < S len)%nat) by (apply Nat.lt_div2; lia).
      unfold vget. destruct (nth_error l (first + half)) as [m|] eqn:Em; [|apply nth_error_None in Em; lia]. cbn [bind].
      destruct (Rltb m v) eqn:Eb.
      + apply Rltb_true in Eb. apply IH; [lia|lia| |].
        * intros j a Hj Ha. eapply Rle_lt_trans; [|exact Eb]. apply (Hs j (first + half)%nat); [lia|assumption|assumption].
        * intros j a Hj. apply H2. lia.
      + apply Rltb_false in Eb. apply IH; [lia|lia|assumption|].
        intros j a Hj Ha. eapply Rle_trans; [exact Eb|]. apply (Hs (first + half)%nat j); assumption. }
  apply G; [lia|lia|intros; lia|]. intros j a Hj Ha. assert (j < length l)%nat by (apply nth_error_Some; congruence). lia.
Qed.

Lemma firstn_total_all l : total (firstn (S (length l - 1)) l) = total l.
Proof. destruct l as [|a l]; [reflexivity|]. simpl length. replace (S (S (length l) - 1)) with (length (a :: l)) by (simpl; lia). now rewrite firstn_all. Qed.

Lemma candidate_spec X C r : X <> [] -> C <> [] -> 0 <= r <= 1 ->
  exists k, candidate_index (map (cost C) X) (r * objective X C) = Ok k /\ drawn X C r k.
Proof.
  intros HX HC Hr. set (l := map (cost C) X).
  assert (Hl : length l = length X) by apply map_length.
  assert (Hpos : forall a, In a l -> 0 <= a) by (intros a Ha; apply in_map_iff in Ha; destruct Ha as (x & <- & _); apply cost_nonneg).
  assert (Hn : (0 < length X)%nat) by (destruct X; [congruence|simpl; lia]).
  assert (Hobj : 0 <= objective X C) by (apply total_nonneg; intros; apply cost_nonneg).
  unfold candidate_index. destruct (@lower_bound_spec (cumsum l) (r * objective X C)) as (k & Ek & Hk & K1 & K2).
  { intros i j a b Hij Ha Hb. unfold cumsum in *.
    assert (i < length l)%nat by (rewrite <- (cumsum_length 0); apply nth_error_Some; congruence).
    assert (j < length l)%nat by (rewrite <- (cumsum_length 0); apply nth_error_Some; congruence).
    rewrite cumsum_nth in Ha, Hb by assumption. injection Ha as <-. injection Hb as <-. apply Rplus_le_compat_l. apply (total_firstn_mono l Hpos (i := S i) (j := S j)); lia. }
  rewrite Ek. cbn [bind]. unfold cumsum in *. rewrite cumsum_length in Hk.
  assert (Hlast : (k <= length l - 1)%nat).
  { apply Nat.nlt_ge. intros Hlt. specialize (K1 (length l - 1)%nat _ Hlt (@cumsum_nth l 0 (length l - 1) ltac:(lia))).
    rewrite firstn_total_all in K1. change (total l) with (objective X C) in K1. nra. }
  destruct (Nat.ltb_spec (length l - 1) k); [lia|]. exists k. split; [reflexivity|]. split; [lia|]. split.
  - specialize (K2 k _ (le_n _) (@cumsum_nth l 0 k ltac:(lia))). fold l. lra.
  - intros j Hj. specialize (K1 j _ Hj (@cumsum_nth l 0 j ltac:(lia))). fold l. lra.
Qed.

Lemma drawn_unique X C r k k' : drawn X C r k -> drawn X C r k' -> k = k'.
Proof.
  intros (A1 & A2 & A3) (B1 & B2 & B3). destruct (Nat.lt_total k k') as [H|[H|H]]; [|assumption|].
  - specialize (B3 k H). lra.
  - specialize (A3 k' H). lra.
Qed.
(** A positive draw hits a sample of positive cost. *)
Lemma drawn_positive X C r k x : drawn X C r k -> 0 < r -> 0 < objective X C -> nth_error X k = Some x -> 0 < cost C x.
Proof.
  intros (A1 & A2 & A3) Hr Ho Ex. set (l := map (cost C) X) in *.
  assert (Ev : nth_error l k = Some (cost C x)) by (unfold l; rewrite nth_error_map, Ex; reflexivity).
  rewrite (firstn_S l k Ev), total_app in A2. simpl in A2.
  destruct k as [|k].
  - simpl in A2. assert (0 < r * objective X C) by (apply Rmult_lt_0_compat; assumption). lra.
  - specialize (A3 k (Nat.lt_succ_diag_r k)). lra.
Qed.

Section PP.
  Variables (nf : nat) (X : list (list R)).
  Hypothesis HX : rows nf X.
  Hypothesis HXne : X <> [].

  Lemma min_costs C x : C <> [] ->
    map2 (fun c d => if Rltb c d then c else d) (map (cost C) X) (map (fun y => sqdist y x) X) = map (cost (C ++ [x])) X.
  Proof.
    intros HC. rewrite map2_map_l, map2_map_r. clear HX HXne. induction X as [|y X' IH]; [reflexivity|]. simpl. f_equal; [|assumption].
    rewrite cost_app by (assumption || discriminate). simpl. unfold Rmin. destruct (Rle_dec (cost C y) (sqdist y x)).
    - destruct (Rltb (cost C y) (sqdist y x)) eqn:E; [reflexivity|]. apply Rltb_false in E. lra.
    - destruct (Rltb (cost C y) (sqdist y x)) eqn:E; [|reflexivity]. apply Rltb_true in E. lra.
  Qed.

  Lemma objective_app C x : C <> [] -> objective X (C ++ [x]) <= objective X C.
  Proof.
    intros HC. apply total_le. intros y _. rewrite cost_app by (assumption || discriminate). apply Rmin_l.
  Qed.

  (** Outcome of the trials made so far. *)
  Definition best_of (C : list (list R)) (rs : list R) (p : R) (k : nat) (ds : list R) : Prop :=
    exists x, nth_error X k = Some x /\ ds = map (cost (C ++ [x])) X /\ p = objective X (C ++ [x]) /\
      (exists r, In r rs /\ drawn X C r k) /\
      forall r k' x', In r rs -> drawn X C r k' -> nth_error X k' = Some x' -> p <= objective X (C ++ [x']).

  Lemma trials_spec C rs : C <> [] -> rs <> [] -> (forall r, In r rs -> 0 <= r <= 1) -> objective X C < dbl_max ->
    exists p k ds, foldM (trial X (map (cost C) X) (objective X C)) rs (dbl_max, None) = Ok (p, Some (k, ds)) /\ best_of C rs p k ds.
  Proof.
    intros HC Hne Hr Hmax.
    set (P := fun (done : list R) (s : R * option (nat * list R)) =>
      (done = [] /\ s = (dbl_max, None)) \/ exists p k ds, s = (p, Some (k, ds)) /\ best_of C done p k ds).
    assert (G : forall todo done s, (forall r, In r todo -> 0 <= r <= 1) -> P done s ->
      exists s', foldM (trial X (map (cost C) X) (objective X C)) todo s = Ok s' /\ P (done ++ todo) s').
    { induction todo as [|r todo IH]; intros done s Hr' HP; [exists s; rewrite app_nil_r; split; [reflexivity|assumption]|].
      cbn [foldM]. destruct (@candidate_spec X C r HXne HC (Hr' r (or_introl eq_refl))) as (k & Ek & Hk).
      pose proof Hk as (Hkn & _). destruct (nth_error X k) as [x|] eqn:Ex; [|apply nth_error_None in Ex; lia].
      assert (Hx : length x = nf) by (apply HX; eapply nth_error_In; exact Ex).
      unfold trial at 1. rewrite Ek. cbn [bind]. unfold vget. rewrite Ex. cbn [bind]. rewrite (sq_dists_spec x HX Hx). cbn [bind].
      rewrite min_costs by assumption. rewrite Rsum_total. change (total (map (cost (C ++ [x])) X)) with (objective X (C ++ [x])).
      replace (done ++ r :: todo) with ((done ++ [r]) ++ todo) by (rewrite <- app_assoc; reflexivity).
      apply IH; [intros; apply Hr'; now right|].
      assert (Hthis : forall k' x', drawn X C r k' -> nth_error X k' = Some x' -> objective X (C ++ [x']) = objective X (C ++ [x])).
      { intros k' x' Hd' Ex'. rewrite (drawn_unique Hd' Hk), Ex in Ex'. now injection Ex' as <-. }
      destruct HP as [(-> & ->)|(p & k0 & ds & -> & x0 & E0 & -> & -> & (r0 & R0 & D0) & Hmin)]; right; cbn [fst].
      - assert (Eb : Rltb (objective X (C ++ [x])) dbl_max = true) by (apply Rltb_true; pose proof (objective_app x HC); lra).
        rewrite Eb. exists (objective X (C ++ [x])), k, (map (cost (C ++ [x])) X). split; [reflexivity|]. exists x.
        split; [assumption|]. split; [reflexivity|]. split; [reflexivity|]. split; [exists r; split; [now left|assumption]|].
        intros r' k' x' [<-|[]] Hd' Ex'. rewrite (Hthis k' x' Hd' Ex'). lra.
      - destruct (Rltb (objective X (C ++ [x])) (objective X (C ++ [x0]))) eqn:Eb.
        + apply Rltb_true in Eb. exists (objective X (C ++ [x])), k, (map (cost (C ++ [x])) X). split; [reflexivity|]. exists x.
          split; [assumption|]. split; [reflexivity|]. split; [reflexivity|]. split; [exists r; split; [apply in_app_iff; right; now left|assumption]|].
          intros r' k' x' Hin Hd' Ex'. apply in_app_iff in Hin. destruct Hin as [Hin|[<-|[]]].
          * specialize (Hmin r' k' x' Hin Hd' Ex'). lra.
          * rewrite (Hthis k' x' Hd' Ex'). lra.
        + apply Rltb_false in Eb. exists (objective X (C ++ [x0])), k0, (map (cost (C ++ [x0])) X). split; [reflexivity|]. exists x0.
          split; [assumption|]. split; [reflexivity|]. split; [reflexivity|]. split; [exists r0; split; [apply in_app_iff; now left|assumption]|].
          intros r' k' x' Hin Hd' Ex'. apply in_app_iff in Hin. destruct Hin as [Hin|[<-|[]]].
          * exact (Hmin r' k' x' Hin Hd' Ex').
          * rewrite (Hthis k' x' Hd' Ex'). lra. }
    destruct (G rs [] (dbl_max, None) Hr (or_introl (conj eq_refl eq_refl))) as (s & Es & HP). cbn [app] in HP.
    destruct HP as [(-> & _)|(p & k & ds & -> & H)]; [congruence|]. exists p, k, ds. auto.
  Qed.

  (** What is known of the centre chosen in one round. *)
  Definition chosen (C : list (list R)) (rs : list R) (c : list R) : Prop :=
    (exists r k, In r rs /\ drawn X C r k /\ nth_error X k = Some c) /\
    forall r k x, In r rs -> drawn X C r k -> nth_error X k = Some x -> objective X (C ++ [c]) <= objective X (C ++ [x]).

  Lemma more_centres_spec draws : forall C, C <> [] -> (forall rs, In rs draws -> rs <> [] /\ forall r, In r rs -> 0 <= r <= 1) ->
    objective X C < dbl_max ->
    exists Cs, more_centres X draws (map (cost C) X) (objective X C) = Ok Cs /\ length Cs = length draws /\
      forall m c rs, nth_error Cs m = Some c -> nth_error draws m = Some rs -> chosen (C ++ firstn m Cs) rs c.
  Proof.
    induction draws as [|rs draws IH]; intros C HC Hd Hmax.
    - exists []. split; [reflexivity|]. split; [reflexivity|]. intros [|m] c rs; discriminate.
    - cbn [more_centres]. destruct (Hd rs (or_introl eq_refl)) as (Hne & Hr).
      destruct (@trials_spec C rs HC Hne Hr Hmax) as (p & k & ds & Es & x & Ex & -> & -> & (r & R1 & R2) & Hmin).
      rewrite Es. cbn [bind]. unfold vget. rewrite Ex. cbn [bind].
      destruct (IH (C ++ [x])) as (Cs & E & HL & HM).
      + destruct C; discriminate.
      + intros; apply Hd; now right.
      + pose proof (objective_app x HC). lra.
      + rewrite E. cbn [bind]. exists (x :: Cs). split; [reflexivity|]. split; [simpl; lia|].
        intros [|m] c rs' H1 H2; simpl in H1, H2.
        * injection H1 as <-. injection H2 as <-. simpl firstn. rewrite app_nil_r. split; [exists r, k; auto|assumption].
        * simpl firstn. specialize (HM m c rs' H1 H2). rewrite <- app_assoc in HM. exact HM.
  Qed.
End PP.
