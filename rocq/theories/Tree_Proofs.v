From Verif Require Import Base Sorting Common_Model Argsort_Model Argsort_Proofs Split_Model Tree_Model Tree_Spec.
Set Implicit Arguments.

(** * Lists *)
Lemma where_from_select {A} (g : A -> bool) (l pre : list A) :
  mapM (vget (pre ++ l)) (where_from (map g l) (length pre)) = Ok (filter g l).
Proof.
  revert pre. induction l as [|a l IH]; intros pre; simpl; [reflexivity|].
  specialize (IH (pre ++ [a])). rewrite <- app_assoc in IH. cbn [app] in IH.
  rewrite app_length in IH. cbn [length] in IH. replace (length pre + 1) with (S (length pre)) in IH by lia.
  destruct (g a); [|exact IH]. cbn [mapM].
  unfold vget at 1. rewrite nth_error_app2 by lia. rewrite Nat.sub_diag. cbn [nth_error bind].
  rewrite IH. reflexivity.
Qed.
Lemma where_select {A} (g : A -> bool) (l : list A) : mapM (vget l) (where_ (map g l)) = Ok (filter g l).
Proof. exact (where_from_select g l []). Qed.

Lemma mapM_ext {A B} (f g : A -> outcome B) l : (forall a, In a l -> f a = g a) -> mapM f l = mapM g l.
Proof.
  induction l as [|a l IH]; intros H; simpl; [reflexivity|].
  rewrite H by now left. rewrite IH by (intros; apply H; now right). reflexivity.
Qed.

Lemma mapM_map {A B C} (f : A -> B) (h : B -> C) (g : nat -> outcome A) l xs :
  mapM g l = Ok xs -> (forall i a, g i = Ok a -> True) ->
  mapM (fun i => let! a := g i in Ok (f a)) l = Ok (map f xs).
Proof.
  intros H _. revert xs H. induction l as [|i l IH]; intros xs; simpl.
  - intros [= <-]. reflexivity.
  - destruct (g i); simpl; try discriminate. destruct (mapM g l) eqn:E; simpl; try discriminate.
    intros [= <-]. rewrite (IH _ eq_refl). reflexivity.
Qed.

Lemma vget_map {A B} (f : A -> B) l i : vget (map f l) i = let! a := vget l i in Ok (f a).
Proof. unfold vget. rewrite nth_error_map. destruct (nth_error l i); reflexivity. Qed.

Lemma map_nth_seq_id {A} (l : list A) d : map (fun i => nth i l d) (seq 0 (length l)) = l.
Proof.
  induction l as [|a l IH]; simpl; [reflexivity|]. f_equal. rewrite <- seq_shift, map_map. exact IH.
Qed.

Lemma sorted_app_iff {A} (R : A -> A -> Prop) l1 l2 :
  StronglySorted R (l1 ++ l2) <->
  StronglySorted R l1 /\ StronglySorted R l2 /\ forall a b, In a l1 -> In b l2 -> R a b.
Proof.
  induction l1 as [|x l1 IH]; simpl.
  - split; [intros H; repeat split; auto; [constructor|tauto]|tauto].
  - split.
    + intros H. inversion H as [|? ? H1 H2]; subst. apply IH in H1. destruct H1 as (A1 & A2 & A3).
      rewrite Forall_forall in H2. repeat split; auto.
      * constructor; [assumption|]. apply Forall_forall. intros y Hy. apply H2. apply in_app_iff. auto.
      * intros a b [<- | Ha] Hb; [apply H2; apply in_app_iff; auto|auto].
    + intros (A1 & A2 & A3). inversion A1 as [|? ? H1 H2]; subst. constructor.
      * apply IH. repeat split; auto.
      * rewrite Forall_forall in *. intros y Hy. apply in_app_iff in Hy. destruct Hy; auto.
Qed.

(** Selecting by row properties in [X] and in the parallel [y]. *)
Lemma where_select_fst {A B} (g : A -> bool) (D : list (A * B)) :
  mapM (vget (map fst D)) (where_ (map g (map fst D))) = Ok (map fst (filter (fun e => g (fst e)) D)).
Proof.
  rewrite map_map.
  rewrite (mapM_ext _ (fun i => let! a := vget D i in Ok (fst a))) by (intros; apply vget_map).
  apply (mapM_map fst (fun x => x)); [|trivial]. exact (where_select (fun e => g (fst e)) D).
Qed.
Lemma where_select_snd {A B} (g : A -> bool) (D : list (A * B)) :
  mapM (vget (map snd D)) (where_ (map g (map fst D))) = Ok (map snd (filter (fun e => g (fst e)) D)).
Proof.
  rewrite map_map.
  rewrite (mapM_ext _ (fun i => let! a := vget D i in Ok (snd a))) by (intros; apply vget_map).
  apply (mapM_map snd (fun x => x)); [|trivial]. exact (where_select (fun e => g (fst e)) D).
Qed.

Lemma sorted_perm_unique {A} (lt : A -> A -> bool) (H : total_order lt) (l1 l2 : list A) :
  StronglySorted (fun u v => lt v u = false) l1 -> StronglySorted (fun u v => lt v u = false) l2 ->
  Permutation l1 l2 -> l1 = l2.
Proof.
  intros H1. revert l2. induction H1 as [|a l1 Hs IH Ha]; intros l2 H2 HP.
  - apply Permutation_nil in HP. now subst.
  - destruct H2 as [|b l2 Hs2 Hb]; [apply Permutation_sym, Permutation_nil in HP; discriminate|].
    assert (a = b).
    { apply (to_total H).
      - assert (In a (b :: l2)) as [-> | Hin] by (eapply Permutation_in; [exact HP|now left]); [apply (to_irrefl H)|].
        rewrite Forall_forall in Hb. auto.
      - assert (In b (a :: l1)) as [-> | Hin] by (eapply Permutation_in; [symmetry; exact HP|now left]); [apply (to_irrefl H)|].
        rewrite Forall_forall in Ha. auto. }
    subst b. f_equal. apply IH; [assumption|]. eapply Permutation_cons_inv; exact HP.
Qed.

Section T.
  Variable T : Type.
  Variable lt : T -> T -> bool.
  Variable mid : T -> T -> T.
  Hypothesis HT : total_order lt.

  Lemma co : forall a b c, lt b a = false -> lt c b = false -> lt c a = false.
  Proof.
    intros a b c H1 H2. destruct (lt c a) eqn:E; [|reflexivity]. exfalso.
    destruct (lt a b) eqn:E1.
    - rewrite (to_trans HT _ _ _ E E1) in H2. discriminate.
    - rewrite (to_total HT _ _ E1 H1) in E. congruence.
  Qed.

  Lemma eqb_eq a b : eqb lt a b = true <-> a = b.
  Proof.
    unfold eqb. rewrite andb_true_iff, !negb_true_iff. split.
    - intros (H1 & H2). now apply (to_total HT).
    - intros ->. split; apply (to_irrefl HT).
  Qed.

  Lemma uniq_from_spec a l : StronglySorted (fun u v => lt v u = false) (a :: l) ->
    StronglySorted (fun u v => lt u v = true) (uniq_from lt a l) /\
    (forall x, In x (uniq_from lt a l) <-> In x (a :: l)).
  Proof.
    revert a. induction l as [|b l IH]; intros a Hs.
    - simpl. split; [repeat constructor|tauto].
    - cbn [uniq_from]. inversion Hs as [|? ? Hs' Ha]; subst. destruct (eqb lt a b) eqn:E.
      + apply eqb_eq in E. subst b. destruct (IH a Hs') as (H1 & H2). split; [assumption|].
        intros x. rewrite H2. simpl. tauto.
      + destruct (IH b Hs') as (H1 & H2). split.
        * constructor; [assumption|]. apply Forall_forall. intros x Hx. apply H2 in Hx.
          assert (Hab : lt a b = true).
          { destruct (lt a b) eqn:E2; [reflexivity|]. rewrite Forall_forall in Ha.
            assert (a = b) by (apply (to_total HT); [assumption|apply Ha; now left]).
            apply eqb_eq in H. congruence. }
          destruct Hx as [<- | Hx]; [assumption|].
          inversion Hs' as [|? ? _ Hb]; subst. rewrite Forall_forall in Hb. specialize (Hb x Hx).
          destruct (lt a x) eqn:E3; [reflexivity|]. exfalso.
          assert (lt a b = false) by (exact (co Hb E3)). congruence.
        * intros x. cbn [In]. rewrite H2. simpl. tauto.
  Qed.
  Lemma uniq_spec l : StronglySorted (fun u v => lt v u = false) l ->
    StronglySorted (fun u v => lt u v = true) (uniq lt l) /\ (forall x, In x (uniq lt l) <-> In x l).
  Proof.
    destruct l as [|a l]; intros H; [|apply uniq_from_spec; assumption].
    simpl. split; [constructor|tauto].
  Qed.

  Lemma mids_In s t : In t (mids mid s) <-> exists i a b, nth_error s i = Some a /\ nth_error s (S i) = Some b /\ t = mid a b.
  Proof.
    induction s as [|a s IH].
    - simpl. split; [tauto|]. intros (i & a & b & H & _). destruct i; discriminate.
    - destruct s as [|b s].
      + simpl. split; [tauto|]. intros (i & u & v & H1 & H2 & _). destruct i as [|[|i]]; discriminate.
      + change (mids mid (a :: b :: s)) with (mid a b :: mids mid (b :: s)). cbn [In]. rewrite IH. split.
        * intros [<- | (i & u & v & H1 & H2 & H3)]; [exists 0, a, b; auto|exists (S i), u, v; auto].
        * intros ([|i] & u & v & H1 & H2 & H3).
          -- left. simpl in H1, H2. congruence.
          -- right. exists i, u, v. auto.
  Qed.

  Lemma sort_sorted l : StronglySorted (fun u v => lt v u = false) (isort lt l).
  Proof. apply isort_sorted; [|exact co]. intros a b H.
    destruct (lt b a) eqn:E; [|reflexivity]. pose proof (to_trans HT _ _ _ H E) as F.
    rewrite (to_irrefl HT) in F. discriminate.
  Qed.

  Lemma asym : forall a b, lt a b = true -> lt b a = false.
  Proof.
    intros a b H. destruct (lt b a) eqn:E; [|reflexivity]. pose proof (to_trans HT _ _ _ H E) as F.
    rewrite (to_irrefl HT) in F. discriminate.
  Qed.

  Lemma select_sorted (x : list T) idx d : (forall i, In i idx -> i < length x) ->
    StronglySorted (fun i j => lt (nth j x d) (nth i x d) = false) idx ->
    mapM (vget x) idx = Ok (map (fun i => nth i x d) idx) /\
    StronglySorted (fun u v => lt v u = false) (map (fun i => nth i x d) idx).
  Proof.
    intros Hr Hs. split.
    - apply mapM_Ok. intros i Hi. apply vget_Ok. auto.
    - induction Hs as [|i idx Hs IH Ha]; simpl; constructor.
      + apply IH. intros j Hj. apply Hr. now right.
      + rewrite Forall_forall in *. intros v Hv. apply in_map_iff in Hv. destruct Hv as (j & <- & Hj). auto.
  Qed.

  Lemma threshold_spec x : 3 <= length x ->
    exists ts, choose_feature_threshold lt mid x = Ok ts /\
      StronglySorted (fun u v => lt u v = true) ts /\
      (forall t, In t ts <-> exists s i a b, Permutation s x /\ StronglySorted (fun u v => lt v u = false) s /\
         nth_error s i = Some a /\ nth_error s (S i) = Some b /\ t = mid a b).
  Proof.
    intros H. assert (exists d : T, True) as (d & _) by (destruct x as [|d x]; [simpl in H; lia|now exists d]).
    destruct (argsort_col_spec lt asym co x d H) as (idx & E & HP & HS).
    assert (Hr : forall i, In i idx -> i < length x).
    { intros i Hi. assert (In i (seq 0 (length x))) by (eapply Permutation_in; eassumption). apply in_seq in H0. lia. }
    destruct (select_sorted x d Hr HS) as (E2 & HS2).
    unfold choose_feature_threshold. rewrite E. cbn [bind]. rewrite E2. cbn [bind].
    set (s := map (fun i => nth i x d) idx) in *.
    assert (HPs : Permutation s x).
    { unfold s. rewrite HP. clear. rewrite <- (map_nth_seq_id x d) at 2. reflexivity. }
    destruct (uniq_spec (sort_sorted (mids mid s))) as (U1 & U2).
    eexists. split; [reflexivity|]. split; [exact U1|].
    intros t. rewrite U2, isort_In, mids_In. split.
    - intros (i & a & b & A). exists s, i, a, b. auto.
    - intros (s' & i & a & b & P1 & P2 & P3). assert (s' = s) as ->; [|now exists i, a, b].
      apply (sorted_perm_unique HT); [assumption..|]. now rewrite P1, HPs.
  Qed.

  (** * Split search *)
  Lemma mapM_some {A B} (g : A -> outcome B) (o : A -> option B) l bs :
    (forall a, g a = match o a with Some b => Ok b | None => UB end) ->
    (mapM g l = Ok bs <-> map o l = map Some bs).
  Proof.
    intros Hg. revert bs. induction l as [|a l IH]; intros bs; simpl.
    - split; [intros [= <-]; reflexivity|]. destruct bs; [reflexivity|discriminate].
    - rewrite Hg. destruct (o a) as [b|]; cbn [bind].
      + split.
        * destruct (mapM g l) as [bs'| | |]; try discriminate. intros [= <-]. simpl. f_equal. now apply IH.
        * destruct bs as [|b' bs]; [discriminate|]. simpl. intros [= -> E]. apply IH in E. rewrite E. reflexivity.
      + split; [discriminate|]. destruct bs; discriminate.
  Qed.

  Lemma column_spec nf (X : list (list T)) f : matrix nf X -> f < nf ->
    exists c : list T, column_of X f = Ok c /\ map (fun r => nth_error r f) X = map Some c /\ length c = length X.
  Proof.
    intros HM Hf. induction X as [|r X IH].
    - exists []. auto.
    - destruct IH as (c & E1 & E2 & E3); [intros r' Hr; apply HM; now right|].
      assert (Hr : length r = nf) by (apply HM; now left).
      destruct (nth_error r f) as [v|] eqn:Ev; [|apply nth_error_None in Ev; lia].
      exists (v :: c). unfold column_of in *. simpl. unfold vget at 1. rewrite Ev. cbn [bind]. rewrite E1. cbn [bind].
      rewrite E2, E3. auto.
  Qed.

  Lemma column_bools nf (X : list (list T)) f (c : list T) t : matrix nf X -> f < nf -> map (fun r => nth_error r f) X = map Some c ->
    map (fun v => leb lt v t) c = map (goes_left lt f t) X /\
    map (fun v => lt t v) c = map (fun x => negb (goes_left lt f t x)) X.
  Proof.
    intros _ _. revert c. induction X as [|r X IH]; intros [|v c]; simpl; try discriminate; [auto|].
    intros [= E1 E2]. destruct (IH c E2) as (H1 & H2). rewrite H1, H2.
    assert (Eg : goes_left lt f t r = negb (lt t v)) by (unfold goes_left; now rewrite E1).
    rewrite Eg, negb_involutive. auto.
  Qed.

  Lemma divide_loop_spec nf (X : list (list T)) f t i k d : matrix nf X -> f < nf ->
    divide_loop (leb lt) X i f t k d =
    Ok (k ++ where_from (map (goes_left lt f t) X) i, d ++ where_from (map (fun x => negb (goes_left lt f t x)) X) i).
  Proof.
    intros HM Hf. revert i k d. induction X as [|r X IH]; intros i k d; cbn [divide_loop].
    - simpl. now rewrite !app_nil_r.
    - assert (Hr : length r = nf) by (apply HM; now left).
      assert (HM' : matrix nf X) by (intros r' Hr'; apply HM; now right).
      assert (Eg : goes_left lt f t r = match vget r f with Ok v => leb lt v t | _ => false end).
      { unfold goes_left, vget, leb. destruct (nth_error r f); reflexivity. }
      destruct (nth_error r f) as [v|] eqn:Ev; [|apply nth_error_None in Ev; lia].
      unfold vget in *. rewrite Ev in *. cbn [bind]. cbn [map where_from]. rewrite Eg.
      destruct (leb lt v t); rewrite IH by assumption; cbn [negb]; rewrite <- !app_assoc; reflexivity.
  Qed.

  Variable I : Type.
  Variable gt : I -> I -> bool.
  Hypothesis HI : weak_order gt.
  Variable imin : I.
  Variable gain : list T -> list T -> list T -> outcome I.

  Definition upd (best : I * option (nat * T)) (c : nat * T) (g : I) : I * option (nat * T) :=
    if gt g (fst best) then (g, Some c) else best.

  Lemma try_split_spec nf D best f t : matrix nf (map fst D) -> f < nf ->
    try_split lt gt gain (map fst D) (map snd D) best (f, t) =
    let! g := gain_at lt gain D f t in Ok (upd best (f, t) g).
  Proof.
    intros HM Hf. unfold try_split, divide_on_feature. rewrite (divide_loop_spec t 0 [] [] HM Hf). cbn [bind app].
    change (where_from ?l 0) with (where_ l).
    rewrite where_select_snd. cbn [bind].
    rewrite (where_select_snd (fun x => negb (goes_left lt f t x))). cbn [bind].
    unfold gain_at, left_targets, right_targets. destruct (gain _ _ _); cbn [bind]; try reflexivity.
    unfold upd. destruct (gt a (fst best)); reflexivity.
  Qed.

  (** The search as one loop over a list of candidates. *)
  Definition scan (D : list (list T * T)) := foldM (fun best c => let! g := gain_at lt gain D (fst c) (snd c) in Ok (upd best c g)).

  Lemma foldM_ext {A S} (f g : S -> A -> outcome S) l s : (forall s a, In a l -> f s a = g s a) -> foldM f l s = foldM g l s.
  Proof.
    revert s. induction l as [|a l IH]; intros s H; simpl; [reflexivity|]. rewrite H by now left.
    destruct (g s a); simpl; try reflexivity. apply IH. intros. apply H. now right.
  Qed.

  Lemma foldM_map {A B S} (h : A -> B) (f : S -> B -> outcome S) l s : foldM f (map h l) s = foldM (fun s a => f s (h a)) l s.
  Proof. revert s. induction l as [|a l IH]; intros s; simpl; [reflexivity|]. destruct (f s (h a)); simpl; auto. Qed.

  Lemma candidate_column D f c t : map (fun r => nth_error r f) (map fst D) = map Some c ->
    (candidate lt mid D f t <-> exists s i a b, Permutation s c /\ StronglySorted (fun u v => lt v u = false) s /\
         nth_error s i = Some a /\ nth_error s (S i) = Some b /\ t = mid a b).
  Proof.
    intros E. rewrite map_map in E. unfold candidate. rewrite E.
    split; intros (s & i & a & b & H & R); exists s, i, a, b; (split; [|exact R]).
    - apply Permutation_map_inv in H. destruct H as (c' & H1 & H2).
      assert (Hinj : forall l l' : list T, map Some l = map Some l' -> l = l').
      { induction l as [|? l IHl]; intros [|? l']; simpl; try discriminate; [reflexivity|]. intros [= -> H]. f_equal. auto. }
      apply Hinj in H1. subst c'. now symmetry.
    - now apply Permutation_map.
  Qed.

  Lemma best_split_scan nf D : matrix nf (map fst D) -> 3 <= length D ->
    exists cs, best_split lt mid gt imin gain nf (map fst D) (map snd D) = scan D cs (imin, None) /\
      StronglySorted (earlier lt) cs /\
      (forall f t, In (f, t) cs <-> f < nf /\ candidate lt mid D f t).
  Proof.
    intros HM Hn. unfold best_split.
    assert (G : forall n, n <= nf -> exists cs,
      (forall best, foldM (fun best f => let! x := column_of (map fst D) f in
             let! feature_values := choose_feature_threshold lt mid x in
             foldM (fun best t => try_split lt gt gain (map fst D) (map snd D) best (f, t)) feature_values best)
          (seq 0 n) best = scan D cs best) /\
      StronglySorted (earlier lt) cs /\
      (forall f t, In (f, t) cs <-> f < n /\ candidate lt mid D f t)).
    { induction n as [|n IH]; intros Hle.
      - exists []. split; [reflexivity|]. split; [constructor|]. intros. simpl. split; [tauto|lia].
      - destruct (IH ltac:(lia)) as (cs & E1 & S1 & I1).
        destruct (column_spec HM (f := n) ltac:(lia)) as (c & C1 & C2 & C3).
        rewrite map_length in C3.
        destruct (threshold_spec c) as (ts & T1 & T2 & T3); [lia|].
        exists (cs ++ map (fun t => (n, t)) ts). split; [|split].
        + intros best. rewrite seq_S, foldM_app, E1. unfold scan. rewrite foldM_app.
          destruct (foldM _ cs best) as [b1| | |]; cbn [bind]; try reflexivity.
          cbn [foldM Nat.add]. rewrite C1. cbn [bind]. rewrite T1. cbn [bind]. rewrite foldM_map.
          rewrite (foldM_ext _ (fun s a => let! g := gain_at lt gain D n a in Ok (upd s (n, a) g))).
          2: { intros s a _. apply try_split_spec with (nf := nf); [assumption|lia]. }
          cbn [fst snd]. destruct (foldM _ ts b1); reflexivity.
        + apply (proj2 (sorted_app_iff _ _ _)). split; [assumption|]. split.
          * clear - T2. induction T2 as [|t ts Hs IH Ha]; simpl; constructor; [assumption|].
            rewrite Forall_forall in *. intros p Hp. apply in_map_iff in Hp. destruct Hp as (u & <- & Hu).
            right. cbn [fst snd]. auto.
          * intros (f1, t1) p H1 H2. apply in_map_iff in H2. destruct H2 as (u & <- & _). apply I1 in H1. left. cbn [fst]. lia.
        + intros f t. rewrite in_app_iff, I1, in_map_iff. split.
          * intros [(H1 & H2)|(u & [= -> ->] & Hu)]; [split; [lia|assumption]|]. split; [lia|].
            apply (candidate_column D _ _ t C2). now apply T3.
          * intros (H1 & H2). destruct (Nat.eq_dec f n) as [->|Hne]; [|left; split; [lia|assumption]].
            right. exists t. split; [reflexivity|]. apply T3. now apply (candidate_column D _ _ t C2). }
    destruct (G nf (le_n _)) as (cs & E & R). exists cs. split; [apply E|exact R].
  Qed.

  Lemma scan_cons D c cs s : scan D (c :: cs) s = let! g := gain_at lt gain D (fst c) (snd c) in scan D cs (upd s c g).
  Proof. unfold scan. cbn [foldM]. destruct (gain_at _ _ _ _ _); reflexivity. Qed.

  Lemma scan_spec D cs b0 w0 b w : StronglySorted (earlier lt) cs -> scan D cs (b0, w0) = Ok (b, w) ->
    (w = w0 /\ b = b0 /\ forall c, In c cs -> exists g, gain_at lt gain D (fst c) (snd c) = Ok g /\ gt g b0 = false) \/
    (exists c, w = Some c /\ In c cs /\ gain_at lt gain D (fst c) (snd c) = Ok b /\ gt b b0 = true /\
       forall c', In c' cs -> exists g, gain_at lt gain D (fst c') (snd c') = Ok g /\ gt g b = false /\ (earlier lt c' c -> gt b g = true)).
  Proof.
    intros HS. revert b0 w0. induction HS as [|c cs HS IH Ha]; intros b0 w0.
    - intros [= <- <-]. left. repeat split; auto. intros c [].
    - rewrite scan_cons. destruct (gain_at lt gain D (fst c) (snd c)) as [g| | |] eqn:Eg; cbn [bind]; try discriminate.
      unfold upd. cbn [fst]. rewrite Forall_forall in Ha.
      assert (Hearl : forall c', In c' cs -> ~ earlier lt c' c).
      { intros c' Hc' He. specialize (Ha c' Hc'). unfold earlier in *. destruct Ha as [Ha|(Ha1 & Ha2)], He as [He|(He1 & He2)]; try lia.
        rewrite (asym Ha2) in He2. discriminate. }
      destruct (gt g b0) eqn:Egt; intros E; apply IH in E; clear IH.
      + destruct E as [(-> & -> & E)|(c' & -> & Hc' & E1 & E2 & E3)].
        * right. exists c. split; [reflexivity|]. split; [now left|]. split; [assumption|]. split; [assumption|].
          intros c' [<- | Hc'].
          -- exists g. split; [assumption|]. split; [apply (wo_irrefl HI)|].
             intros [He|(He1 & He2)]; [lia|]. rewrite (to_irrefl HT) in He2. discriminate.
          -- destruct (E c' Hc') as (g' & G1 & G2). exists g'. split; [assumption|]. split; [assumption|].
             intros He. exfalso. eapply Hearl; eauto.
        * right. exists c'. split; [reflexivity|]. split; [now right|]. split; [assumption|].
          split; [apply (wo_trans HI) with g; assumption|].
          intros c'' [<- | Hc''].
          -- exists g. split; [assumption|]. split; [|intros _; assumption].
             destruct (gt g b) eqn:Eb; [|reflexivity]. pose proof (wo_trans HI _ _ _ E2 Eb) as F.
             rewrite (wo_irrefl HI) in F. discriminate.
          -- auto.
      + destruct E as [(-> & -> & E)|(c' & -> & Hc' & E1 & E2 & E3)].
        * left. repeat split; auto. intros c' [<- | Hc']; [eauto|auto].
        * right. exists c'. split; [reflexivity|]. split; [now right|]. split; [assumption|]. split; [assumption|].
          intros c'' [<- | Hc'']; [|auto]. exists g. split; [assumption|].
          assert (Hbg : gt b g = true).
          { destruct (gt b g) eqn:Eb; [reflexivity|]. rewrite (wo_co HI _ _ _ Eb Egt) in E2. discriminate. }
          split; [|intros _; assumption].
          destruct (gt g b) eqn:Eb; [|reflexivity]. pose proof (wo_trans HI _ _ _ Hbg Eb) as F.
          rewrite (wo_irrefl HI) in F. discriminate.
  Qed.

  Lemma best_split_spec nf D b w : matrix nf (map fst D) -> 3 <= length D ->
    best_split lt mid gt imin gain nf (map fst D) (map snd D) = Ok (b, w) ->
    match w with
    | None => b = imin /\ none_better lt mid nf gain gt imin D
    | Some (f, t) => first_best lt mid nf gain gt imin D f t b
    end.
  Proof.
    intros HM Hn E. destruct (best_split_scan D HM Hn) as (cs & Ec & HS & HC). rewrite Ec in E.
    apply (scan_spec D _ _ HS) in E. destruct E as [(-> & -> & E)|((f, t) & -> & Hin & E1 & E2 & E3)].
    - split; [reflexivity|]. intros f t Hf Hc. exact (E (f, t) (proj2 (HC f t) (conj Hf Hc))).
    - destruct (proj1 (HC f t) Hin) as (Hf & Hc). repeat (split; [assumption|]).
      intros f' t' Hf' Hc'. exact (E3 (f', t') (proj2 (HC f' t') (conj Hf' Hc'))).
  Qed.

  Lemma best_split_defined nf D : matrix nf (map fst D) -> 3 <= length D ->
    (forall f t, f < nf -> candidate lt mid D f t -> exists g, gain_at lt gain D f t = Ok g) ->
    exists r, best_split lt mid gt imin gain nf (map fst D) (map snd D) = Ok r.
  Proof.
    intros HM Hn Hg. destruct (best_split_scan D HM Hn) as (cs & Ec & _ & HC). rewrite Ec.
    destruct (foldM_inv (fun _ => True) (fun best c => let! g := gain_at lt gain D (fst c) (snd c) in Ok (upd best c g)) cs (imin, None))
      as (s & E & _); [trivial| |now exists s].
    intros s (f, t) Hin _. apply HC in Hin. destruct (Hg f t) as (g & Eg); [tauto..|]. cbn [fst snd]. rewrite Eg. cbn [bind]. eauto.
  Qed.

  (** One or two rows (and at least one feature): undefined. *)
  Lemma best_split_small nf D : matrix nf (map fst D) -> 0 < nf -> length D = 1 \/ length D = 2 ->
    best_split lt mid gt imin gain nf (map fst D) (map snd D) = UB.
  Proof.
    intros HM Hnf Hn. unfold best_split. destruct nf as [|nf]; [lia|]. cbn [seq foldM].
    destruct (column_spec HM (f := 0) ltac:(lia)) as (c & C1 & C2 & C3). rewrite map_length in C3.
    rewrite C1. cbn [bind]. unfold choose_feature_threshold. destruct Hn as [Hn|Hn].
    - rewrite argsort_col_one by lia. cbn [bind mapM]. destruct c as [|a [|b c]]; simpl in C3; try lia. reflexivity.
    - rewrite argsort_col_two by lia. reflexivity.
  Qed.

  Lemma best_split_empty nf : best_split lt mid gt imin gain nf [] [] = Ok (imin, None).
  Proof.
    unfold best_split. generalize (seq 0 nf). intros l. induction l as [|f l IH]; [reflexivity|].
    cbn [foldM]. cbn. exact IH.
  Qed.

  Lemma best_split_Ok nf D b w : matrix nf (map fst D) ->
    best_split lt mid gt imin gain nf (map fst D) (map snd D) = Ok (b, w) ->
    match w with
    | None => b = imin /\ none_better lt mid nf gain gt imin D
    | Some (f, t) => 3 <= length D /\ first_best lt mid nf gain gt imin D f t b
    end.
  Proof.
    intros HM E. destruct (le_lt_dec 3 (length D)) as [Hn|Hn].
    { pose proof (best_split_spec D HM Hn E) as H. destruct w as [[f t]|]; [split; assumption|exact H]. }
    destruct nf as [|nf].
    { cbn in E. injection E as <- <-. split; [reflexivity|]. intros f t Hf. lia. }
    destruct D as [|e D].
    { simpl map in E. rewrite best_split_empty in E. injection E as <- <-. split; [reflexivity|].
      intros f t _ (s & i & a & b & HP & _ & Hi & _). apply Permutation_sym, Permutation_nil in HP. destruct s; [|discriminate].
      destruct i; discriminate. }
    rewrite best_split_small in E; [discriminate|assumption|lia|]. simpl in *. lia.
  Qed.

  (** * Growing *)
  Variable V : Type.
  Variable node_value : list T -> outcome (V * bool).
  Variable nf : nat.
  Variable P : params I.
  Notation build := (build_tree lt mid gt imin gain node_value nf P).
  Notation lefts D f t := (filter (fun e => goes_left lt f t (fst e)) D).
  Notation rights D f t := (filter (fun e => negb (goes_left lt f t (fst e))) D).

  Lemma matrix_filter (g : list T * T -> bool) D : matrix nf (map fst D) -> matrix nf (map fst (filter g D)).
  Proof.
    intros H r Hr. apply in_map_iff in Hr. destruct Hr as (e & <- & He). apply filter_In in He. apply H. apply in_map, He.
  Qed.

  (** What one call does. *)
  Inductive grown (fuel depth : nat) (D : list (list T * T)) : dtree T I V -> Prop :=
  | grown_leaf v stop :
      node_value (map snd D) = Ok (v, stop) ->
      (stop = true \/ length D < min_samples_split P \/ max_depth P < depth \/
       none_better lt mid nf gain gt imin D \/
       (3 <= length D /\ exists f t g, first_best lt mid nf gain gt imin D f t g /\ gt g (min_decrease P) = false)) ->
      grown fuel depth D (Node (Info (length D) v None) Null Null)
  | grown_split v f t g l r :
      node_value (map snd D) = Ok (v, false) ->
      min_samples_split P <= length D -> depth <= max_depth P -> 3 <= length D ->
      first_best lt mid nf gain gt imin D f t g -> gt g (min_decrease P) = true ->
      (if min_samples_leaf P <=? length (lefts D f t)
       then build fuel (map fst (lefts D f t)) (map snd (lefts D f t)) (S depth) = Ok l else l = Null) ->
      (if min_samples_leaf P <=? length (rights D f t)
       then build fuel (map fst (rights D f t)) (map snd (rights D f t)) (S depth) = Ok r else r = Null) ->
      grown fuel depth D (Node (Info (length D) v (Some (f, t, g))) l r).

  Lemma build_grown fuel depth D t : matrix nf (map fst D) ->
    build (S fuel) (map fst D) (map snd D) depth = Ok t -> grown fuel depth D t.
  Proof.
    intros HM. cbn [build_tree]. destruct (node_value (map snd D)) as [[v stop]| | |] eqn:Ev; cbn [bind]; try discriminate.
    rewrite map_length.
    destruct stop. { intros [= <-]. econstructor; eauto. }
    destruct (Nat.ltb_spec (length D) (min_samples_split P)). { intros [= <-]. econstructor; eauto. }
    destruct (Nat.ltb_spec (max_depth P) depth). { intros [= <-]. econstructor; eauto. }
    destruct (best_split lt mid gt imin gain nf (map fst D) (map snd D)) as [[b w]| | |] eqn:Eb; cbn [bind]; try discriminate.
    apply best_split_Ok in Eb; [|assumption]. destruct w as [[f th]|].
    2: { destruct Eb as (-> & Hnb). intros [= <-]. econstructor; eauto 6. }
    destruct Eb as (H3 & Hfb). destruct (gt b (min_decrease P)) eqn:Eg; cbn [negb].
    2: { intros [= <-]. econstructor; eauto 12. }
    destruct (column_spec HM (f := f)) as (c & C1 & C2 & C3); [apply Hfb|]. rewrite C1. cbn [bind].
    destruct (column_bools c th HM (proj1 Hfb) C2) as (B1 & B2).
    rewrite B1, B2. unfold rows_where.
    rewrite where_select_fst, where_select_snd. cbn [bind].
    rewrite (where_select_fst (fun x => negb (goes_left lt f th x))), (where_select_snd (fun x => negb (goes_left lt f th x))).
    cbn [bind]. rewrite !map_length.
    destruct (Nat.leb_spec (min_samples_leaf P) (length (lefts D f th))) as [Hl|Hl];
      destruct (Nat.leb_spec (min_samples_leaf P) (length (rights D f th))) as [Hr|Hr].
    - destruct (build fuel (map fst (lefts D f th)) (map snd (lefts D f th)) (S depth)) as [l| | |] eqn:El; cbn [bind]; try discriminate.
      destruct (build fuel (map fst (rights D f th)) (map snd (rights D f th)) (S depth)) as [r| | |] eqn:Er; cbn [bind]; try discriminate.
      intros [= <-]. constructor; auto.
      + now rewrite (proj2 (Nat.leb_le _ _) Hl).
      + now rewrite (proj2 (Nat.leb_le _ _) Hr).
    - destruct (build fuel (map fst (lefts D f th)) (map snd (lefts D f th)) (S depth)) as [l| | |] eqn:El; cbn [bind]; try discriminate.
      intros [= <-]. constructor; auto.
      + now rewrite (proj2 (Nat.leb_le _ _) Hl).
      + now rewrite (proj2 (Nat.leb_gt _ _) Hr).
    - cbn [bind].
      destruct (build fuel (map fst (rights D f th)) (map snd (rights D f th)) (S depth)) as [r| | |] eqn:Er; cbn [bind]; try discriminate.
      intros [= <-]. constructor; auto.
      + now rewrite (proj2 (Nat.leb_gt _ _) Hl).
      + now rewrite (proj2 (Nat.leb_le _ _) Hr).
    - cbn [bind]. intros [= <-]. constructor; auto.
      + now rewrite (proj2 (Nat.leb_gt _ _) Hl).
      + now rewrite (proj2 (Nat.leb_gt _ _) Hr).
  Qed.

  Lemma filter_filter {A} (f g : A -> bool) l : filter f (filter g l) = filter (fun x => g x && f x) l.
  Proof. induction l as [|a l IH]; simpl; [reflexivity|]. destruct (g a); simpl; [destruct (f a)|]; now rewrite IH. Qed.

  Lemma filter_split {A} (f : A -> bool) l : Permutation l (filter f l ++ filter (fun x => negb (f x)) l).
  Proof.
    induction l as [|a l IH]; simpl; [constructor|]. destruct (f a); simpl.
    - now constructor.
    - rewrite <- Permutation_middle. now constructor.
  Qed.

  Definition node_ok (t0 : dtree T I V) (depth : nat) (D : list (list T * T)) (p : list bool) : Prop :=
    let d := depth + length p in
    let Dp := rows_at lt t0 p D in
    match node_at t0 p with
    | Null => True
    | Node i l r =>
        n_samples i = length Dp /\
        (exists stop, node_value (map snd Dp) = Ok (n_value i, stop) /\
         match n_split i with
         | None => l = Null /\ r = Null /\
             (stop = true \/ length Dp < min_samples_split P \/ max_depth P < d \/
              none_better lt mid nf gain gt imin Dp \/
              exists f t g, first_best lt mid nf gain gt imin Dp f t g /\ gt g (min_decrease P) = false)
         | Some (f, t, g) => stop = false /\ min_samples_split P <= length Dp /\ d <= max_depth P /\
             first_best lt mid nf gain gt imin Dp f t g /\ gt g (min_decrease P) = true /\
             (l <> Null <-> min_samples_leaf P <= length (rows_at lt t0 (p ++ [true]) D)) /\
             (r <> Null <-> min_samples_leaf P <= length (rows_at lt t0 (p ++ [false]) D))
         end)
    end.

  Lemma build_not_null fuel X y depth t : build fuel X y depth = Ok t -> t <> Null.
  Proof.
    destruct fuel as [|fuel]; [discriminate|]. cbn [build_tree].
    destruct (node_value y) as [[v stop]| | |]; cbn [bind]; try discriminate.
    destruct stop; [intros [= <-]; discriminate|].
    destruct (length X <? min_samples_split P); [intros [= <-]; discriminate|].
    destruct (max_depth P <? depth); [intros [= <-]; discriminate|].
    destruct (best_split lt mid gt imin gain nf X y) as [[b w]| | |]; cbn [bind]; try discriminate.
    destruct w as [[f th]|]; [|intros [= <-]; discriminate].
    destruct (negb _); [intros [= <-]; discriminate|].
    repeat (match goal with |- bind ?x _ = _ -> _ => destruct x; cbn [bind]; try discriminate end).
    intros [= <-]. discriminate.
  Qed.

  Lemma node_at_null p : node_at (@Null T I V) p = Null.
  Proof. induction p; simpl; auto. Qed.
  Lemma node_at_cons (t : dtree T I V) b p : node_at t (b :: p) = node_at (child b t) p.
  Proof. reflexivity. Qed.

  Lemma rows_at_nil (t : dtree T I V) D : rows_at lt t [] D = D.
  Proof. unfold rows_at. simpl. induction D as [|e D IH]; simpl; [reflexivity|]. now rewrite IH. Qed.
  Lemma rows_at_left (v : V) n f t (g : I) l r p D :
    rows_at lt (Node (Info n v (Some (f, t, g))) l r) (true :: p) D = rows_at lt l p (lefts D f t).
  Proof.
    unfold rows_at. rewrite filter_filter. apply filter_ext. intros e. cbn [follows n_split child].
    now destruct (goes_left lt f t (fst e)).
  Qed.
  Lemma rows_at_right (v : V) n f t (g : I) l r p D :
    rows_at lt (Node (Info n v (Some (f, t, g))) l r) (false :: p) D = rows_at lt r p (rights D f t).
  Proof.
    unfold rows_at. rewrite filter_filter. apply filter_ext. intros e. cbn [follows n_split child].
    now destruct (goes_left lt f t (fst e)).
  Qed.

  Lemma build_nodes fuel : forall depth D t, matrix nf (map fst D) ->
    build fuel (map fst D) (map snd D) depth = Ok t -> forall p, node_ok t depth D p.
  Proof.
    induction fuel as [|fuel IH]; intros depth D t HM E; [discriminate|].
    apply build_grown in E; [|assumption]. destruct E as [v stop Ev Hwhy|v f th g l r Ev H1 H2 H3 H4 H5 Hl Hr].
    - intros [|b p]; unfold node_ok.
      + cbn [node_at fold_left length]. rewrite rows_at_nil, Nat.add_0_r. cbn [n_samples n_value n_split].
        split; [reflexivity|]. exists stop. split; [assumption|]. split; [reflexivity|]. split; [reflexivity|].
        destruct Hwhy as [H|[H|[H|[H|(_ & H)]]]]; tauto.
      + rewrite node_at_cons. destruct b; cbn [child]; rewrite node_at_null; trivial.
    - assert (Nl : l <> Null <-> min_samples_leaf P <= length (lefts D f th)).
      { destruct (Nat.leb_spec (min_samples_leaf P) (length (lefts D f th))) as [H|H].
        - split; [tauto|]. intros _. eapply build_not_null; eassumption.
        - subst l. split; [tauto|lia]. }
      assert (Nr : r <> Null <-> min_samples_leaf P <= length (rights D f th)).
      { destruct (Nat.leb_spec (min_samples_leaf P) (length (rights D f th))) as [H|H].
        - split; [tauto|]. intros _. eapply build_not_null; eassumption.
        - subst r. split; [tauto|lia]. }
      intros [|b p]; unfold node_ok.
      + cbn [node_at fold_left length app]. rewrite rows_at_nil, Nat.add_0_r, rows_at_left, rows_at_right, !rows_at_nil.
        cbn [n_samples n_value n_split]. split; [reflexivity|]. exists false. repeat (split; [assumption || reflexivity|]). assumption.
      + rewrite node_at_cons. cbn [length app]. rewrite <- Nat.add_succ_comm.
        destruct b; cbn [child]; rewrite ?rows_at_left, ?rows_at_right.
        * destruct (Nat.leb_spec (min_samples_leaf P) (length (lefts D f th))) as [H|H].
          -- exact (IH _ _ _ (matrix_filter _ _ HM) Hl p).
          -- subst l. rewrite node_at_null. trivial.
        * destruct (Nat.leb_spec (min_samples_leaf P) (length (rights D f th))) as [H|H].
          -- exact (IH _ _ _ (matrix_filter _ _ HM) Hr p).
          -- subst r. rewrite node_at_null. trivial.
  Qed.

  (** Depth. *)
  Lemma build_depth fuel : forall depth D t, matrix nf (map fst D) -> depth <= S (max_depth P) ->
    build fuel (map fst D) (map snd D) depth = Ok t ->
    forall p, node_at t p <> Null -> depth + length p <= S (max_depth P).
  Proof.
    induction fuel as [|fuel IH]; intros depth D t HM Hd E; [discriminate|].
    apply build_grown in E; [|assumption]. destruct E as [v stop Ev Hwhy|v f th g l r Ev H1 H2 H3 H4 H5 Hl Hr].
    - intros [|b p]; cbn [length]; [lia|]. rewrite node_at_cons. destruct b; cbn [child]; rewrite node_at_null; congruence.
    - intros [|b p]; cbn [length]; [lia|]. rewrite node_at_cons, <- Nat.add_succ_comm. destruct b; cbn [child]; intros Hn.
      + destruct (Nat.leb_spec (min_samples_leaf P) (length (lefts D f th))) as [H|H].
        * eapply (IH (S depth)); [|lia|exact Hl|exact Hn]. now apply matrix_filter.
        * subst l. rewrite node_at_null in Hn. congruence.
      + destruct (Nat.leb_spec (min_samples_leaf P) (length (rights D f th))) as [H|H].
        * eapply (IH (S depth)); [|lia|exact Hr|exact Hn]. now apply matrix_filter.
        * subst r. rewrite node_at_null in Hn. congruence.
  Qed.

  (** Rows at a split node are shared out between the two sides. *)
  Lemma rows_at_partition (t : dtree T I V) p D i l r s : node_at t p = Node i l r -> n_split i = Some s ->
    Permutation (rows_at lt t p D) (rows_at lt t (p ++ [true]) D ++ rows_at lt t (p ++ [false]) D).
  Proof.
    revert t D. induction p as [|b p IH]; intros t D Hn Hs.
    - cbn in Hn. subst t. cbn [app]. destruct i as [n v s']. cbn in Hs. subst s'. destruct s as [[f th] g].
      rewrite rows_at_left, rows_at_right, !rows_at_nil. apply filter_split.
    - rewrite node_at_cons in Hn. destruct t as [|i0 l0 r0]; [cbn [child] in Hn; rewrite node_at_null in Hn; discriminate|].
      destruct i0 as [n0 v0 [[[f0 t0] g0]|]].
      + cbn [app]. destruct b; cbn [child] in Hn.
        * rewrite !rows_at_left. now apply IH.
        * rewrite !rows_at_right. now apply IH.
      + assert (E : forall q, rows_at lt (Node (Info n0 v0 None) l0 r0) (b :: q) D = []).
        { intros q. unfold rows_at. cbn. clear. induction D; auto. }
        cbn [app]. rewrite !E. constructor.
  Qed.

  (** Definedness, for an invariant [Q] of the row sets reached. *)
  Lemma build_defined (Q : list (list T * T) -> Prop) fuel :
    (forall D, Q D -> exists r, node_value (map snd D) = Ok r) ->
    (forall D f t, Q D -> f < nf -> candidate lt mid D f t -> exists g, gain_at lt gain D f t = Ok g) ->
    (forall D f t g, Q D -> first_best lt mid nf gain gt imin D f t g -> Q (lefts D f t) /\ Q (rights D f t)) ->
    3 <= min_samples_split P ->
    forall depth D, matrix nf (map fst D) -> Q D ->
    depth <= S (max_depth P) -> S (max_depth P) < depth + fuel ->
    exists t, build fuel (map fst D) (map snd D) depth = Ok t.
  Proof.
    intros Hv Hg HQ Hs. induction fuel as [|fuel IH]; intros depth D HM HD Hd Hf; [lia|].
    cbn [build_tree]. destruct (Hv D HD) as ([v stop] & ->). cbn [bind]. rewrite map_length.
    destruct stop; [eauto|]. destruct (Nat.ltb_spec (length D) (min_samples_split P)); [eauto|].
    destruct (Nat.ltb_spec (max_depth P) depth); [eauto|].
    destruct (best_split_defined HM ltac:(lia)) as ([b w] & Eb); [intros; now apply Hg|].
    rewrite Eb. cbn [bind]. apply best_split_Ok in Eb; [|assumption]. destruct w as [[f th]|]; [|eauto].
    destruct Eb as (H3 & Hfb). destruct (gt b (min_decrease P)); cbn [negb]; [|eauto].
    destruct (column_spec HM (f := f)) as (c & C1 & C2 & C3); [apply Hfb|]. rewrite C1. cbn [bind].
    destruct (column_bools c th HM (proj1 Hfb) C2) as (B1 & B2).
    rewrite B1, B2. unfold rows_where.
    rewrite where_select_fst, where_select_snd. cbn [bind].
    rewrite (where_select_fst (fun x => negb (goes_left lt f th x))), (where_select_snd (fun x => negb (goes_left lt f th x))).
    cbn [bind]. rewrite !map_length. destruct (HQ D f th b HD Hfb) as (Q1 & Q2).
    destruct (IH (S depth) (lefts D f th)) as (l & El); [now apply matrix_filter|assumption|lia|lia|].
    destruct (IH (S depth) (rights D f th)) as (r & Er); [now apply matrix_filter|assumption|lia|lia|].
    rewrite El, Er. destruct (_ <=? _), (_ <=? _); cbn [bind]; eauto.
  Qed.

  (** A candidate with undefined gain makes the search undefined when no gain throws. *)
  Lemma scan_UB D cs s c : (forall y l r, gain y l r = UB \/ exists g, gain y l r = Ok g) ->
    In c cs -> gain_at lt gain D (fst c) (snd c) = UB -> scan D cs s = UB.
  Proof.
    intros Hg. revert s. induction cs as [|c' cs IH]; intros s; [intros []|]. rewrite scan_cons. intros [-> | Hin] E.
    - rewrite E. reflexivity.
    - unfold gain_at at 1. destruct (Hg (map snd D) (left_targets lt D (fst c') (snd c')) (right_targets lt D (fst c') (snd c'))) as [-> |(g & ->)]; cbn [bind]; auto.
  Qed.
  Lemma best_split_UB D f t : matrix nf (map fst D) -> 3 <= length D ->
    (forall y l r, gain y l r = UB \/ exists g, gain y l r = Ok g) ->
    f < nf -> candidate lt mid D f t -> gain_at lt gain D f t = UB ->
    best_split lt mid gt imin gain nf (map fst D) (map snd D) = UB.
  Proof.
    intros HM Hn Hg Hf Hc E. destruct (best_split_scan D HM Hn) as (cs & -> & _ & HC).
    apply (@scan_UB D cs _ (f, t)); [assumption|now apply HC|assumption].
  Qed.

  (** The fuel of [grow] is enough. *)
  Lemma mapM_no_fuel {A B} (f : A -> outcome B) l : (forall a, f a <> Fuel) -> mapM f l <> Fuel.
  Proof.
    intros H. induction l as [|a l IH]; simpl; [discriminate|]. specialize (H a).
    destruct (f a); cbn [bind]; try discriminate; [|congruence]. destruct (mapM f l); cbn [bind]; congruence.
  Qed.
  Lemma foldM_no_fuel {A S} (f : S -> A -> outcome S) l s : (forall s a, f s a <> Fuel) -> foldM f l s <> Fuel.
  Proof.
    intros H. revert s. induction l as [|a l IH]; intros s; simpl; [discriminate|]. specialize (H s a).
    destruct (f s a); cbn [bind]; try discriminate; [apply IH|congruence].
  Qed.
  Lemma bind_no_fuel {A B} (x : outcome A) (f : A -> outcome B) : x <> Fuel -> (forall a, f a <> Fuel) -> bind x f <> Fuel.
  Proof. destruct x; cbn [bind]; try discriminate; auto. Qed.
  Lemma vget_no_fuel {A} (l : list A) i : vget l i <> Fuel.
  Proof. unfold vget. destruct (nth_error l i); discriminate. Qed.
  Lemma divide_no_fuel X f t i k d : divide_loop (leb lt) X i f t k d <> Fuel.
  Proof.
    revert i k d. induction X as [|r X IH]; intros i k d; cbn [divide_loop]; [discriminate|].
    apply bind_no_fuel; [apply vget_no_fuel|]. intros v. destruct (leb lt v t); apply IH.
  Qed.
  Lemma best_split_no_fuel X y : (forall y l r, gain y l r <> Fuel) -> best_split lt mid gt imin gain nf X y <> Fuel.
  Proof.
    intros Hg. apply foldM_no_fuel. intros s f. apply bind_no_fuel; [apply mapM_no_fuel; intros; apply vget_no_fuel|].
    intros x. apply bind_no_fuel.
    { unfold choose_feature_threshold, argsort_col. apply bind_no_fuel; [destruct (_ <=? _); [discriminate|]; destruct (forallb _ _); discriminate|].
      intros idx. apply bind_no_fuel; [apply mapM_no_fuel; intros; apply vget_no_fuel|discriminate]. }
    intros ts. apply foldM_no_fuel. intros best t. unfold try_split, divide_on_feature. apply bind_no_fuel; [apply divide_no_fuel|].
    intros (a, b). do 2 (apply bind_no_fuel; [apply mapM_no_fuel; intros; apply vget_no_fuel|intros ?]).
    apply bind_no_fuel; [apply Hg|]. intros g. destruct (gt _ _); discriminate.
  Qed.
  Lemma build_no_fuel fuel : (forall ys, node_value ys <> Fuel) -> (forall y l r, gain y l r <> Fuel) ->
    forall X y depth, depth <= S (max_depth P) -> S (max_depth P) < depth + fuel -> build fuel X y depth <> Fuel.
  Proof.
    intros Hv Hg. induction fuel as [|fuel IH]; intros X y depth Hd Hf; [lia|].
    cbn [build_tree]. apply bind_no_fuel; [apply Hv|]. intros (v, stop).
    destruct stop; [discriminate|]. destruct (_ <? _); [discriminate|]. destruct (Nat.ltb_spec (max_depth P) depth); [discriminate|].
    apply bind_no_fuel; [apply best_split_no_fuel; assumption|]. intros (b, w). destruct w as [[f t]|]; [|discriminate].
    destruct (negb _); [discriminate|]. apply bind_no_fuel; [apply mapM_no_fuel; intros; apply vget_no_fuel|]. intros c.
    do 4 (apply bind_no_fuel; [apply mapM_no_fuel; intros; apply vget_no_fuel|intros ?]).
    apply bind_no_fuel; [destruct (_ <=? _); [apply IH; lia|discriminate]|]. intros l.
    apply bind_no_fuel; [destruct (_ <=? _); [apply IH; lia|discriminate]|]. discriminate.
  Qed.

  (** * Prediction *)
  Lemma walk_sound (t : dtree T I V) x i : walk lt t x = Ok i ->
    exists p r, node_at t p = Node i Null r /\ follows lt t p x = true.
  Proof.
    induction t as [|i0 l IHl r IHr]; [discriminate|]. cbn [walk]. destruct l as [|il ll lr] eqn:El.
    - intros [= <-]. exists [], r. auto.
    - rewrite <- El in *. destruct (n_split i0) as [[[f th] g]|] eqn:Es; [|discriminate].
      unfold vget. destruct (nth_error x f) as [v|] eqn:Ex; cbn [bind]; [|discriminate].
      assert (Eg : goes_left lt f th x = leb lt v th) by (unfold goes_left, leb; now rewrite Ex).
      destruct (leb lt v th); intros E.
      + destruct (IHl E) as (p & r' & H1 & H2). exists (true :: p), r'. rewrite node_at_cons. cbn [child follows].
        rewrite Es, Eg, H2. auto.
      + destruct (IHr E) as (p & r' & H1 & H2). exists (false :: p), r'. rewrite node_at_cons. cbn [child follows].
        rewrite Es, Eg, H2. auto.
  Qed.

  Lemma walk_total (t : dtree T I V) x :
    (forall p i l r, node_at t p = Node i l r -> follows lt t p x = true -> l <> Null ->
       r <> Null /\ exists f th g, n_split i = Some (f, th, g) /\ f < length x) ->
    t <> Null -> exists i, walk lt t x = Ok i.
  Proof.
    induction t as [|i0 l IHl r IHr]; [congruence|]. intros H _. cbn [walk]. destruct l as [|il ll lr] eqn:El; [eauto|].
    rewrite <- El in *. destruct (H [] i0 l r eq_refl eq_refl) as (Hr & f & th & g & Es & Hf); [congruence|].
    rewrite Es. destruct (nth_error x f) as [v|] eqn:Ex; [|apply nth_error_None in Ex; lia].
    unfold vget. rewrite Ex. cbn [bind].
    assert (Eg : goes_left lt f th x = leb lt v th) by (unfold goes_left, leb; now rewrite Ex).
    destruct (leb lt v th).
    - apply IHl; [|congruence]. intros p i l' r' E1 E2. apply (H (true :: p)); [exact E1|]. cbn [follows child]. rewrite Es, Eg, E2. reflexivity.
    - apply IHr; [|assumption]. intros p i l' r' E1 E2. apply (H (false :: p)); [exact E1|]. cbn [follows child]. rewrite Es, Eg, E2. reflexivity.
  Qed.

  (** The path of the walk is the only one that ends at a node without left child. *)
  Lemma follows_unique (t : dtree T I V) x p q i j r s :
    node_at t p = Node i Null r -> node_at t q = Node j Null s ->
    follows lt t p x = true -> follows lt t q x = true ->
    (forall k i l r, node_at t k = Node i l r -> l = Null -> r = Null) -> p = q.
  Proof.
    revert t q. induction p as [|b p IH]; intros t q N1 N2 F1 F2 HN.
    - destruct q as [|c q]; [reflexivity|]. cbn in N1. subst t. rewrite node_at_cons in N2.
      assert (Hr : r = Null) by (apply (HN [] i Null r); reflexivity). subst r.
      destruct c; cbn [child] in N2; rewrite node_at_null in N2; discriminate.
    - destruct t as [|i0 l0 r0]; [rewrite node_at_cons in N1; cbn [child] in N1; rewrite node_at_null in N1; discriminate|].
      destruct q as [|c q].
      + cbn in N2. injection N2 as <- -> <-. assert (r0 = Null) as -> by (apply (HN [] i0 Null r0); reflexivity).
        rewrite node_at_cons in N1. destruct b; cbn [child] in N1; rewrite node_at_null in N1; discriminate.
      + cbn [follows] in F1, F2. destruct (n_split i0) as [[[f th] g]|]; [|discriminate].
        apply andb_prop in F1. apply andb_prop in F2. destruct F1 as (B1 & F1), F2 as (B2 & F2).
        apply eqb_prop in B1. apply eqb_prop in B2. subst b c. f_equal.
        apply (IH _ q) in F1; auto. intros k i1 l1 r1 Hk. apply (HN (goes_left lt f th x :: k) i1 l1 r1). exact Hk.
  Qed.
End T.
