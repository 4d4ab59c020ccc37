(** KD-tree: the whole construction, and the two kinds of query. *)
From Verif Require Import Base Sorting Common_Model CommonMisc_Proofs RDR_Proofs CombPos_Proofs Argsort_Model
  Argsort_Proofs KDTree_Model KDBuild_Proofs.
Set Implicit Arguments.

Section KD.
  Variable T : Type.
  Variable ltb : T -> T -> bool.
  Variable sub : T -> T -> T.
  Variable abs : T -> T.
  Hypothesis ltb_irrefl : forall a, ltb a a = false.
  Hypothesis ltb_trans : forall a b c, ltb a b = true -> ltb b c = true -> ltb a c = true.
  Hypothesis ltb_total : forall a b, ltb a b = false -> ltb b a = false -> a = b.
  Variable nf : nat.
  Hypothesis Hnf : 0 < nf.

  Notation tle a b := (ltb b a = false).
  Notation rows_ok := (@rows_ok T nf).

  (** * Construction *)
  Lemma bounds_spec f data (P : T -> list T -> Prop) : rows_ok data ->
    (forall c, length c = length data -> exists v, f c = Some v /\ P v c) ->
    exists b, bounds f nf data = Ok b /\ length b = nf /\
      forall j v d, nth_error b j = Some v -> P v (map (fun r => nth j r d) data).
  Proof.
    intros Hok Hf. unfold bounds.
    destruct data as [|r0 data0] eqn:Ed.
    - destruct (Hf []) as (v & Ev & Pv); [reflexivity|].
      exists (map (fun _ => v) (seq 0 nf)). split.
      + apply mapM_Ok. intros j Hj. simpl. now rewrite Ev.
      + split; [now rewrite map_length, seq_length|]. intros j w d Hw.
        apply nth_error_In, in_map_iff in Hw. destruct Hw as (_ & <- & _). exact Pv.
    - rewrite <- Ed in *. clear Ed.
      assert (Hd : exists d : T, True).
      { destruct r0 as [|d]; [|eauto]. destruct data as [|r data]; [|inversion Hok; subst; destruct r; simpl in *; [lia|eauto]].
        destruct (Hf []) as (v & _); [reflexivity|eauto]. }
      destruct Hd as (d & _).
      destruct (@mapM_exists _ _ (fun j => let! c := col_of data j in match f c with Some v => Ok v | None => UB end)
                 (fun j v => P v (map (fun r => nth j r d) data)) (seq 0 nf)) as (b & Eb & HF).
      { intros j Hj. apply in_seq in Hj. rewrite (@col_of_Ok T nf data j d Hok) by lia. cbn [bind].
        destruct (Hf (map (fun r => nth j r d) data)) as (v & Ev & Pv); [now rewrite map_length|].
        rewrite Ev. eauto. }
      exists b. split; [exact Eb|].
      assert (Hl : nf = length b) by (clear -HF; rewrite <- (seq_length nf 0); induction HF; simpl; congruence). split; [lia|].
      intros j v d' Hv.
      assert (Hj : j < nf) by (rewrite Hl; apply nth_error_Some; congruence).
      assert (HP : P v (map (fun r => nth j r d) data)).
      { assert (G : forall l1 l2, Forall2 (fun j v => P v (map (fun r => nth j r d) data)) l1 l2 ->
                forall j x y, nth_error l1 j = Some x -> nth_error l2 j = Some y -> P y (map (fun r => nth x r d) data)).
        { induction 1; intros [|i] p q E1 E2; simpl in *; try discriminate; [injection E1 as <-; injection E2 as <-; assumption|eauto]. }
        eapply G; [exact HF| |exact Hv]. rewrite (nth_error_nth' _ 0) by (rewrite seq_length; lia).
        now rewrite seq_nth by lia. }
      replace (map (fun r => nth j r d') data) with (map (fun r => nth j r d) data); [exact HP|].
      apply map_ext_in. intros r Hr. apply nth_indep. unfold KDBuild_Proofs.rows_ok in Hok.
      rewrite Forall_forall in Hok. rewrite (Hok r Hr). assumption.
  Qed.

  Lemma box_spec data : rows_ok data -> data <> [] ->
    exists lo hi, bounds (col_min ltb) nf data = Ok lo /\ bounds (col_max ltb) nf data = Ok hi /\
      length lo = nf /\ length hi = nf /\ Forall (fun r => in_rect ltb nf r (lo, hi)) data.
  Proof.
    intros Hok Hne.
    destruct (@bounds_spec (col_min ltb) data (fun v c => forall y, In y c -> tle v y) Hok) as (lo & El & Hl & HL).
    { intros [|x c] Hc; [destruct data; simpl in Hc; congruence|]. simpl. eexists. split; [reflexivity|].
      destruct (fold_tmin_le ltb ltb_irrefl ltb_trans ltb_total c x) as (H1 & H2). intros y [<-|Hy]; auto. }
    destruct (@bounds_spec (col_max ltb) data (fun v c => forall y, In y c -> tle y v) Hok) as (hi & Eh & Hh & HH).
    { intros [|x c] Hc; [destruct data; simpl in Hc; congruence|]. simpl. eexists. split; [reflexivity|].
      destruct (fold_tmax_ge ltb ltb_irrefl ltb_trans ltb_total c x) as (H1 & H2). intros y [<-|Hy]; auto. }
    exists lo, hi. repeat split; auto. apply Forall_forall. intros r Hr.
    pose proof Hok as Hok'. unfold KDBuild_Proofs.rows_ok in Hok'. rewrite Forall_forall in Hok'.
    repeat split; simpl; auto.
    - intros j v l Hv Hlj. apply (HL j l v Hlj). apply in_map_iff. exists r. split; [|assumption].
      now apply nth_error_nth.
    - intros j v h Hv Hhj. apply (HH j h v Hhj). apply in_map_iff. exists r. split; [|assumption].
      now apply nth_error_nth.
  Qed.

  (** The widest column is column 0. *)
  Definition first_widest (data : list (list T)) : Prop :=
    forall j a b d, j < nf -> range_at ltb sub abs data j d = Some a -> range_at ltb sub abs data 0 d = Some b -> tle a b.

  Lemma build_tree_spec leaf_size data : 2 <= leaf_size -> 3 <= length data -> rows_ok data ->
    exists tree nd t,
      build_tree ltb sub abs leaf_size nf data = Ok tree /\
      nth_error tree 0 = Some nd /\ rep 1 (length tree) tree nd t /\ kd_size t = length tree /\
      Permutation (kd_pairs t) (combine data (seq 0 (length data))) /\
      cuts_ok ltb nf t /\ rects_len nf t /\
      (first_widest data -> boxes_ok ltb nf t) /\
      Forall (fun l => length (fst l) = length (snd l) /\ 0 < length (fst l) <= leaf_size /\ rows_ok (fst l)) (kd_leaves t) /\
      (5 <= leaf_size -> 6 <= length data -> Forall (fun l => 3 <= length (fst l)) (kd_leaves t)).
  Proof.
    intros Hleaf H3 Hok.
    assert (Hne : data <> []) by (intros ->; simpl in H3; lia).
    assert (EB : forall X : outcome (list (node T)), match data with [] => UB | _ :: _ => X end = X)
      by (intros; destruct data; congruence).
    destruct (box_spec Hok Hne) as (lo & hi & El & Eh & Hll & Hlh & Hbox).
    destruct (@split_rows_spec T ltb sub abs ltb_irrefl ltb_trans ltb_total nf data (seq 0 (length data)) Hok Hnf H3)
      as (axis & val & data' & idx' & Es & Ea & Hax & Hld & Hli & Hperm & Hbel & Habv).
    { now rewrite seq_length. }
    set (n := length data) in *. set (mid := n / 2) in *.
    assert (Hmid : 0 < mid /\ mid < n /\ 2 * mid <= n).
    { subst mid. split; [apply Nat.div_str_pos; lia|]. split; [apply Nat.div_lt; lia|].
      apply Nat.mul_div_le. lia. }
    destruct (@vset_Ok _ hi 0 val) as (hi' & Ehi & Hlhi & Hnhi); [lia|].
    destruct (@vset_Ok _ lo 0 val) as (lo' & Elo & Hllo & Hnlo); [lia|].
    set (nd0 := mk_node None None None (Some (lo, hi')) (Some (lo', hi))).
    assert (Hin' : forall r, In r data' -> In r data).
    { intros r Hr. apply (In_nth _ _ []) in Hr. destruct Hr as (i & Hi & <-).
      assert (Hin : In (nth i data' [], nth i idx' 0) (combine data (seq 0 n))).
      { apply (Permutation_in _ Hperm). rewrite <- combine_nth by lia. apply nth_In.
        rewrite combine_length. lia. }
      now apply in_combine_l in Hin. }
    assert (Hok' : forall r, In r data' -> length r = nf).
    { intros r Hr. unfold KDBuild_Proofs.rows_ok in Hok. rewrite Forall_forall in Hok. apply Hok. auto. }
    assert (Hsub : forall r, In r (firstn mid data') \/ In r (skipn mid data') -> In r data').
    { intros r Hr. rewrite <- (firstn_skipn mid data'). now apply in_app_iff. }
    destruct (@build_item T ltb sub abs ltb_irrefl ltb_trans ltb_total nf leaf_size Hleaf Hnf (n - mid)
                (mk_item false 0 (skipn mid data') (skipn mid idx')) [nd0] nd0 lo' hi) as
      (tr & tree3 & cr & Er & Hcr & Hlr & Hpr & Hfr & (ndr & Hndr & Hrepr) & Hpermr & Hcutr & Hrlr & Hboxr & Hlvr & Hminr);
      simpl; try (rewrite skipn_length; lia); auto; try lia.
    { apply Forall_forall. auto. }
    simpl in Hpr, Hfr, Hpermr, Hboxr, Hlr, Hndr, Hrepr.
    destruct (@build_item T ltb sub abs ltb_irrefl ltb_trans ltb_total nf leaf_size Hleaf Hnf mid
                (mk_item true 0 (firstn mid data') (firstn mid idx')) tree3 (set_child nd0 false 1) lo hi') as
      (tl & tree4 & cl & Ecl & Hcl & Hll4 & Hpl4 & Hfl & (ndl & Hndl & Hrepl) & Hperml & Hcutl & Hrll & Hboxl & Hlvl & Hminl);
      simpl; try (rewrite firstn_length; lia); auto; try lia.
    { apply Forall_forall. auto. }
    simpl in Hpl4, Hfl, Hperml, Hboxl.
    assert (Hsz : forall t : kd T, 0 < kd_size t) by (destruct t; simpl; lia).
    pose proof (Hsz tl) as Hszl. pose proof (Hsz tr) as Hszr.
    exists tree4, (set_child (set_child nd0 false 1) true (length tree3)), (KNode (lo, hi') (lo', hi) tl tr).
    split.
    { unfold build_tree. rewrite EB. rewrite El, Eh. cbn [bind]. fold n. rewrite Es. cbn [bind]. rewrite Ehi, Elo. cbn [bind].
      fold n. fold mid. unfold two_items. fold nd0.
      replace (S (2 * n)) with (cr + (cl + S (2 * n - cr - cl))) by lia.
      rewrite Er, Ecl. reflexivity. }
    split; [exact Hpl4|]. split.
    { simpl. repeat split.
      - exists (length tree3), ndl. split; [reflexivity|]. split; [lia|].
        split; [assumption|]. eapply rep_widen; [| |exact Hrepl]; lia.
      - exists 1, ndr. split; [reflexivity|]. split; [lia|]. split.
        + rewrite Hfl; [assumption|lia|lia].
        + apply (@rep_widen T 2 (length tree3)); [lia|lia|].
          eapply rep_frame; [|exact Hrepr]. intros i Hi. apply Hfl; lia. }
    split; [simpl; lia|].
    assert (Hpairs : Permutation (kd_pairs tl ++ kd_pairs tr) (combine data (seq 0 n))).
    { rewrite Hperml, Hpermr, <- combine_app by (rewrite !firstn_length; lia).
      now rewrite !firstn_skipn. }
    assert (Hinl : forall p, In p (kd_pairs tl) -> In (fst p) (firstn mid data')).
    { intros (r & i) Hp. apply (Permutation_in _ Hperml) in Hp. now apply in_combine_l in Hp. }
    assert (Hinr : forall p, In p (kd_pairs tr) -> In (fst p) (skipn mid data')).
    { intros (r & i) Hp. apply (Permutation_in _ Hpermr) in Hp. now apply in_combine_l in Hp. }
    rewrite Forall_forall in Hbel, Habv.
    split; [exact Hpairs|]. split.
    { simpl. split; [|tauto]. exists axis, val. split; [assumption|].
      split; apply Forall_forall; intros p Hp; auto. }
    split.
    { simpl. repeat split; auto; lia. }
    split.
    { intros Hfw.
      assert (axis = 0).
      { assert (Hd : exists d : T, True).
        { clear -Hok Hne Hnf. destruct data as [|r data]; [congruence|]. inversion Hok; subst. destruct r; simpl in *; [lia|eauto]. }
        destruct Hd as (d & _).
        destruct (@find_axis_Ok T ltb sub abs nf data d Hok Hnf) as (a & Ea2 & _ & H0).
        rewrite Ea in Ea2. injection Ea2 as <-. apply H0; [|assumption]. intros j a b. apply (Hfw j a b d). }
      subst axis. rewrite Forall_forall in Hbox.
      assert (Hbl : forall r, In r (firstn mid data') -> in_rect ltb nf r (lo, hi')).
      { intros r Hr. eapply in_rect_hi; [apply Hbox, Hin', Hsub; now left|apply Hbel; exact Hr|lia|exact Hnhi]. }
      assert (Hbr : forall r, In r (skipn mid data') -> in_rect ltb nf r (lo', hi)).
      { intros r Hr. eapply in_rect_lo; [apply Hbox, Hin', Hsub; now right|apply Habv; exact Hr|lia|exact Hnlo]. }
      simpl. split; [apply Forall_forall; intros p Hp; auto|].
      split; [apply Forall_forall; intros p Hp; auto|].
      split; [apply Hboxl|apply Hboxr]; apply Forall_forall; auto. }
    split; [apply Forall_app; auto|].
    intros H5 H6. simpl. apply Forall_app.
    assert (3 <= mid) by (subst mid; apply Nat.div_le_lower_bound; lia).
    split; [apply Hminl|apply Hminr]; lia.
  Qed.

  (** Construction is undefined in all other cases. *)
  Lemma split_rows_length data idx a : split_rows ltb sub abs nf data idx = Ok a ->
    3 <= length data /\ length (snd (fst a)) = length data.
  Proof.
    unfold split_rows. destruct (find_partition_axis ltb sub abs nf data) as [axis| | |]; try discriminate. cbn [bind].
    destruct (col_of data axis) as [c| | |] eqn:Ec; try discriminate. cbn [bind].
    assert (Hlc : length c = length data).
    { clear -Ec. unfold col_of in Ec. revert c Ec. induction data as [|r data IH]; intros c Ec; simpl in *.
      - now injection Ec as <-.
      - destruct (vget r axis); try discriminate. cbn [bind] in Ec.
        destruct (mapM (fun r => vget r axis) data) as [bs| | |]; try discriminate. injection Ec as <-.
        simpl. now rewrite (IH bs). }
    destruct (Nat.lt_ge_cases (length data) 3) as [Hlt|Hge].
    - intros E. exfalso. destruct data as [|r1 [|r2 [|r3 data]]]; simpl in Hlt; try lia.
      + destruct c; [|discriminate]. vm_compute in E. discriminate.
      + rewrite argsort_col_one in E by assumption. cbn [bind] in E. vm_compute in E. discriminate.
      + rewrite argsort_col_two in E by assumption. discriminate.
    - destruct c as [|d c0] eqn:Ed; [simpl in Hlc; lia|]. rewrite <- Ed in *. clear Ed.
      destruct (@argsort_col_spec _ ltb (ltb_asym ltb ltb_irrefl ltb_trans)
                (fun a b c H1 H2 => tle_trans ltb ltb_trans ltb_total a b c H1 H2) c d) as (order & Eo & Hp & _); [lia|].
      rewrite Eo. cbn [bind].
      rewrite (@select_Ok _ data order []).
      2: { apply Forall_forall. intros i Hi. apply (Permutation_in _ Hp) in Hi. apply in_seq in Hi. lia. }
      cbn [bind]. destruct (select idx order); try discriminate. cbn [bind].
      match goal with |- bind ?x _ = _ -> _ => destruct x; try discriminate end. cbn [bind].
      match goal with |- bind ?x _ = _ -> _ => destruct x; try discriminate end. cbn [bind].
      intros E. injection E as <-. simpl. rewrite map_length. apply Permutation_length in Hp.
      rewrite seq_length in Hp. lia.
  Qed.

  Lemma build_loop_small leaf_size : leaf_size < 2 -> forall fuel it stk tree tree',
    2 <= length (it_data it) -> build_loop ltb sub abs fuel leaf_size nf (it :: stk) tree <> Ok tree'.
  Proof.
    intros Hleaf. induction fuel as [|fuel IH]; intros it stk tree tree' Hm; cbn [build_loop]; [discriminate|].
    destruct (nth_error tree (it_parent it)) as [parent|]; [|discriminate].
    destruct (vset tree (it_parent it) (set_child parent (it_left it) (length tree))) as [tree1| | |]; try discriminate.
    cbn [bind]. destruct (Nat.leb_spec (length (it_data it)) leaf_size) as [Hle|Hgt]; [lia|].
    destruct (split_rows ltb sub abs nf (it_data it) (it_idx it)) as [[[[axis val] data'] idx']| | |] eqn:Es; try discriminate.
    cbn [bind]. apply split_rows_length in Es. simpl in Es. destruct Es as (H3 & Hl).
    destruct (if it_left it then nd_lrect parent else nd_rrect parent) as [[lo hi]|]; [|discriminate].
    destruct (vset hi axis val); try discriminate. cbn [bind].
    destruct (vset lo axis val); try discriminate. cbn [bind].
    unfold two_items. cbn [app]. apply IH. cbn [it_data]. rewrite skipn_length, Hl.
    assert (length (it_data it) / 2 * 2 <= length (it_data it)) by (rewrite Nat.mul_comm; apply Nat.mul_div_le; lia).
    lia.
  Qed.

  Lemma build_tree_defined leaf_size data tree : build_tree ltb sub abs leaf_size nf data = Ok tree ->
    3 <= length data /\ 2 <= leaf_size.
  Proof.
    unfold build_tree. destruct data as [|r0 data0] eqn:Ed; [discriminate|]. rewrite <- Ed. clear Ed r0 data0.
    destruct (bounds (col_min ltb) nf data) as [lo| | |]; try discriminate. cbn [bind].
    destruct (bounds (col_max ltb) nf data) as [hi| | |]; try discriminate. cbn [bind].
    destruct (split_rows ltb sub abs nf data (seq 0 (length data))) as [[[[axis val] data'] idx']| | |] eqn:Es; try discriminate.
    cbn [bind]. apply split_rows_length in Es. simpl in Es. destruct Es as (H3 & Hl).
    destruct (vset hi 0 val); try discriminate. cbn [bind].
    destruct (vset lo 0 val); try discriminate. cbn [bind].
    intros E. split; [assumption|]. destruct (Nat.lt_ge_cases leaf_size 2) as [Hlt|]; [|assumption].
    exfalso. revert E. unfold two_items. apply build_loop_small; [assumption|]. cbn [it_data]. rewrite skipn_length, Hl.
    assert (length data / 2 * 2 <= length data) by (rewrite Nat.mul_comm; apply Nat.mul_div_le; lia).
    lia.
  Qed.

  (** * Queries *)
  Variable norm : list T -> T.
  Hypothesis norm_mono : forall a b, length a = length b ->
    (forall j x y, nth_error a j = Some x -> nth_error b j = Some y -> tle (abs x) (abs y)) ->
    tle (norm a) (norm b).
  Hypothesis clamp_closer : forall q lo hi x, tle lo x -> tle x hi ->
    tle (abs (sub (clamp1 ltb q lo hi) q)) (abs (sub x q)).

  Notation dist := (distance sub norm).

  Lemma clamp_length q lo hi : length q = nf -> length lo = nf -> length hi = nf ->
    length (clamp ltb q lo hi) = nf.
  Proof.
    clear Hnf. revert nf lo hi. induction q as [|x q IH]; intros n lo hi H1 H2 H3; destruct lo, hi; simpl in *; try lia.
    destruct n; [lia|]. f_equal. apply IH; lia.
  Qed.
  Lemma clamp_nth q : forall lo hi j x l h,
    nth_error q j = Some x -> nth_error lo j = Some l -> nth_error hi j = Some h ->
    nth_error (clamp ltb q lo hi) j = Some (clamp1 ltb x l h).
  Proof.
    induction q as [|y q IH]; intros [|a lo] [|b hi] [|j] x l h H1 H2 H3; simpl in *; try discriminate.
    - congruence.
    - now apply IH.
  Qed.
  Lemma nth_error_diff x y j v : nth_error (diff sub x y) j = Some v ->
    exists a b, nth_error x j = Some a /\ nth_error y j = Some b /\ v = sub a b.
  Proof.
    unfold diff. revert x y. induction j as [|j IH]; intros [|a x] [|b y] H; simpl in *; try discriminate.
    - injection H as <-. eauto.
    - now apply IH.
  Qed.
  Lemma diff_length x y : length x = nf -> length y = nf -> length (diff sub x y) = nf.
  Proof. intros H1 H2. unfold diff. rewrite map_length, combine_length. lia. Qed.

  (** The box distance is a lower bound for every row in the box. *)
  Lemma box_bound r q b : in_rect ltb nf r b -> length q = nf ->
    tle (dist (clamp ltb q (fst b) (snd b)) q) (dist r q).
  Proof.
    intros (H1 & H2 & H3 & H4 & H5) Hq. apply norm_mono.
    - rewrite !diff_length; auto. now apply clamp_length.
    - intros j x y Hx Hy. apply nth_error_diff in Hx, Hy.
      destruct Hx as (c & p & Hc & Hp & ->). destruct Hy as (v & p' & Hv & Hp' & ->).
      rewrite Hp in Hp'. injection Hp' as <-.
      assert (Hj : j < nf) by (rewrite <- H1; apply nth_error_Some; congruence).
      destruct (nth_error (fst b) j) as [l|] eqn:El; [|apply nth_error_None in El; lia].
      destruct (nth_error (snd b) j) as [h|] eqn:Eh; [|apply nth_error_None in Eh; lia].
      rewrite (clamp_nth _ _ _ _ Hp El Eh) in Hc. injection Hc as <-.
      apply clamp_closer; eauto.
  Qed.

  Notation kle a b := (klt ltb b a = false).
  Lemma klt_asym a b : klt ltb a b = true -> klt ltb b a = false.
  Proof. destruct a, b; simpl; try discriminate; auto. apply ltb_asym; assumption. Qed.
  Lemma kle_trans a b c : kle a b -> kle b c -> kle a c.
  Proof.
    destruct a, b, c; simpl; try discriminate; auto. apply tle_trans; assumption.
  Qed.
  Lemma kle_refl a : kle a a.
  Proof. destruct a; simpl; auto. Qed.
  Lemma kle_total a b : kle a b \/ kle b a.
  Proof. destruct (klt ltb a b) eqn:E; [left; now apply klt_asym|now right]. Qed.

  Notation entry := (option T * nat)%type.
  Variable pick : nat -> nat.

  (** ** Heap *)
  Lemma exists_max (h : list entry) : h <> [] -> exists e, In e h /\ is_max ltb h e = true.
  Proof.
    induction h as [|x h IH]; [congruence|]. intros _. destruct h as [|y h].
    - exists x. split; [now left|]. simpl. now rewrite kle_refl.
    - destruct IH as (e & He & Hm); [discriminate|].
      destruct (klt ltb (fst e) (fst x)) eqn:E.
      + exists x. split; [now left|]. unfold is_max in *. apply forallb_forall. intros z Hz.
        rewrite forallb_forall in Hm. apply Bool.negb_true_iff.
        destruct Hz as [<-|Hz]; [apply kle_refl|]. specialize (Hm z Hz). apply Bool.negb_true_iff in Hm.
        apply klt_asym in E. eapply kle_trans; eassumption.
      + exists e. split; [now right|]. unfold is_max in *. simpl forallb. rewrite E. simpl. exact Hm.
  Qed.

  Lemma pop_spec n (h : list entry) : h <> [] ->
    exists e h', pop ltb pick n h = Ok (e, h') /\ Permutation h (e :: h') /\
      (forall x, In x h -> kle (fst x) (fst e)).
  Proof.
    intros Hne. unfold pop. set (ps := max_positions ltb h).
    assert (Hps : ps <> []).
    { destruct (exists_max Hne) as (e & He & Hm). apply In_nth_error in He. destruct He as (i & Hi).
      assert (Hin : In i ps).
      { unfold ps, max_positions. apply filter_In. rewrite Hi. split; [|assumption].
        apply in_seq. split; [lia|]. apply nth_error_Some. congruence. }
      destruct ps; [destruct Hin|discriminate]. }
    destruct (vget ps (pick n mod length ps)) as [i| | |] eqn:Ev; unfold vget in Ev;
      destruct (nth_error ps (pick n mod length ps)) as [i'|] eqn:En; try discriminate.
    2: { exfalso. apply nth_error_None in En.
         assert (pick n mod length ps < length ps) by (apply Nat.mod_upper_bound; destruct ps; simpl; congruence || lia).
         lia. }
    injection Ev as ->. cbn [bind]. apply nth_error_In in En. unfold ps, max_positions in En.
    apply filter_In in En. destruct En as (Hi & Hmax).
    destruct (nth_error h i) as [e|] eqn:Ee; [|discriminate].
    unfold vget. rewrite Ee. cbn [bind]. eexists e, _. split; [reflexivity|].
    split.
    - apply nth_error_split in Ee. destruct Ee as (l1 & l2 & -> & Hl).
      rewrite firstn_app, <- Hl, Nat.sub_diag, firstn_all. simpl firstn. rewrite app_nil_r.
      replace (skipn (S (length l1)) (l1 ++ e :: l2)) with l2.
      + symmetry. apply Permutation_middle.
      + rewrite skipn_app. rewrite skipn_all2 by lia.
        replace (S (length l1) - length l1) with 1 by lia. reflexivity.
    - intros x Hx. unfold is_max in Hmax. rewrite forallb_forall in Hmax.
      apply Bool.negb_true_iff. apply Hmax. assumption.
  Qed.

  Lemma top_key_spec (h : list entry) : h <> [] -> exists m, top_key ltb h = Ok m /\
    (forall x, In x h -> kle (fst x) m) /\ exists x, In x h /\ fst x = m.
  Proof.
    destruct h as [|e h]; [congruence|]. intros _. unfold top_key. eexists. split; [reflexivity|].
    assert (G : forall (l : list entry) m, let M := fold_left (fun m x => if klt ltb m (fst x) then fst x else m) l m in
              kle m M /\ (forall x, In x l -> kle (fst x) M) /\ (M = m \/ exists x, In x l /\ fst x = M)).
    { induction l as [|x l IH]; intros m; simpl; [split; [apply kle_refl|split; [contradiction|now left]]|].
      destruct (IH (if klt ltb m (fst x) then fst x else m)) as (H1 & H2 & H3).
      destruct (klt ltb m (fst x)) eqn:E.
      - split; [eapply kle_trans; [apply klt_asym; exact E|exact H1]|]. split.
        + intros y [<-|Hy]; auto.
        + destruct H3 as [H3|(y & Hy & H3)]; right; [exists x|exists y]; auto.
      - split; [assumption|]. split.
        + intros y [<-|Hy]; [|auto]. eapply kle_trans; eassumption.
        + destruct H3 as [H3|(y & Hy & H3)]; [now left|right; exists y; auto]. }
    destruct (G h (fst e)) as (H1 & H2 & H3). split.
    - intros x [<-|Hx]; auto.
    - destruct H3 as [H3|(x & Hx & H3)]; [exists e|exists x]; simpl; auto.
  Qed.

  (** The heap keeps the [k] nearest of everything offered: [h] kept, [disc] given up. *)
  Definition keeps (k : nat) (h disc offered : list entry) : Prop :=
    length h = k /\ Permutation (h ++ disc) offered /\
    forall x y, In x h -> In y disc -> kle (fst x) (fst y).

  Lemma push_spec k h n e disc off : 0 < k -> keeps k h disc off ->
    exists h' n' disc', push_nn ltb pick k (h, n) e = Ok (h', n') /\ keeps k h' disc' (e :: off).
  Proof.
    intros Hk (Hl & Hp & Hle). unfold push_nn. rewrite app_length. simpl length.
    rewrite (proj2 (Nat.ltb_lt _ _)) by lia.
    destruct (@pop_spec n (h ++ [e])) as (m & h' & Ep & Hperm & Hmax); [now destruct h|].
    rewrite Ep. cbn [bind]. exists h', (S n), (m :: disc). split; [reflexivity|].
    assert (Hlh : length h' = k).
    { apply Permutation_length in Hperm. rewrite app_length in Hperm. simpl in Hperm. lia. }
    split; [assumption|]. split.
    - transitivity (m :: h' ++ disc); [symmetry; apply Permutation_middle|].
      change (m :: h' ++ disc) with ((m :: h') ++ disc). rewrite <- Hperm, <- app_assoc. simpl.
      rewrite <- Hp. symmetry. apply Permutation_middle.
    - intros x y Hx Hy. assert (Hxm : kle (fst x) (fst m)).
      { apply Hmax. apply (Permutation_in _ (Permutation_sym Hperm)). now right. }
      destruct Hy as [<-|Hy]; [assumption|].
      assert (Hm : In m (h ++ [e])) by (apply (Permutation_in _ (Permutation_sym Hperm)); now left).
      apply in_app_iff in Hm. destruct Hm as [Hm|[Hm|[]]].
      + eapply kle_trans; [exact Hxm|]. now apply Hle.
      + subst m. assert (Hh : Permutation h h').
        { apply (Permutation_cons_inv (a := e)). rewrite <- Hperm. symmetry.
          rewrite Permutation_app_comm. simpl. reflexivity. }
        apply Hle; [|assumption]. now apply (Permutation_in _ (Permutation_sym Hh)).
  Qed.

  Lemma push_all k : 0 < k -> forall es h n disc off, keeps k h disc off ->
    exists h' n' disc', foldM (push_nn ltb pick k) es (h, n) = Ok (h', n') /\ keeps k h' disc' (es ++ off).
  Proof.
    intros Hk. induction es as [|e es IH]; intros h n disc off H; cbn [foldM app].
    - exists h, n, disc. auto.
    - destruct (push_spec n e Hk H) as (h1 & n1 & d1 & E1 & H1). rewrite E1. cbn [bind].
      destruct (IH h1 n1 d1 _ H1) as (h2 & n2 & d2 & E2 & H2 & H3 & H4). exists h2, n2, d2.
      split; [assumption|]. split; [assumption|]. split; [|assumption].
      rewrite H3. symmetry. apply Permutation_middle.
  Qed.

  (* after [k] offers not above [d], nothing above [d] is kept *)
  Lemma keeps_bound k h disc off es d : keeps k h disc (es ++ off) -> length es = k ->
    Forall (fun e => kle (fst e) d) es -> forall x, In x h -> kle (fst x) d.
  Proof.
    intros (Hl & Hp & Hle) Hes Hall x Hx.
    destruct (klt ltb d (fst x)) eqn:E; [|reflexivity]. exfalso.
    assert (Hd : forall y, In y disc -> klt ltb d (fst y) = true).
    { intros y Hy. specialize (Hle x y Hx Hy). destruct (klt ltb d (fst y)) eqn:E2; [reflexivity|].
      rewrite (kle_trans _ _ _ Hle E2) in E. discriminate. }
    set (f := fun e : entry => negb (klt ltb d (fst e))).
    assert (H1 : length (filter f (es ++ off)) >= k).
    { rewrite filter_app, app_length.
      assert (E1 : filter f es = es).
      { clear -Hall. induction Hall as [|e es He Hall IH]; simpl; [reflexivity|].
        unfold f at 1. rewrite He. simpl. now rewrite IH. }
      rewrite E1. lia. }
    assert (H2 : length (filter f (h ++ disc)) < k).
    { rewrite filter_app, app_length.
      assert (E1 : filter f disc = []).
      { clear -Hd. induction disc as [|y disc IH]; simpl; [reflexivity|].
        unfold f at 1. rewrite (Hd y) by now left. simpl. apply IH. intros z Hz. apply Hd. now right. }
      rewrite E1. simpl. rewrite Nat.add_0_r, <- Hl. clear -Hx E.
      induction h as [|y h IH]; [destruct Hx|]. simpl.
      assert (Hlen : forall l, length (filter f l) <= length l).
      { induction l as [|z l IHl]; simpl; [lia|]. destruct (f z); simpl; lia. }
      destruct Hx as [->|Hx].
      - unfold f at 1. rewrite E. simpl. specialize (Hlen h). lia.
      - specialize (IH Hx). destruct (f y); simpl; lia. }
    assert (H3 : length (filter f (h ++ disc)) = length (filter f (es ++ off))).
    { clear -Hp. induction Hp as [|a l1 l2 Hp IH|a b l|l1 l2 l3 H1 IH1 H2 IH2]; simpl; auto; try congruence.
      - destruct (f a); simpl; lia.
      - destruct (f a), (f b); reflexivity. }
    lia.
  Qed.

  (** ** Leaves *)
  Lemma leaf_distances_Ok leaf q : rows_ok leaf -> length q = nf ->
    leaf_distances sub norm leaf q = Ok (map (fun r => dist r q) leaf).
  Proof.
    intros H Hq. unfold leaf_distances. apply mapM_Ok. unfold KDBuild_Proofs.rows_ok in H.
    rewrite Forall_forall in H. intros r Hr. rewrite (H r Hr), Hq, Nat.eqb_refl. reflexivity.
  Qed.

  Definition entry_of (q : list T) (p : list T * nat) : entry := (Some (dist (fst p) q), snd p).

  Lemma compute_distance_spec q d i k : rows_ok d -> length q = nf -> length d = length i -> 3 <= length d ->
    exists es rest, compute_distance ltb sub norm q d i k = Ok es /\
      Permutation (es ++ rest) (map (entry_of q) (combine d i)) /\
      (rest <> [] -> length es = k) /\
      (forall x y, In x es -> In y rest -> kle (fst x) (fst y)).
  Proof.
    intros Hok Hq Hl H3. unfold compute_distance. rewrite leaf_distances_Ok by assumption. cbn [bind].
    set (ds := map (fun r => dist r q) d).
    assert (Hr0 : exists r0 : list T, True) by (destruct d as [|r0 d0]; [simpl in H3; lia|eauto]).
    destruct Hr0 as (r0 & _).
    set (dd := dist r0 q).
    destruct (@argsort_col_spec _ ltb (ltb_asym ltb ltb_irrefl ltb_trans)
                (fun a b c H1 H2 => tle_trans ltb ltb_trans ltb_total a b c H1 H2) ds dd) as (order & Eo & Hp & Hs).
    { subst ds. now rewrite map_length. }
    rewrite Eo. cbn [bind]. assert (Hlds : length ds = length d) by (subst ds; now rewrite map_length).
    set (m := if length d <=? k then length d else k).
    assert (Hin : forall j, In j order -> j < length d).
    { intros j Hj. apply (Permutation_in _ Hp) in Hj. apply in_seq in Hj. lia. }
    set (g := fun j => (Some (nth j ds dd), nth j i 0) : entry).
    rewrite (@mapM_Ok _ _ _ g).
    2: { intros j Hj. assert (Hj' : j < length d).
         { apply Hin. rewrite <- (firstn_skipn m order). apply in_app_iff. now left. }
         rewrite (@vget_Ok _ ds j dd) by lia. cbn [bind].
         rewrite (@vget_Ok _ i j 0) by lia. reflexivity. }
    exists (map g (firstn m order)), (map g (skipn m order)). split; [reflexivity|].
    pose proof (Permutation_length Hp) as Hlo. rewrite seq_length in Hlo.
    split; [|split].
    - rewrite <- map_app, firstn_skipn.
      transitivity (map g (seq 0 (length ds))); [now apply Permutation_map|].
      assert (E : map g (seq 0 (length ds)) = map (entry_of q) (combine d i)).
      { transitivity (map (fun j => entry_of q (nth j (combine d i) (r0, 0))) (seq 0 (length (combine d i)))).
        - replace (length (combine d i)) with (length ds) by (rewrite combine_length; lia).
          apply map_ext_in. intros j Hj. apply in_seq in Hj. rewrite combine_nth by assumption.
          unfold g, entry_of. simpl. f_equal. f_equal. subst ds.
          apply (nth_map (fun r => dist r q) d). lia.
        - rewrite <- (map_map (fun j => nth j (combine d i) (r0, 0)) (entry_of q)).
          now rewrite map_nth_seq'. }
      now rewrite E.
    - intros Hr. rewrite map_length, firstn_length. subst m.
      destruct (Nat.leb_spec (length d) k) as [Hle|Hgt]; [|lia].
      exfalso. apply Hr. rewrite skipn_all2 by lia. reflexivity.
    - intros x y Hx Hy. apply in_map_iff in Hx, Hy.
      destruct Hx as (a & <- & Ha). destruct Hy as (b & <- & Hb). unfold g. simpl.
      rewrite <- (firstn_skipn m order) in Hs. clear - Hs Ha Hb.
      induction (firstn m order) as [|z l IH]; [destruct Ha|]. simpl in Hs.
      inversion Hs as [|? ? Hs' Hall]; subst. destruct Ha as [->|Ha]; [|auto].
      rewrite Forall_forall in Hall. apply Hall, in_app_iff. now right.
  Qed.

  (* leaves of one or two rows: [argsort] reads outside the column *)
  Lemma compute_distance_small q d i k : rows_ok d -> length q = nf -> 0 < length d < 3 -> 0 < k ->
    compute_distance ltb sub norm q d i k = UB.
  Proof.
    intros Hok Hq Hl Hk. unfold compute_distance. rewrite leaf_distances_Ok by assumption. cbn [bind].
    destruct (Nat.eq_dec (length d) 1) as [H1|H1].
    - rewrite argsort_col_one by now rewrite map_length. cbn [bind]. rewrite H1.
      destruct k as [|k]; [lia|]. destruct d as [|r [|]]; try discriminate. reflexivity.
    - rewrite argsort_col_two by (rewrite map_length; lia). reflexivity.
  Qed.

  (** ** The search *)
  Section Tree.
  Variable tree : list (node T).
  Variable q : list T.
  Hypothesis Hq : length q = nf.

  Definition good (nd : node T) (t : kd T) : Prop :=
    rep 1 (length tree) tree nd t /\ rects_len nf t /\
    Forall (fun l => length (fst l) = length (snd l) /\ rows_ok (fst l)) (kd_leaves t).

  Definition sizes (ts : list (kd T)) : nat := list_sum (map kd_size ts).
  Definition entries (ts : list (kd T)) : list entry := map (entry_of q) (flat_map kd_pairs ts).

  Lemma kd_pairs_rows t nd : good nd t -> forall p, In p (kd_pairs t) -> length (fst p) = nf.
  Proof.
    intros (_ & _ & HF). revert HF. clear nd. induction t as [d i|lr rr l IHl r IHr]; simpl; intros HF p Hp.
    - inversion HF as [|? ? (_ & Hok) _]; subst. simpl in Hok. destruct p as (r & j).
      apply in_combine_l in Hp. unfold KDBuild_Proofs.rows_ok in Hok. rewrite Forall_forall in Hok. auto.
    - apply Forall_app in HF. destruct HF as (HF1 & HF2). apply in_app_iff in Hp. destruct Hp; auto.
  Qed.

  (* children pushed and children pruned *)
  Lemma push_children_spec nd lr rr l r radius stk :
    good nd (KNode lr rr l r) ->
    exists stk1 pushed pruned,
      push_children ltb sub norm tree nd q radius stk = Ok (stk1 ++ stk) /\
      Forall2 good stk1 pushed /\
      Permutation (pushed ++ pruned) [l; r] /\
      (forall t, In t pruned ->
         (t = l \/ t = r) /\
         (t = l -> boxes_ok ltb nf (KNode lr rr l r) -> forall p, In p (kd_pairs t) -> kle radius (Some (dist (fst p) q))) /\
         (boxes_ok ltb nf (KNode lr rr l r) -> forall p, In p (kd_pairs t) -> kle radius (Some (dist (fst p) q)))).
  Proof.
    intros ((Hleaf & Hlr & Hrr & (i & c & Hi1 & Hi2 & Hi3 & Hi4) & (j & e & Hj1 & Hj2 & Hj3 & Hj4)) &
            ((Hr1 & Hr2 & Hr3 & Hr4) & Hr5 & Hr6) & Hlv).
    simpl in Hlv. apply Forall_app in Hlv. destruct Hlv as (Hlvl & Hlvr).
    assert (Hgl : good c l) by (repeat split; assumption).
    assert (Hgr : good e r) by (repeat split; assumption).
    unfold push_children. rewrite Hlr, Hrr. unfold check_intersection.
    rewrite Hr1, Hr2, Hr3, Hr4, Hq, Nat.eqb_refl. cbn [andb bind].
    assert (Hcl : child tree (nd_left nd) = Ok c) by (unfold child; now rewrite Hi1, Hi3).
    assert (Hcr : child tree (nd_right nd) = Ok e) by (unfold child; now rewrite Hj1, Hj3).
    assert (Pl : klt ltb (Some (dist (clamp ltb q (fst lr) (snd lr)) q)) radius = false ->
      boxes_ok ltb nf (KNode lr rr l r) -> forall p, In p (kd_pairs l) -> kle radius (Some (dist (fst p) q))).
    { intros E Hb p Hp. destruct Hb as (Hb & _). rewrite Forall_forall in Hb.
      eapply kle_trans; [exact E|]. simpl. apply box_bound; [now apply Hb|assumption]. }
    assert (Pr : klt ltb (Some (dist (clamp ltb q (fst rr) (snd rr)) q)) radius = false ->
      boxes_ok ltb nf (KNode lr rr l r) -> forall p, In p (kd_pairs r) -> kle radius (Some (dist (fst p) q))).
    { intros E Hb p Hp. destruct Hb as (_ & Hb & _). rewrite Forall_forall in Hb.
      eapply kle_trans; [exact E|]. simpl. apply box_bound; [now apply Hb|assumption]. }
    destruct (klt ltb (Some (dist (clamp ltb q (fst lr) (snd lr)) q)) radius) eqn:E1;
      destruct (klt ltb (Some (dist (clamp ltb q (fst rr) (snd rr)) q)) radius) eqn:E2;
      rewrite ?Hcl, ?Hcr; cbn [bind].
    - exists [e; c], [r; l], []. repeat split; auto; try contradiction. constructor.
    - exists [c], [l], [r]. split; [reflexivity|]. split; [auto|]. split; [reflexivity|].
      intros t [<-|[]]. split; [now right|]. split; [|now apply Pr]. intros _. now apply Pr.
    - exists [e], [r], [l]. split; [reflexivity|]. split; [auto|]. split; [constructor|].
      intros t [<-|[]]. split; [now left|]. split; [|now apply Pl]. intros _. now apply Pl.
    - exists [], [], [l; r]. split; [reflexivity|]. split; [auto|]. split; [reflexivity|].
      intros t [<-|[<-|[]]]; (split; [auto|split; [intros _|]]); first [now apply Pl|now apply Pr].
  Qed.

  Lemma sizes_app a b : sizes (a ++ b) = sizes a + sizes b.
  Proof. unfold sizes. now rewrite map_app, list_sum_app. Qed.
  Lemma entries_app a b : entries (a ++ b) = entries a ++ entries b.
  Proof. unfold entries. now rewrite flat_map_app, map_app. Qed.
  Lemma entries_perm a b : Permutation a b -> Permutation (entries a) (entries b).
  Proof. intros H. unfold entries. apply Permutation_map. now apply Permutation_flat_map. Qed.
  Lemma sizes_perm a b : Permutation a b -> sizes a = sizes b.
  Proof.
    clear Hq. unfold sizes. induction 1; simpl; lia.
  Qed.

  Lemma boxes_sub lr rr l r : boxes_ok ltb nf (KNode lr rr l r) -> boxes_ok ltb nf l /\ boxes_ok ltb nf r.
  Proof. simpl. tauto. Qed.

  Lemma knn_loop_spec k : 0 < k -> forall fuel stk ts h n disc off,
    Forall2 good stk ts -> sizes ts < fuel -> Forall (boxes_ok ltb nf) ts ->
    Forall (fun t => Forall (fun l => 0 < length (fst l)) (kd_leaves t)) ts ->
    keeps k h disc off ->
    (knn_loop ltb sub norm pick fuel tree q k stk (h, n) = UB /\
     exists t l, In t ts /\ In l (kd_leaves t) /\ length (fst l) < 3) \/
    exists h' n' disc', knn_loop ltb sub norm pick fuel tree q k stk (h, n) = Ok (h', n') /\
      keeps k h' disc' (entries ts ++ off).
  Proof.
    intros Hk. induction fuel as [|fuel IH]; intros stk ts h n disc off HF Hf Hbox Hlv Hkeep; [lia|].
    cbn [knn_loop]. destruct HF as [|nd t stk ts Hgood HF].
    - right. exists h, n, disc. auto.
    - inversion Hbox as [|? ? Hb Hbox']; subst. inversion Hlv as [|? ? Hl Hlv']; subst.
      destruct t as [d i|lr rr l r].
      + destruct Hgood as (Hrep & _ & Hlv2). simpl in Hrep. rewrite Hrep.
        inversion Hlv2 as [|? ? (Hli & Hok) _]; subst. simpl in Hli, Hok.
        inversion Hl as [|? ? H0 _]; subst. simpl in H0.
        destruct (Nat.lt_ge_cases (length d) 3) as [H3|H3].
        { left. rewrite compute_distance_small by (assumption || lia). split; [reflexivity|].
          exists (KLeaf d i), (d, i). simpl. auto. }
        destruct (@compute_distance_spec q d i k Hok Hq Hli H3) as (es & rest & Ec & Hp & Hlen & Hle).
        rewrite Ec. cbn [bind].
        destruct (push_all Hk es n Hkeep) as (h1 & n1 & d1 & E1 & Hk1). rewrite E1. cbn [bind].
        assert (Hk2 : keeps k h1 (rest ++ d1) (map (entry_of q) (combine d i) ++ off)).
        { pose proof Hk1 as (Ha & Hb1 & Hc). split; [assumption|]. split.
          - rewrite <- Hp, app_assoc. rewrite (Permutation_app_comm h1 rest), <- app_assoc, Hb1.
            rewrite app_assoc. apply Permutation_app_tail. apply Permutation_app_comm.
          - intros x y Hx Hy. apply in_app_iff in Hy. destruct Hy as [Hy|Hy]; [|now apply Hc].
            apply (@keeps_bound k h1 d1 off es (fst y) Hk1); [|apply Forall_forall; auto|assumption].
            apply Hlen. intros ->. destruct Hy. }
        unfold sizes in Hf. simpl in Hf.
        destruct (IH stk ts h1 n1 _ _ HF ltac:(unfold sizes; lia) Hbox' Hlv' Hk2) as [(E2 & t & l0 & Ht & Hl0)|(h2 & n2 & d2 & E2 & Ha & Hb2 & Hc)].
        { left. split; [assumption|]. exists t, l0. split; [now right|assumption]. }
        right. exists h2, n2, d2. split; [assumption|]. split; [assumption|]. split; [|assumption].
        rewrite Hb2. unfold entries. simpl. rewrite map_app, <- app_assoc.
        rewrite !app_assoc. apply Permutation_app_tail. apply Permutation_app_comm.
      + pose proof Hgood as ((Hnl & _) & _). rewrite Hnl. cbn [fst].
        assert (Hhne : h <> []) by (destruct Hkeep as (Hlk & _); intros ->; simpl in Hlk; lia).
        destruct (top_key_spec Hhne) as (radius & Et & Hmax & _). rewrite Et. cbn [bind].
        destruct (push_children_spec radius stk Hgood) as (stk1 & pushed & pruned & Ep & HF1 & Hperm & Hprune).
        rewrite Ep. cbn [bind].
        assert (Hsub : forall t, In t pushed \/ In t pruned -> t = l \/ t = r).
        { intros t Ht. assert (Hin : In t [l; r]) by (apply (Permutation_in _ Hperm), in_app_iff; assumption).
          destruct Hin as [<-|[<-|[]]]; auto. }
        assert (Hk2 : keeps k h (entries pruned ++ disc) (entries pruned ++ off)).
        { destruct Hkeep as (Ha & Hb1 & Hc). split; [assumption|]. split.
          - rewrite app_assoc, (Permutation_app_comm h), <- app_assoc, Hb1. reflexivity.
          - intros x y Hx Hy. apply in_app_iff in Hy. destruct Hy as [Hy|Hy]; [|now apply Hc].
            eapply kle_trans; [now apply Hmax|].
            unfold entries in Hy. apply in_map_iff in Hy. destruct Hy as (p & <- & Hp).
            apply in_flat_map in Hp. destruct Hp as (t & Ht & Hp).
            destruct (Hprune t Ht) as (_ & _ & Hle). now apply (Hle Hb). }
        pose proof (sizes_perm Hperm) as Hs. rewrite sizes_app in Hs.
        unfold sizes in Hs, Hf. simpl in Hs, Hf.
        assert (HFall : Forall2 good (stk1 ++ stk) (pushed ++ ts)) by now apply Forall2_app.
        destruct (IH (stk1 ++ stk) (pushed ++ ts) h n (entries pruned ++ disc) (entries pruned ++ off) HFall) as [(E2 & t & l0 & Ht & Hl0)|(h2 & n2 & d2 & E2 & Ha & Hb2 & Hc)]; [| | |exact Hk2| |].
        * unfold sizes. rewrite map_app, list_sum_app. lia.
        * apply Forall_app. split; [|assumption]. apply Forall_forall. intros t Ht.
          destruct (Hsub t (or_introl Ht)) as [->| ->]; apply Hb.
        * apply Forall_app. split; [|assumption]. apply Forall_forall. intros t Ht.
          simpl in Hl. apply Forall_app in Hl. destruct (Hsub t (or_introl Ht)) as [->| ->]; apply Hl.
        * left. split; [assumption|]. apply in_app_iff in Ht. destruct Ht as [Ht|Ht].
          -- exists (KNode lr rr l r), l0. split; [now left|]. split; [|tauto].
             simpl. apply in_app_iff. destruct (Hsub t (or_introl Ht)) as [->| ->]; tauto.
          -- exists t, l0. split; [now right|assumption].
        * right. exists h2, n2, d2. split; [assumption|]. split; [assumption|]. split; [|assumption].
          rewrite Hb2. rewrite entries_app, <- app_assoc.
          transitivity ((entries pushed ++ entries pruned) ++ entries ts ++ off).
          -- rewrite <- app_assoc. apply Permutation_app_head. rewrite !app_assoc. apply Permutation_app_tail.
             apply Permutation_app_comm.
          -- rewrite <- entries_app. rewrite (entries_perm Hperm). unfold entries. simpl.
             rewrite app_nil_r, !map_app, <- !app_assoc. reflexivity.
  Qed.

  Lemma drain_spec : forall k h n acc, length h = k ->
    exists r, drain ltb pick k (h, n) acc = Ok (r ++ acc) /\ Permutation r h /\
      StronglySorted (fun a b : entry => kle (fst a) (fst b)) r.
  Proof.
    induction k as [|k IH]; intros h n acc Hl; simpl.
    - destruct h; [|discriminate]. exists []. repeat split; constructor.
    - destruct (@pop_spec n h) as (e & h' & Ep & Hperm & Hmax); [intros ->; discriminate|].
      rewrite Ep. cbn [bind].
      destruct (IH h' (S n) (e :: acc)) as (r & Er & Hp & Hs).
      { apply Permutation_length in Hperm. simpl in Hperm. lia. }
      exists (r ++ [e]). rewrite Er, <- app_assoc. split; [reflexivity|]. split.
      + rewrite Permutation_app_comm. simpl. rewrite Hp. now symmetry.
      + assert (Hr : forall x, In x r -> kle (fst x) (fst e)).
        { intros x Hx. apply Hmax. apply (Permutation_in _ (Permutation_sym Hperm)). right.
          now apply (Permutation_in _ Hp). }
        clear -Hs Hr. induction Hs as [|a r Hs IHs Hall]; simpl; [repeat constructor|].
        constructor; [apply IHs; intros x Hx; apply Hr; now right|].
        apply Forall_app. split; [assumption|]. repeat constructor. apply Hr. now left.
  Qed.
  End Tree.

  (** ** k nearest neighbours *)
  Lemma query_single_spec leaf_size data tree q k :
    2 <= leaf_size -> 3 <= length data -> rows_ok data -> first_widest data ->
    build_tree ltb sub abs leaf_size nf data = Ok tree -> length q = nf -> 0 < k <= length data ->
    (query_single ltb sub norm pick tree q k = UB /\ ~ (5 <= leaf_size /\ 6 <= length data)) \/
    exists r rest, query_single ltb sub norm pick tree q k = Ok (map (fun p => (Some (fst p), snd p)) r) /\
      length r = k /\
      Permutation (r ++ rest) (map (fun p => (dist (fst p) q, snd p)) (combine data (seq 0 (length data)))) /\
      StronglySorted (fun a b => tle (fst a) (fst b)) r /\
      (forall a b, In a r -> In b rest -> tle (fst a) (fst b)).
  Proof.
    intros H2 H3 Hok Hfw Eb Hq Hk.
    destruct (@build_tree_spec leaf_size data) as (tree' & nd & t & Eb2 & Hroot & Hrep & Hsz & Hpairs & Hcut & Hrl & Hbox & Hlv & Hmin);
      [lia|lia|assumption|].
    rewrite Eb in Eb2. injection Eb2 as <-.
    unfold query_single. rewrite Hroot.
    assert (Hgood : good tree nd t).
    { split; [assumption|]. split; [assumption|]. eapply Forall_impl; [|exact Hlv]. simpl. tauto. }
    assert (Hkeep0 : keeps k (repeat (None, 0) k) [] (repeat (@None T, 0) k)).
    { split; [apply repeat_length|]. split; [now rewrite app_nil_r|]. intros x y _ []. }
    destruct (@knn_loop_spec tree q Hq k ltac:(lia) (S (length tree)) [nd] [t] (repeat (None, 0) k) 0 [] (repeat (None, 0) k)
                ltac:(constructor; [exact Hgood|constructor])) as [(El & t' & l' & Ht' & Hl' & Hs')|(h & n & disc & El & Hl & Hp & Hle)]; [| | |exact Hkeep0| |].
    { unfold sizes. simpl. lia. }
    { repeat constructor. auto. }
    { constructor; [|constructor]. eapply Forall_impl; [|exact Hlv]. simpl. intros l Hl. lia. }
    { left. rewrite El. split; [reflexivity|]. intros (G1 & G2). specialize (Hmin G1 G2).
      destruct Ht' as [<-|[]]. rewrite Forall_forall in Hmin. specialize (Hmin l' Hl'). lia. }
    right. rewrite El. cbn [bind].
    destruct (@drain_spec q Hq k h n [] Hl) as (r & Ed & Hpr & Hs). rewrite app_nil_r in Ed. rewrite Ed.
    assert (HE : Permutation (entries q [t]) (map (entry_of q) (combine data (seq 0 (length data))))).
    { unfold entries. simpl. rewrite app_nil_r. now apply Permutation_map. }
    set (all := map (entry_of q) (combine data (seq 0 (length data)))) in *.
    assert (Hall_len : length all = length data).
    { subst all. rewrite map_length, combine_length, seq_length. lia. }
    rewrite HE in Hp.
    set (isfin := fun e : entry => match fst e with Some _ => true | None => false end).
    assert (Hfall : filter isfin all = all).
    { subst all. clear. induction (combine data (seq 0 (length data))) as [|p l IH]; simpl; [reflexivity|]. now rewrite IH. }
    assert (Hfrep : filter isfin (repeat (@None T, 0) k) = []).
    { clear. induction k; simpl; auto. }
    assert (Hperm_filter : forall l1 l2 : list entry, Permutation l1 l2 -> Permutation (filter isfin l1) (filter isfin l2)).
    { induction 1 as [|a l1 l2 HP IH|a b l|l1 l2 l3 G1 IH1 G2 IH2]; simpl; auto.
      - destruct (isfin a); auto.
      - destruct (isfin a), (isfin b); auto. constructor.
      - now transitivity (filter isfin l2). }
    pose proof (Hperm_filter _ _ Hp) as Hpf. rewrite !filter_app, Hfall, Hfrep, app_nil_r in Hpf.
    (* no infinite entry is left in the heap *)
    assert (Hfin : forall e, In e h -> isfin e = true).
    { intros e He. destruct (isfin e) eqn:Ee; [reflexivity|]. exfalso.
      assert (Hdisc : filter isfin disc = []).
      { assert (G : forall y, In y disc -> isfin y = false).
        { intros y Hy. specialize (Hle e y He Hy). destruct e as [[|] ?]; [discriminate|].
          destruct y as [[|] ?]; simpl in *; [discriminate|reflexivity]. }
        clear -G. induction disc as [|y disc IH]; simpl; [reflexivity|].
        rewrite (G y) by now left. apply IH. intros z Hz. apply G. now right. }
      rewrite Hdisc, app_nil_r in Hpf. apply Permutation_length in Hpf.
      assert (Hlt : length (filter isfin h) < length h).
      { clear -He Ee. induction h as [|y h IH]; [destruct He|]. simpl.
        assert (Hlen : forall l, length (filter isfin l) <= length l).
        { induction l as [|z l IHl]; simpl; [lia|]. destruct (isfin z); simpl; lia. }
        destruct He as [->|He].
        - rewrite Ee. specialize (Hlen h). lia.
        - specialize (IH He). destruct (isfin y); simpl; lia. }
      lia. }
    assert (Hfh : filter isfin h = h).
    { clear -Hfin. induction h as [|y h IH]; simpl; [reflexivity|].
      rewrite (Hfin y) by now left. f_equal. apply IH. intros z Hz. apply Hfin. now right. }
    rewrite Hfh in Hpf.
    assert (Hin_r : forall e, In e r -> isfin e = true).
    { intros e He. apply Hfin. now apply (Permutation_in _ Hpr). }
    set (unS := fun e : entry => match fst e with Some d => [(d, snd e)] | None => [] end).
    assert (Hr : r = map (fun p => (Some (fst p), snd p)) (flat_map unS r)).
    { clear -Hin_r. induction r as [|[[d|] i] r IH]; simpl.
      - reflexivity.
      - f_equal. apply IH. intros e He. apply Hin_r. now right.
      - specialize (Hin_r (None, i) (or_introl eq_refl)). discriminate. }
    exists (flat_map unS r), (flat_map unS (filter isfin disc)).
    split; [now rewrite <- Hr|]. split.
    { transitivity (length r); [rewrite Hr at 2; now rewrite map_length|]. apply Permutation_length in Hpr. lia. }
    split.
    { rewrite <- flat_map_app. rewrite Hpr, Hpf. subst all. clear.
      induction (combine data (seq 0 (length data))) as [|p l IH]; simpl; [constructor|]. now constructor. }
    split.
    { rewrite Hr in Hs. clear -Hs. induction (flat_map unS r) as [|a l IH]; [constructor|].
      simpl in Hs. inversion Hs as [|? ? Hs' Hall]; subst. constructor; [auto|].
      rewrite Forall_forall in Hall |- *. intros x Hx.
      specialize (Hall (Some (fst x), snd x)). apply Hall. apply in_map_iff. now exists x. }
    intros a b Ha Hb. apply in_flat_map in Ha, Hb.
    destruct Ha as ([[da|] ia] & Ha1 & Ha2); [|destruct Ha2]. destruct Ha2 as [<-|[]].
    destruct Hb as ([[db|] ib] & Hb1 & Hb2); [|destruct Hb2]. destruct Hb2 as [<-|[]].
    apply filter_In in Hb1. simpl.
    apply (Hle (Some da, ia) (Some db, ib)); [now apply (Permutation_in _ Hpr)|apply Hb1].
  Qed.

  (** ** Radius queries *)
  Lemma leaf_within_spec q d i radius : rows_ok d -> length q = nf -> length d = length i ->
    leaf_within ltb sub norm q d i radius =
    Ok (filter (fun e => negb (ltb radius (fst e))) (map (fun p => (dist (fst p) q, snd p)) (combine d i))).
  Proof.
    intros Hok Hq Hl. unfold leaf_within. rewrite leaf_distances_Ok by assumption. cbn [bind].
    set (ds := map (fun r => dist r q) d). assert (Hlds : length ds = length d) by (subst ds; now rewrite map_length).
    destruct (Nat.eq_dec (length d) 0) as [Hz|Hnz].
    { subst ds. destruct d; [reflexivity|discriminate]. }
    assert (Hr0 : exists r0 : list T, True) by (destruct d as [|r0 d0]; [simpl in Hnz; lia|eauto]).
    destruct Hr0 as (r0 & _).
    set (dd := dist r0 q).
    set (g := fun j => (nth j ds dd, nth j i 0)).
    rewrite (@mapM_Ok _ _ _ g).
    2: { intros j Hj. apply filter_In in Hj. destruct Hj as (Hj & _). apply in_seq in Hj.
         rewrite (@vget_Ok _ ds j dd) by lia. cbn [bind].
         rewrite (@vget_Ok _ i j 0) by lia. reflexivity. }
    f_equal.
    assert (E : map (fun p => (dist (fst p) q, snd p)) (combine d i) = map g (seq 0 (length ds))).
    { transitivity (map (fun p => (dist (fst p) q, snd p)) (map (fun j => nth j (combine d i) (r0, 0)) (seq 0 (length (combine d i))))).
      - now rewrite map_nth_seq'.
      - rewrite map_map. replace (length (combine d i)) with (length ds) by (rewrite combine_length; lia).
        apply map_ext_in. intros j Hj. apply in_seq in Hj. rewrite combine_nth by assumption. simpl.
        unfold g. f_equal. subst ds. symmetry. apply (nth_map (fun r => dist r q) d). lia. }
    rewrite E. clear E.
    assert (G : forall l, (forall j, In j l -> j < length ds) ->
      map g (filter (fun j => match nth_error ds j with Some v => negb (ltb radius v) | None => false end) l) =
      filter (fun e => negb (ltb radius (fst e))) (map g l)).
    { induction l as [|j l IH]; intros Hl2; simpl; [reflexivity|].
      rewrite (nth_error_nth' ds dd) by (apply Hl2; now left).
      destruct (ltb radius (nth j ds dd)); simpl; rewrite IH by (intros; apply Hl2; now right); reflexivity. }
    apply G. intros j Hj. apply in_seq in Hj. lia.
  Qed.

  Section RTree.
  Variable tree : list (node T).
  Variable q : list T.
  Hypothesis Hq : length q = nf.
  Variable radius : T.

  Definition cand (ts : list (kd T)) : list (T * nat) :=
    map (fun p => (dist (fst p) q, snd p)) (flat_map kd_pairs ts).
  Definition within (l : list (T * nat)) : list (T * nat) := filter (fun e => negb (ltb radius (fst e))) l.

  (* [missed]: rows within the radius that were pruned *)
  Lemma radius_loop_spec : forall fuel stk ts acc,
    Forall2 (good tree) stk ts -> sizes ts < fuel ->
    exists found missed, radius_loop ltb sub norm fuel tree q radius stk acc = Ok (acc ++ found) /\
      Permutation (found ++ missed) (within (cand ts)) /\
      (Forall (boxes_ok ltb nf) ts -> forall e, In e missed -> fst e = radius).
  Proof.
    induction fuel as [|fuel IH]; intros stk ts acc HF Hf; [lia|].
    cbn [radius_loop]. destruct HF as [|nd t stk ts Hgood HF].
    - exists [], []. rewrite app_nil_r. repeat split; try constructor. intros _ e [].
    - destruct t as [d i|lr rr l r].
      + destruct Hgood as (Hrep & _ & Hlv2). simpl in Hrep. rewrite Hrep.
        inversion Hlv2 as [|? ? (Hli & Hok) _]; subst. simpl in Hli, Hok.
        rewrite leaf_within_spec by assumption. cbn [bind].
        unfold sizes in Hf. simpl in Hf.
        destruct (IH stk ts (acc ++ within (map (fun p => (dist (fst p) q, snd p)) (combine d i))) HF) as (found & missed & E & Hp & Hm);
          [unfold sizes; lia|].
        unfold within at 1 in E. rewrite E.
        exists (within (map (fun p => (dist (fst p) q, snd p)) (combine d i)) ++ found), missed.
        rewrite <- app_assoc. split; [reflexivity|]. split.
        * rewrite <- app_assoc, Hp. unfold cand, within. simpl. rewrite map_app, filter_app. reflexivity.
        * intros HB. inversion HB; subst. auto.
      + pose proof Hgood as ((Hnl & _) & _). rewrite Hnl.
        destruct (@push_children_spec tree q Hq nd lr rr l r (Some radius) stk Hgood) as (stk1 & pushed & pruned & Ep & HF1 & Hperm & Hprune).
        rewrite Ep. cbn [bind].
        pose proof (sizes_perm Hperm) as Hs. rewrite sizes_app in Hs.
        unfold sizes in Hs, Hf. simpl in Hs, Hf.
        assert (HFall : Forall2 (good tree) (stk1 ++ stk) (pushed ++ ts)) by now apply Forall2_app.
        destruct (IH (stk1 ++ stk) (pushed ++ ts) acc HFall) as (found & missed & E & Hp & Hm).
        { unfold sizes. rewrite map_app, list_sum_app. lia. }
        rewrite E. exists found, (missed ++ within (cand pruned)). split; [reflexivity|]. split.
        * rewrite app_assoc, Hp. unfold within. rewrite <- filter_app.
          assert (Hc : Permutation (cand (pushed ++ ts) ++ cand pruned) (cand (KNode lr rr l r :: ts))).
          { unfold cand. rewrite <- map_app. apply Permutation_map.
            rewrite flat_map_app. simpl. rewrite <- app_assoc.
            rewrite (Permutation_app_comm (flat_map kd_pairs ts)), app_assoc. apply Permutation_app_tail.
            rewrite <- flat_map_app. transitivity (flat_map kd_pairs [l; r]).
            - now apply Permutation_flat_map.
            - simpl. now rewrite app_nil_r. }
          clear -Hc. revert Hc. generalize (cand (pushed ++ ts) ++ cand pruned) (cand (KNode lr rr l r :: ts)).
          induction 1 as [|a l1 l2 HP IH|a b l0|l1 l2 l3 H1 IH1 H2 IH2]; simpl; auto.
          -- destruct (negb (ltb radius (fst a))); auto.
          -- destruct (negb (ltb radius (fst a))), (negb (ltb radius (fst b))); auto. constructor.
          -- etransitivity; eassumption.
        * intros HB. inversion HB as [|? ? Hb HB']; subst. intros e He. apply in_app_iff in He. destruct He as [He|He].
          -- apply Hm; [|assumption]. apply Forall_app. split; [|assumption].
             apply Forall_forall. intros t Ht.
             assert (Hin : In t [l; r]) by (apply (Permutation_in _ Hperm), in_app_iff; now left).
             destruct Hin as [<-|[<-|[]]]; apply Hb.
          -- unfold within in He. apply filter_In in He. destruct He as (He & Hw).
             apply Bool.negb_true_iff in Hw.
             unfold cand in He. apply in_map_iff in He. destruct He as (p & <- & Hp2).
             apply in_flat_map in Hp2. destruct Hp2 as (t & Ht & Hp2).
             destruct (Hprune t Ht) as (_ & _ & Hle). specialize (Hle Hb p Hp2). simpl in *.
             apply ltb_total; assumption.
  Qed.
  End RTree.

  Lemma query_radius_single_spec leaf_size data tree q radius :
    2 <= leaf_size -> 3 <= length data -> rows_ok data ->
    build_tree ltb sub abs leaf_size nf data = Ok tree -> length q = nf ->
    exists found missed, query_radius_single ltb sub norm tree q radius = Ok found /\
      Permutation (found ++ missed)
        (filter (fun e => negb (ltb radius (fst e)))
           (map (fun p => (dist (fst p) q, snd p)) (combine data (seq 0 (length data))))) /\
      (first_widest data -> forall e, In e missed -> fst e = radius).
  Proof.
    intros H2 H3 Hok Eb Hq.
    destruct (@build_tree_spec leaf_size data) as (tree' & nd & t & Eb2 & Hroot & Hrep & Hsz & Hpairs & Hcut & Hrl & Hbox & Hlv & Hmin);
      [lia|lia|assumption|].
    rewrite Eb in Eb2. injection Eb2 as <-.
    unfold query_radius_single. rewrite Hroot.
    assert (Hgood : good tree nd t).
    { split; [assumption|]. split; [assumption|]. eapply Forall_impl; [|exact Hlv]. simpl. tauto. }
    destruct (@radius_loop_spec tree q Hq radius (S (length tree)) [nd] [t] []
                ltac:(constructor; [exact Hgood|constructor])) as (found & missed & E & Hp & Hm).
    { unfold sizes. simpl. lia. }
    exists found, missed. split; [exact E|]. split.
    - rewrite Hp. unfold within, cand. simpl. rewrite app_nil_r.
      assert (Hc : Permutation (map (fun p => (dist (fst p) q, snd p)) (kd_pairs t))
                     (map (fun p => (dist (fst p) q, snd p)) (combine data (seq 0 (length data)))))
        by now apply Permutation_map.
      clear -Hc. revert Hc.
      generalize (map (fun p => (dist (fst p) q, snd p)) (kd_pairs t))
                 (map (fun p => (dist (fst p) q, snd p)) (combine data (seq 0 (length data)))).
      induction 1 as [|a l1 l2 HP IH|a b l0|l1 l2 l3 H1 IH1 H2 IH2]; simpl; auto.
      + destruct (negb (ltb radius (fst a))); auto.
      + destruct (negb (ltb radius (fst a))), (negb (ltb radius (fst b))); auto. constructor.
      + etransitivity; eassumption.
    - intros Hfw. apply Hm. repeat constructor. auto.
  Qed.
End KD.
