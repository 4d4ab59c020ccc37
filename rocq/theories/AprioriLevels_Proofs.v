(** Apriori on databases meeting the ordering precondition: the levels are exactly the frequent
    itemsets. *)
From Coq Require Import QArith.
From Verif Require Import Base Sorting Common_Model Common_Spec HashTree_Model HashTree_Spec HashTree_Proofs
  Comb_Proofs RDR_Proofs RowSort_Proofs CommonMisc_Proofs Apriori_Model Apriori_Spec Apriori_Proofs.
Set Implicit Arguments.
Local Open Scope nat_scope.

Lemma frequent_sub X s I J : frequent X s J -> incl I J -> is_set I -> I <> [] -> frequent X s I.
Proof.
  intros (H1 & H2 & H3 & H4) Hi HI Hne. repeat split; auto.
  - intros x Hx. auto.
  - pose proof (support_anti X Hi). lia.
Qed.

Lemma is_set_snoc u a : is_set (u ++ [a]) <-> is_set u /\ Forall (fun x => (x < a)%Z) u.
Proof.
  unfold is_set. induction u as [|x u IH]; simpl.
  - split; [split; constructor|]. intros _. repeat constructor.
  - split.
    + intros H. inversion H as [|? ? H1 H2]; subst. apply IH in H1. destruct H1 as (H1 & H3).
      apply Forall_app in H2. destruct H2 as (H2 & H4). inversion H4; subst.
      split; constructor; auto.
    + intros (H1 & H2). inversion H1; subst. inversion H2; subst. constructor; [apply IH; auto|].
      apply Forall_app. split; [assumption|]. repeat constructor. assumption.
Qed.

Lemma firstn_incl {A} n (l : list A) : incl (firstn n l) l.
Proof.
  intros x Hx. rewrite <- (firstn_skipn n l). apply in_app_iff. now left.
Qed.

Lemma is_set_firstn n J : is_set J -> is_set (firstn n J).
Proof.
  intros H. revert n. induction H as [|a J HJ IH Hall]; intros [|n]; simpl; try constructor; [apply IH|].
  rewrite Forall_forall in Hall |- *. intros x Hx. apply Hall. eapply firstn_incl. exact Hx.
Qed.

Lemma frequent_firstn X s J k : frequent X s J -> 0 < k <= length J ->
  frequent X s (firstn k J) /\ length (firstn k J) = k.
Proof.
  intros HJ Hk. split; [|rewrite firstn_length; lia].
  apply (frequent_sub HJ); [apply firstn_incl|apply is_set_firstn; apply HJ|].
  destruct J; simpl in *; [lia|]. destruct k; [lia|discriminate].
Qed.

Lemma two_subsets X s J k : frequent X s J -> 0 < k < length J ->
  exists I1 I2, I1 <> I2 /\ frequent X s I1 /\ frequent X s I2 /\ length I1 = k /\ length I2 = k.
Proof.
  intros HJ Hk. exists (firstn k J), (firstn k (tl J)).
  destruct J as [|a J]; simpl in Hk; [lia|]. cbn [tl].
  destruct HJ as (H1 & H2 & H3 & H4).
  assert (HJ' : frequent X s (a :: J)) by (repeat split; assumption).
  inversion H1 as [|? ? Hs Hall]; subst.
  assert (HJ2 : frequent X s J).
  { apply (frequent_sub HJ'); [intros x Hx; now right|assumption|]. destruct J; simpl in *; [lia|discriminate]. }
  destruct (@frequent_firstn X s (a :: J) k HJ') as (Ha1 & Ha2); [simpl; lia|].
  destruct (@frequent_firstn X s J k HJ2) as (Hb1 & Hb2); [lia|].
  split; [|tauto].
  intros E. assert (Hin : In a (firstn k J)).
  { rewrite <- E. destruct k; [lia|]. now left. }
  apply firstn_incl in Hin. rewrite Forall_forall in Hall. specialize (Hall a Hin). lia.
Qed.

Lemma lex_refl a : lex a a = Eq.
Proof. now apply lex_eq. Qed.
Lemma lex_lt_trich a b : lex a b = Lt -> lex b a = Lt -> False.
Proof. intros H1 H2. rewrite lex_antisym, H1 in H2. discriminate. Qed.

Section Ordered.
  Variable X : list (list Z).
  Variable s : nat.
  Hypothesis HX : ordered_db X.

  Definition level_ok (k : nat) (prev : list itemset) : Prop :=
    StronglySorted (fun a b => lex a b = Lt) prev /\
    forall I, In I prev <-> frequent X s I /\ length I = k.

  Lemma level_gen k prev : level_ok k prev -> gen_level X k prev.
  Proof.
    intros (Hs & Hin). split.
    - clear Hin. induction Hs as [|a l Hs IH Hall]; constructor; [|assumption].
      intros Ha. rewrite Forall_forall in Hall. specialize (Hall a Ha). rewrite lex_refl in Hall. discriminate.
    - apply Forall_forall. intros I HI. apply Hin in HI. destruct HI as ((H1 & H2 & H3 & H4) & H5).
      split; [assumption|]. split; [now apply is_set_NoDup|assumption].
  Qed.

  Lemma joined_sound k prev c : 0 < k -> level_ok k prev -> In c (joined prev) ->
    is_set c /\ length c = S k /\ incl c (concat X).
  Proof.
    intros Hk Hl Hc. pose proof (joined_gen Hk (level_gen Hl)) as Hg. rewrite Forall_forall in Hg.
    destruct (Hg c Hc) as (H1 & H2 & H3). split; [|tauto].
    apply joined_In in Hc. destruct Hc as (l1 & p & l2 & q & -> & Hq & Hpre & ->).
    destruct Hl as (Hs & Hin).
    destruct (proj1 (Hin p)) as ((Hp1 & _) & Hp2); [apply in_app_iff; right; now left|].
    destruct (proj1 (Hin q)) as ((Hq1 & _) & Hq2); [apply in_app_iff; right; now right|].
    assert (Hlt : lex p q = Lt).
    { clear - Hs Hq. induction l1 as [|r l1 IH]; simpl in Hs; inversion Hs as [|? ? Hs' Hall]; subst; [|auto].
      rewrite Forall_forall in Hall. auto. }
    assert (Hpn : p <> []) by (destruct p; simpl in *; [lia|discriminate]).
    assert (Hqn : q <> []) by (destruct q; simpl in *; [lia|discriminate]).
    rewrite (app_removelast_last 0%Z Hpn), (app_removelast_last 0%Z Hqn), Hpre in Hlt.
    apply lex_snoc in Hlt. apply is_set_snoc. split; [assumption|].
    rewrite (app_removelast_last 0%Z Hpn) in Hp1 |- *. apply is_set_snoc in Hp1.
    apply Forall_app. split; [|repeat constructor; assumption].
    eapply Forall_impl; [|apply Hp1]. intros x Hx. cbv beta in Hx. lia.
  Qed.

  Lemma joined_frequent k prev c : 0 < k -> level_ok k prev -> frequent X s c -> length c = S k ->
    In c (joined prev).
  Proof.
    intros Hk (Hs & Hin) Hc Hlen.
    destruct c as [|b c _] using rev_ind; [simpl in Hlen; lia|].
    destruct c as [|a u _] using rev_ind; [simpl in Hlen; lia|].
    rewrite !app_length in Hlen. simpl in Hlen.
    pose proof (proj1 Hc) as Hset. apply is_set_snoc in Hset. destruct Hset as (Hset & Hall).
    pose proof Hset as Hua. apply is_set_snoc in Hua. destruct Hua as (Hu & Hallu).
    apply Forall_app in Hall. destruct Hall as (Hallub & Hab). inversion Hab as [|? ? Hab' _]; subst.
    assert (Hp : In (u ++ [a]) prev).
    { apply Hin. split; [|rewrite app_length; simpl; lia].
      apply (frequent_sub Hc); [intros x Hx; apply in_app_iff; now left|assumption|now destruct u]. }
    assert (Hq : In (u ++ [b]) prev).
    { apply Hin. split; [|rewrite app_length; simpl; lia].
      apply (frequent_sub Hc); [|apply is_set_snoc; auto|now destruct u].
      intros x Hx. rewrite !in_app_iff in *. tauto. }
    assert (Hlt : lex (u ++ [a]) (u ++ [b]) = Lt) by now apply lex_snoc.
    apply in_split in Hp. destruct Hp as (l1 & l2' & ->).
    assert (Hq2 : In (u ++ [b]) l2').
    { apply in_app_iff in Hq. destruct Hq as [Hq|[Hq|Hq]]; [| |assumption]; exfalso.
      - assert (lex (u ++ [b]) (u ++ [a]) = Lt); [|eapply lex_lt_trich; eassumption].
        clear - Hs Hq. induction l1 as [|r l1 IH]; [destruct Hq|].
        simpl in Hs. inversion Hs as [|? ? Hs' Hall]; subst. destruct Hq as [->|Hq]; [|auto].
        rewrite Forall_forall in Hall. apply Hall, in_app_iff. right. now left.
      - rewrite Hq, lex_refl in Hlt. discriminate. }
    apply in_split in Hq2. destruct Hq2 as (l2 & l3 & ->).
    replace ((u ++ [a]) ++ [b]) with ((u ++ [a]) ++ [last (u ++ [b]) 0%Z]) by (now rewrite last_last).
    apply joined_complete.
    - apply Forall_forall. intros r Hr. rewrite removelast_last.
      apply (@lex_between u a b).
      + destruct (proj1 (Hin r)) as (_ & Hr2); [rewrite !in_app_iff; right; right; apply in_app_iff; now left|]. lia.
      + clear - Hs Hr. induction l1 as [|w l1 IH]; simpl in Hs; inversion Hs as [|? ? Hs' Hall]; subst; [|auto].
        rewrite Forall_forall in Hall. apply Hall, in_app_iff. now left.
      + assert (Hs2 : StronglySorted (fun a b => lex a b = Lt) (l2 ++ (u ++ [b]) :: l3)).
        { clear - Hs. induction l1 as [|w l1 IH]; simpl in Hs; inversion Hs; subst; auto. }
        clear - Hs2 Hr. induction l2 as [|w l2 IH]; [destruct Hr|]. simpl in Hs2.
        inversion Hs2 as [|? ? Hs' Hall]; subst. destruct Hr as [->|Hr]; [|auto].
        rewrite Forall_forall in Hall. apply Hall, in_app_iff. right. now left.
    - now rewrite !removelast_last.
  Qed.

  (** What a run yields. *)
  Definition complete (fr : list (itemset * nat)) : Prop :=
    NoDup (map fst fr) /\ forall I n, In (I, n) fr <-> frequent X s I /\ n = support X I.
  Definition unique_level : Prop :=
    exists k I, 0 < k /\ frequent X s I /\ length I = k /\
      forall J, frequent X s J -> length J = k -> J = I.
  Definition gap_level : Prop :=
    exists k I J, I <> J /\ frequent X s I /\ length I = k /\ frequent X s J /\ length J = k /\
      forall K, frequent X s K -> length K <> S k.

  Lemma level_loop_spec freq0 : forall fuel k prev fr,
    0 < k -> level_ok k prev -> prev <> [] -> length (concat X) + 3 <= fuel + k ->
    NoDup (map fst fr) ->
    (forall I n, In (I, n) fr <-> frequent X s I /\ length I <= k /\ n = support X I) ->
    (exists fr', level_loop fuel X s (S k) prev (freq0 ++ fr) = Ok (freq0 ++ fr') /\ complete fr' /\ unique_level) \/
    (level_loop fuel X s (S k) prev (freq0 ++ fr) = Throw InvalidArgument /\ gap_level).
  Proof.
    induction fuel as [|fuel IH]; intros k prev fr Hk Hl Hne Hf Hndf Hfr.
    - exfalso. destruct (level_gen Hl) as (Hnd & HF). destruct prev as [|p prev]; [congruence|].
      inversion HF as [|? ? (H1 & H2 & H3) _]; subst.
      pose proof (NoDup_incl_length H2 H3). lia.
    - cbn [level_loop]. destruct (Nat.leb_spec (length prev) 1) as [Hle|Hgt].
      + left. exists fr. split; [reflexivity|].
        destruct prev as [|p [|p2 prev]]; simpl in Hle; [congruence| |lia].
        destruct Hl as (_ & Hin).
        assert (Hu : forall J, frequent X s J -> length J = k -> J = p).
        { intros J HJ HJl. destruct (proj2 (Hin J)) as [E|[]]; auto. }
        destruct (proj1 (Hin p) (or_introl eq_refl)) as (Hp1 & Hp2).
        split.
        * split; [assumption|]. intros I n. rewrite Hfr. split; [tauto|]. intros (HI & Hn).
          split; [assumption|]. split; [|assumption].
          destruct (Nat.le_gt_cases (length I) k) as [|Hg]; [assumption|]. exfalso.
          destruct (@two_subsets X s I k HI) as (I1 & I2 & Hd & H1 & H2 & H3 & H4); [lia|].
          apply Hd. rewrite (Hu I1), (Hu I2); auto.
        * exists k, p. auto.
      + assert (Hlen : Forall (fun q => length q = k) prev).
        { destruct (level_gen Hl) as (_ & HF). eapply Forall_impl; [|exact HF]. simpl. tauto. }
        rewrite (join_all_spec Hk Hlen). cbn [bind].
        destruct (generate_Ok X (S k)) as (css & Eg & _). rewrite Eg. cbn [bind].
        pose proof (subsets_length _ _ Eg) as Hsl.
        pose proof (joined_gen Hk (level_gen Hl)) as Hj.
        destruct (@count_level_spec (S k) s (joined prev) (concat css)) as (counts & its & Ec & Hlc & Hnd & Hin).
        { eapply Forall_impl; [|exact Hj]. simpl. tauto. }
        { assumption. }
        rewrite Ec. cbn [bind].
        assert (Hcomb : forall I n, In (I, n) (combine its counts) <->
                  frequent X s I /\ length I = S k /\ n = support X I).
        { intros I n. rewrite Hin. split.
          - intros (Hc & -> & Hs). destruct (joined_sound _ Hk Hl Hc) as (Hset & Hl2 & Hinc).
            rewrite (@subsets_count X (S k) (concat css) I (proj1 HX) Eg Hset Hl2) in Hs |- *.
            repeat split; auto. destruct I; [discriminate|discriminate].
          - intros (HI & Hl2 & ->).
            rewrite (@subsets_count X (S k) (concat css) I (proj1 HX) Eg (proj1 HI) Hl2).
            split; [now apply (joined_frequent Hk Hl)|]. split; [reflexivity|apply HI]. }
        assert (Hits : forall I, In I its <-> frequent X s I /\ length I = S k).
        { intros I. split.
          - intros HI. destruct (@combine_In_l _ _ its counts I (eq_sym Hlc) HI) as (n & Hn).
            apply Hcomb in Hn. tauto.
          - intros (HI & HIl). assert (Hn : In (I, support X I) (combine its counts)) by (apply Hcomb; auto).
            now apply in_combine_l in Hn. }
        destruct its as [|i0 its].
        * right. split; [reflexivity|].
          destruct prev as [|p1 [|p2 prev]]; simpl in Hgt; try lia.
          destruct (level_gen Hl) as (Hnd2 & _). destruct Hl as (_ & Hin2).
          destruct (proj1 (Hin2 p1)) as (Hp1 & Hp1l); [now left|].
          destruct (proj1 (Hin2 p2)) as (Hp2 & Hp2l); [right; now left|].
          exists k, p1, p2. repeat split; try (now apply Hp1) || (now apply Hp2); auto.
          -- intros ->. inversion Hnd2; subst. simpl in *. tauto.
          -- intros K HK HKl. destruct (proj2 (Hits K)); auto.
        * destruct (@sortrows_ok (i0 :: its) (S k) false) as (r & Er & Hp & Hsr).
          -- discriminate.
          -- lia.
          -- apply Forall_forall. intros it Hit. now apply Hits in Hit.
          -- assumption.
          -- rewrite Er. cbn [bind]. rewrite <- app_assoc. apply IH.
             ++ lia.
             ++ split.
                ** eapply StronglySorted_impl; [|exact Hsr]. intros a b Hab. now apply lex_lt_spec.
                ** intros I. rewrite <- Hits. split; apply Permutation_in; [now symmetry|assumption].
             ++ intros ->. apply Permutation_length in Hp. discriminate.
             ++ lia.
             ++ rewrite map_app, map_fst_combine by (now rewrite Hlc).
                apply NoDup_app_intro; auto. intros I HI1 HI2.
                apply in_map_iff in HI1. destruct HI1 as ((I' & n) & <- & HI1). apply Hfr in HI1.
                apply Hits in HI2. simpl in HI2. lia.
             ++ intros I n. rewrite in_app_iff, Hfr, Hcomb. split.
                ** intros [H|H]; intuition lia.
                ** intros (H1 & H2 & H3). destruct (Nat.eq_dec (length I) (S k)); [right|left]; intuition lia.
  Qed.

  Lemma F1_set : is_set (F1 X s).
  Proof.
    unfold F1. apply StronglySorted_filter. apply records_order_sorted. apply HX.
  Qed.

  Lemma first_level_ok : level_ok 1 (map (fun x => [x]) (F1 X s)).
  Proof.
    split.
    - pose proof F1_set as H. induction H as [|x l Hl IH Hall]; simpl; constructor; [assumption|].
      apply Forall_forall. intros I HI. apply in_map_iff in HI. destruct HI as (y & <- & Hy).
      rewrite Forall_forall in Hall. specialize (Hall y Hy).
      simpl. destruct (Z.compare_spec x y); lia || reflexivity.
    - intros I. rewrite in_map_iff. split.
      + intros (x & <- & Hx). apply F1_In in Hx. split; [|reflexivity]. repeat split; try discriminate.
        * repeat constructor.
        * intros y [<-|[]]. tauto.
        * tauto.
      + intros ((H1 & H2 & H3 & H4) & H5). destruct I as [|x [|]]; try discriminate.
        exists x. split; [reflexivity|]. apply F1_In. split; [apply H3; now left|assumption].
  Qed.

  Lemma fit_data_ordered freq0 :
    (exists fr', fit_data X s freq0 = Ok (freq0 ++ fr') /\ complete fr' /\ unique_level) \/
    (fit_data X s freq0 = Throw InvalidArgument /\ gap_level) \/
    (fit_data X s freq0 = Throw RuntimeError /\ forall I, ~ frequent X s I).
  Proof.
    rewrite fit_data_unfold.
    destruct first_level_ok as (Hs & Hin). pose proof first_level_ok as Hok.
    destruct (F1 X s) as [|x l] eqn:E.
    - right. right. split; [reflexivity|]. intros I HI. simpl in Hin.
      apply (proj2 (Hin (firstn 1 I))). apply frequent_firstn; [assumption|].
      destruct HI as (_ & Hne & _). destruct I; simpl; [congruence|lia].
    - edestruct (@level_loop_spec freq0 (S (S (length (concat X)))) 1 (map (fun x => [x]) (x :: l))
               (map (fun x => ([x], support X [x])) (x :: l))) as [H|H].
      + lia.
      + assumption.
      + discriminate.
      + lia.
      + rewrite map_map. change (fun x0 => fst ([x0], support X [x0])) with (fun x0 : Z => [x0]).
        apply (level_gen Hok).
      + intros I n. rewrite in_map_iff. split.
        * intros (y & [= <- <-] & Hy).
          destruct (proj1 (Hin [y])) as (H1 & H2); [apply in_map_iff; now exists y|].
          simpl. auto.
        * intros (H1 & H2 & ->). assert (H3 : length I = 1).
          { destruct H1 as (_ & Hne & _). destruct I; simpl in *; [congruence|lia]. }
          destruct (proj2 (Hin I) (conj H1 H3)) as [H|H].
          -- exists x. simpl. subst I. auto.
          -- apply in_map_iff in H. destruct H as (y & <- & Hy). exists y. simpl. auto.
      + left. exact H.
      + right. left. exact H.
  Qed.

  Lemma unique_gap : unique_level -> gap_level -> False.
  Proof.
    intros (k & I & Hk & HI & HIl & Hu) (k2 & J1 & J2 & Hd & H1 & H2 & H3 & H4 & Hg).
    destruct (Nat.lt_trichotomy k2 k) as [Hlt|[->|Hgt]].
    - destruct (@frequent_firstn X s I (S k2) HI) as (Ha & Hb); [lia|]. now apply (Hg _ Ha).
    - apply Hd. rewrite (Hu J1), (Hu J2); auto.
    - destruct (@two_subsets X s J1 k H1) as (I1 & I2 & Hd2 & Ha & Hb & Hc & He); [lia|].
      apply Hd2. rewrite (Hu I1), (Hu I2); auto.
  Qed.

  Lemma fit_Ok_iff freq0 : (exists r, fit_data X s freq0 = Ok r) <-> unique_level.
  Proof.
    destruct (fit_data_ordered freq0) as [(fr & E & _ & Hu)|[(E & Hg)|(E & Hn)]]; rewrite E.
    - split; eauto.
    - split; [intros (r & H); discriminate|]. intros Hu. destruct (unique_gap Hu Hg).
    - split; [intros (r & H); discriminate|]. intros (k & I & _ & HI & _). destruct (Hn I HI).
  Qed.

  Lemma fit_Throw_iff freq0 : fit_data X s freq0 = Throw InvalidArgument <-> gap_level.
  Proof.
    destruct (fit_data_ordered freq0) as [(fr & E & _ & Hu)|[(E & Hg)|(E & Hn)]]; rewrite E.
    - split; [discriminate|]. intros Hg. destruct (unique_gap Hu Hg).
    - split; auto.
    - split; [discriminate|]. intros (k & I & J & _ & HI & _). destruct (Hn I HI).
  Qed.

  Lemma fit_Ok_complete freq0 r : fit_data X s freq0 = Ok r -> exists fr, r = freq0 ++ fr /\ complete fr.
  Proof.
    destruct (fit_data_ordered freq0) as [(fr & E & Hc & Hu)|[(E & Hg)|(E & Hn)]]; rewrite E; intros [= <-].
    eauto.
  Qed.
End Ordered.
