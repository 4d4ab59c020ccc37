(** Transaction encoding and Apriori. *)
From Coq Require Import QArith.
From Verif Require Import Base Sorting Common_Model Common_Spec HashTree_Model HashTree_Spec HashTree_Proofs
  Comb_Proofs RDR_Proofs RowSort_Proofs CommonMisc_Proofs Apriori_Model Apriori_Spec.
Set Implicit Arguments.
Local Open Scope nat_scope.

(** * Sets *)
Lemma set_insert_In x s v : In v (set_insert x s) <-> v = x \/ In v s.
Proof.
  induction s as [|y s IH]; simpl; [intuition|].
  destruct (x <? y)%Z; [simpl; intuition|].
  destruct (Z.eqb_spec x y) as [->|]; [simpl; intuition|]. simpl. rewrite IH. intuition.
Qed.

Lemma set_insert_sorted x s : is_set s -> is_set (set_insert x s).
Proof.
  unfold is_set. induction 1 as [|y s Hs IH Hall]; simpl; [repeat constructor|].
  destruct (Z.ltb_spec x y) as [Hlt|Hge].
  - constructor; [constructor; assumption|]. constructor; [assumption|].
    eapply Forall_impl; [|exact Hall]. simpl. lia.
  - destruct (Z.eqb_spec x y) as [->|Hne]; [constructor; assumption|].
    constructor; [assumption|]. apply Forall_forall. intros v Hv. apply set_insert_In in Hv.
    destruct Hv as [->|Hv]; [lia|]. rewrite Forall_forall in Hall. now apply Hall.
Qed.

Lemma set_of_spec l : is_set (set_of l) /\ (forall v, In v (set_of l) <-> In v l).
Proof.
  unfold set_of.
  assert (H : forall l s, is_set s ->
    is_set (fold_left (fun s x => set_insert x s) l s) /\
    (forall v, In v (fold_left (fun s x => set_insert x s) l s) <-> In v l \/ In v s)).
  { clear l. induction l as [|x l IH]; intros s Hs; simpl; [split; [assumption|intuition]|].
    destruct (IH (set_insert x s) (set_insert_sorted x Hs)) as (H1 & H2).
    split; [assumption|]. intros v. rewrite H2, set_insert_In. intuition. }
  destruct (H l [] (SSorted_nil _)) as (H1 & H2). split; [assumption|].
  intros v. rewrite H2. simpl. tauto.
Qed.

Lemma is_set_NoDup s : is_set s -> NoDup s.
Proof.
  induction 1 as [|a s Hs IH Hall]; constructor; [|assumption].
  intros Hin. rewrite Forall_forall in Hall. specialize (Hall a Hin). lia.
Qed.

Lemma is_set_ext s1 s2 : is_set s1 -> is_set s2 -> (forall x, In x s1 <-> In x s2) -> s1 = s2.
Proof.
  apply StronglySorted_unique; [intros a; lia|intros a b c; lia].
Qed.

(** * The encoder *)
Lemma number_from_spec : forall s idx m, NoDup s -> om_sorted Z.compare m ->
  om_sorted Z.compare (number_from idx s m) /\
  (forall x p, nth_error s p = Some x -> om_find Z.compare x (number_from idx s m) = Some (idx + p)) /\
  (forall x, ~ In x s -> om_find Z.compare x (number_from idx s m) = om_find Z.compare x m).
Proof.
  induction s as [|y s IH]; intros idx m Hnd Hm; simpl.
  - split; [assumption|]. split; [|reflexivity]. intros x p H. destruct p; discriminate.
  - inversion Hnd as [|? ? Hn Hnd']; subst.
    destruct (IH (S idx) (om_set Z.compare y idx m)) as (H1 & H2 & H3); auto.
    { apply om_set_sorted; auto using Zcmp_eq, Zcmp_antisym. intros a b c. apply Zcmp_trans. }
    split; [assumption|]. split.
    + intros x [|p] E; simpl in E.
      * injection E as ->. rewrite H3 by assumption.
        rewrite om_set_find; auto using Zcmp_eq, Zcmp_antisym. rewrite Z.compare_refl.
        f_equal. lia.
      * rewrite (H2 x p E). f_equal. lia.
    + intros x Hx. rewrite H3 by tauto.
      rewrite om_set_find; auto using Zcmp_eq, Zcmp_antisym.
      destruct (Z.compare_spec x y) as [E|E|E]; [subst; tauto|reflexivity|reflexivity].
Qed.

Lemma all_triplets_spec cm : forall X idx i c x,
  In (i, c, x) (all_triplets cm idx X) <->
  idx <= i /\ (exists row, nth_error X (i - idx) = Some row /\ In x row) /\ om_find Z.compare x cm = Some c.
Proof.
  induction X as [|row X IH]; intros idx i c x; simpl.
  - split; [contradiction|]. intros (_ & (row & E & _) & _). destruct (i - idx); discriminate.
  - rewrite in_app_iff, IH. unfold row_triplets. rewrite in_flat_map. split.
    + intros [(y & Hy & Hin)|(Hi & (r & E & Hx) & Hf)].
      * destruct (om_find Z.compare y cm) eqn:Ef; [|contradiction].
        destruct Hin as [[= -> -> ->]|[]]. split; [lia|]. split; [|assumption].
        exists row. rewrite Nat.sub_diag. split; [reflexivity|]. now apply set_of_spec.
      * split; [lia|]. split; [|assumption]. exists r. split; [|assumption].
        replace (i - idx) with (S (i - S idx)) by lia. assumption.
    + intros (Hi & (r & E & Hx) & Hf). destruct (Nat.eq_dec i idx) as [->|Hne].
      * left. rewrite Nat.sub_diag in E. injection E as ->. exists x.
        split; [now apply set_of_spec|]. rewrite Hf. now left.
      * right. split; [lia|]. split; [|assumption]. exists r. split; [|assumption].
        replace (i - idx) with (S (i - S idx)) in E by lia. assumption.
Qed.

Lemma NoDup_flat_map {A B} (f : A -> list B) l :
  NoDup l -> (forall a, In a l -> NoDup (f a)) ->
  (forall a1 a2 b, In a1 l -> In a2 l -> In b (f a1) -> In b (f a2) -> a1 = a2) ->
  NoDup (flat_map f l).
Proof.
  induction 1 as [|a l Hn Hnd IH]; intros H1 H2; simpl; [constructor|].
  apply NoDup_app_intro.
  - apply H1. now left.
  - apply IH; [intros x Hx; apply H1; now right|]. intros a1 a2 b Ha1 Ha2. apply H2; now right.
  - intros b Hb Hb2. apply in_flat_map in Hb2. destruct Hb2 as (a2 & Ha2 & Hb2).
    assert (a = a2) by (apply (H2 a a2 b); simpl; auto). subst. contradiction.
Qed.

Lemma all_triplets_NoDup cm :
  (forall x y c, om_find Z.compare x cm = Some c -> om_find Z.compare y cm = Some c -> x = y) ->
  forall X idx, NoDup (map fst (all_triplets cm idx X)).
Proof.
  intros Hinj. induction X as [|row X IH]; intros idx; simpl; [constructor|].
  rewrite map_app. apply NoDup_app_intro.
  - assert (E : map fst (row_triplets cm idx row) =
      flat_map (fun x => match om_find Z.compare x cm with Some c => [(idx, c)] | None => [] end) (set_of row)).
    { unfold row_triplets. induction (set_of row) as [|x l IHl]; simpl; [reflexivity|].
      rewrite map_app, IHl. f_equal. destruct (om_find Z.compare x cm); reflexivity. }
    rewrite E. apply NoDup_flat_map.
    + apply is_set_NoDup, set_of_spec.
    + intros x _. destruct (om_find Z.compare x cm); repeat constructor. simpl. tauto.
    + intros x y b _ _ Hx Hy. destruct (om_find Z.compare x cm) eqn:Ex; [|contradiction].
      destruct (om_find Z.compare y cm) eqn:Ey; [|contradiction].
      destruct Hx as [<-|[]]. destruct Hy as [[= ->]|[]]. eapply Hinj; eassumption.
  - apply IH.
  - intros (i & c) Hin1 Hin2. apply in_map_iff in Hin1. destruct Hin1 as (((i1 & c1) & x1) & [= -> ->] & Hin1).
    apply in_map_iff in Hin2. destruct Hin2 as (((i2 & c2) & x2) & [= -> ->] & Hin2).
    apply all_triplets_spec in Hin2. unfold row_triplets in Hin1. apply in_flat_map in Hin1.
    destruct Hin1 as (y & _ & Hin1). destruct (om_find Z.compare y cm); [|contradiction].
    destruct Hin1 as [[= -> _ _]|[]]. lia.
Qed.

Lemma encode_spec X :
  exists cols_, let m := encode X in
    sp_rows m = length X /\ sp_cols m = length cols_ /\
    is_set cols_ /\ (forall x, In x cols_ <-> In x (concat X)) /\
    NoDup (map fst (sp_entries m)) /\
    forall i c x, In (i, c, x) (sp_entries m) <->
      (exists row, nth_error X i = Some row /\ In x row) /\ nth_error cols_ c = Some x.
Proof.
  exists (set_of (concat X)). simpl.
  destruct (set_of_spec (concat X)) as (Hs & Hm).
  destruct (@number_from_spec (set_of (concat X)) 0 [] (is_set_NoDup Hs) (SSorted_nil _)) as (_ & Hpos & Hnone).
  assert (Hfind : forall x c, om_find Z.compare x (number_from 0 (set_of (concat X)) []) = Some c <->
                              nth_error (set_of (concat X)) c = Some x).
  { intros x c. split.
    - intros E. destruct (in_dec Z.eq_dec x (set_of (concat X))) as [Hin|Hn].
      + apply In_nth_error in Hin. destruct Hin as (p & Hp). pose proof (Hpos x p Hp) as E2.
        simpl in E2. rewrite E2 in E. injection E as <-. assumption.
      + rewrite Hnone in E by assumption. discriminate.
    - intros E. rewrite (Hpos x c E). reflexivity. }
  split; [reflexivity|]. split; [reflexivity|]. split; [assumption|]. split; [assumption|]. split.
  - apply all_triplets_NoDup. intros x y c Hx Hy. apply Hfind in Hx, Hy. congruence.
  - intros i c x. rewrite all_triplets_spec, Nat.sub_0_r, Hfind. intuition lia.
Qed.

(** * Supports *)
Lemma transaction_has_spec I t : transaction_has I t = true <-> incl I t.
Proof. exact (contains_spec I t). Qed.

Lemma support_anti X I J : incl I J -> support X J <= support X I.
Proof.
  intros H. unfold support. induction X as [|t X IH]; simpl; [lia|].
  destruct (transaction_has J t) eqn:EJ; simpl.
  - assert (EI : transaction_has I t = true).
    { apply transaction_has_spec. apply transaction_has_spec in EJ. intros x Hx. auto. }
    rewrite EI. simpl. lia.
  - destruct (transaction_has I t); simpl; lia.
Qed.

Definition row_count (X : list (list Z)) (x : Z) : nat :=
  length (filter (fun t => existsb (Z.eqb x) t) X).
Lemma row_count_support X x : support X [x] = row_count X x.
Proof.
  unfold support, row_count. f_equal. apply filter_ext. intros t. simpl. now rewrite Bool.andb_true_r.
Qed.

Lemma existsb_In x t : existsb (Z.eqb x) t = true <-> In x t.
Proof.
  rewrite existsb_exists. split.
  - intros (y & Hy & E). apply Z.eqb_eq in E. now subst.
  - intros H. exists x. split; [assumption|apply Z.eqb_refl].
Qed.

Lemma row_count_pos X x : 0 < row_count X x <-> In x (concat X).
Proof.
  unfold row_count. induction X as [|t X IH]; simpl; [split; [lia|contradiction]|].
  rewrite in_app_iff, <- IH, <- existsb_In. destruct (existsb (Z.eqb x) t); simpl; split; intros; auto; try lia.
Qed.

Lemma count_occ_values cm x :
  (forall v, In v (map fst cm) <-> om_find Z.compare v cm <> None) ->
  forall X idx, (forall v, In v (concat X) -> om_find Z.compare v cm <> None) ->
  count_occ Z.eq_dec (map snd (all_triplets cm idx X)) x = row_count X x.
Proof.
  intros Hcm. induction X as [|t X IH]; intros idx Hin; simpl; [reflexivity|].
  rewrite map_app, count_occ_app, IH.
  2: { intros v Hv. apply Hin. simpl. apply in_app_iff. now right. }
  assert (E : map snd (row_triplets cm idx t) = set_of t).
  { unfold row_triplets. assert (Hs : forall v, In v (set_of t) -> om_find Z.compare v cm <> None).
    { intros v Hv. apply Hin. simpl. apply in_app_iff. left. now apply set_of_spec. }
    induction (set_of t) as [|v l IHl]; simpl; [reflexivity|].
    assert (Hv := Hs v (or_introl eq_refl)).
    destruct (om_find Z.compare v cm); [|congruence]. simpl. rewrite IHl; [reflexivity|].
    intros w Hw. apply Hs. now right. }
  rewrite E. unfold row_count. simpl.
  destruct (set_of_spec t) as (Hs & Hm).
  destruct (existsb (Z.eqb x) t) eqn:Ex; simpl.
  - apply existsb_In in Ex. apply Hm in Ex.
    assert (count_occ Z.eq_dec (set_of t) x = 1); [|unfold row_count; lia].
    apply NoDup_count_occ'; [now apply is_set_NoDup|assumption].
  - assert (count_occ Z.eq_dec (set_of t) x = 0); [|unfold row_count; lia].
    apply count_occ_not_In. intros Hin2. apply Hm in Hin2. apply existsb_In in Hin2. congruence.
Qed.

Lemma incr_records_spec : forall l m, om_sorted Z.compare m ->
  om_sorted Z.compare (fold_left incr_record l m) /\
  forall x, om_find Z.compare x (fold_left incr_record l m) =
    match om_find Z.compare x m, count_occ Z.eq_dec l x with
    | None, 0 => None
    | None, S c => Some (S c)
    | Some n, c => Some (n + c)
    end.
Proof.
  induction l as [|y l IH]; intros m Hm; simpl.
  - split; [assumption|]. intros x. destruct (om_find Z.compare x m); [f_equal; lia|reflexivity].
  - assert (Hm' : om_sorted Z.compare (incr_record m y)).
    { unfold incr_record. apply om_set_sorted; auto using Zcmp_eq, Zcmp_antisym.
      intros a b c. apply Zcmp_trans. }
    destruct (IH _ Hm') as (H1 & H2). split; [assumption|]. intros x. rewrite H2.
    unfold incr_record. rewrite om_set_find; auto using Zcmp_eq, Zcmp_antisym.
    destruct (Z.eq_dec y x) as [->|Hne].
    + rewrite Z.compare_refl. destruct (om_find Z.compare x m); f_equal; lia.
    + destruct (Z.compare_spec x y); [congruence| |]; reflexivity.
Qed.

Lemma all_records_spec X : om_sorted Z.compare (all_records X) /\
  forall x, om_find Z.compare x (all_records X) = match row_count X x with 0 => None | S c => Some (S c) end.
Proof.
  unfold all_records.
  destruct (@incr_records_spec (map snd (sp_entries (encode X))) [] (SSorted_nil _)) as (H1 & H2).
  split; [assumption|]. intros x. rewrite H2. simpl om_find.
  unfold encode. simpl sp_entries.
  destruct (set_of_spec (concat X)) as (Hs & Hm).
  destruct (@number_from_spec (set_of (concat X)) 0 [] (is_set_NoDup Hs) (SSorted_nil _)) as (Hsr & Hpos & Hnone).
  rewrite count_occ_values.
  - destruct (row_count X x); reflexivity.
  - intros v. pose proof (@om_find_None _ _ Z.compare Zcmp_eq v (number_from 0 (set_of (concat X)) [])) as HN.
    destruct (om_find Z.compare v (number_from 0 (set_of (concat X)) [])) eqn:E.
    + split; [congruence|]. intros _. apply om_find_In in E; [|exact Zcmp_eq].
      apply in_map_iff. now exists (v, n).
    + split; [|congruence]. intros Hin. exfalso. now apply HN.
  - intros v Hv. apply Hm in Hv. apply In_nth_error in Hv. destruct Hv as (p & Hp).
    rewrite (Hpos v p Hp). discriminate.
Qed.

Lemma erase_find s m x : om_sorted Z.compare m ->
  om_find Z.compare x (erase_infrequent s m) =
    match om_find Z.compare x m with Some c => if s <=? c then Some c else None | None => None end.
Proof.
  intros Hm. unfold erase_infrequent. induction Hm as [|(k & v) m Hs IH Hall]; simpl; [reflexivity|].
  assert (Hb : negb (v <? s) = (s <=? v)).
  { destruct (Nat.ltb_spec v s), (Nat.leb_spec s v); simpl; auto; lia. }
  rewrite Hb. destruct (s <=? v) eqn:E; simpl; rewrite IH.
  - destruct (Z.compare_spec x k); [rewrite E|..]; reflexivity.
  - destruct (Z.compare_spec x k) as [->|H|H]; [rewrite E|reflexivity|reflexivity].
    destruct (om_find Z.compare k m) as [w|] eqn:Ef; [|reflexivity].
    exfalso. apply om_find_In in Ef; [|exact Zcmp_eq].
    rewrite Forall_forall in Hall. specialize (Hall _ Ef). simpl in Hall.
    rewrite Z.compare_refl in Hall. discriminate.
Qed.

Lemma recs_find s X x :
  om_find Z.compare x (erase_infrequent s (all_records X)) =
    if existsb (Z.eqb x) (concat X) && (s <=? support X [x]) then Some (support X [x]) else None.
Proof.
  destruct (all_records_spec X) as (H1 & H2). rewrite erase_find by assumption.
  rewrite H2, row_count_support. pose proof (row_count_pos X x) as Hp.
  destruct (row_count X x) as [|c].
  - replace (existsb (Z.eqb x) (concat X)) with false; [reflexivity|].
    symmetry. apply Bool.not_true_iff_false. rewrite existsb_In. intros H. apply Hp in H. lia.
  - rewrite (proj2 (existsb_In x (concat X))) by (apply Hp; lia). simpl.
    destruct (s <=? S c); reflexivity.
Qed.

(** * Order of first appearance *)
Lemma records_order_snoc l z :
  fold_left add_record (l ++ [z]) [] = add_record (fold_left add_record l []) z.
Proof. now rewrite fold_left_app. Qed.

Lemma records_order_In l x : In x (fold_left add_record l []) <-> In x l.
Proof.
  revert x. induction l as [|z l IH] using rev_ind; intros x; [reflexivity|].
  rewrite records_order_snoc. unfold add_record at 1.
  destruct (existsb (Z.eqb z) (fold_left add_record l [])) eqn:E; rewrite ?in_app_iff.
  - apply existsb_In in E. apply IH in E. rewrite IH. simpl. split; [tauto|]. intros [H|[<-|[]]]; assumption.
  - rewrite IH. reflexivity.
Qed.

Lemma records_order_NoDup l : NoDup (fold_left add_record l []).
Proof.
  induction l as [|z l IH] using rev_ind; [constructor|].
  rewrite records_order_snoc. unfold add_record at 1.
  destruct (existsb (Z.eqb z) (fold_left add_record l [])) eqn:E; [assumption|].
  apply NoDup_app_intro; [assumption|repeat constructor; simpl; tauto|].
  intros x Hx [<-|[]]. apply existsb_In in Hx. congruence.
Qed.

Lemma records_order_sorted l :
  (forall x y, In x l -> In y l -> (x < y)%Z -> appears_before l x y) ->
  is_set (fold_left add_record l []).
Proof.
  induction l as [|z l IH] using rev_ind; intros H; [constructor|].
  rewrite records_order_snoc. unfold add_record at 1.
  assert (Hl : is_set (fold_left add_record l [])).
  { apply IH. intros x y Hx Hy Hlt.
    destruct (H x y) as (l1 & l2 & E & Hn); try (apply in_app_iff; now left); [assumption|].
    destruct l2 as [|w l2] using rev_ind.
    - apply app_inj_tail in E. destruct E as (E & _). subst l1. contradiction.
    - clear IHl2. replace (l1 ++ x :: l2 ++ [w]) with ((l1 ++ x :: l2) ++ [w]) in E
        by (now rewrite <- app_assoc).
      apply app_inj_tail in E. destruct E as (-> & _). exists l1, l2. auto. }
  destruct (existsb (Z.eqb z) (fold_left add_record l [])) eqn:E; [assumption|].
  assert (Hz : ~ In z l).
  { intros Hz. apply records_order_In in Hz. apply existsb_In in Hz. congruence. }
  unfold is_set in *. assert (Hall : forall y, In y (fold_left add_record l []) -> (y < z)%Z).
  { intros y Hy. apply (proj1 (records_order_In l y)) in Hy. destruct (Z.lt_trichotomy y z) as [Hlt|[->|Hgt]]; auto.
    - contradiction.
    - destruct (H z y) as (l1 & l2 & E2 & Hn); auto.
      + apply in_app_iff. right. now left.
      + apply in_app_iff. now left.
      + exfalso. destruct l2 as [|w l2] using rev_ind.
        * apply app_inj_tail in E2. destruct E2 as (E2 & _). subst l1. contradiction.
        * replace (l1 ++ z :: l2 ++ [w]) with ((l1 ++ z :: l2) ++ [w]) in E2
            by (now rewrite <- app_assoc).
          apply app_inj_tail in E2. destruct E2 as (-> & _). apply Hz, in_app_iff. right. now left. }
  clear IH E.   induction Hl as [|a s Hs IHs Ha]; simpl; [repeat constructor|].
  constructor.
  - apply IHs. intros y Hy. apply Hall. now right.
  - apply Forall_app. split; [assumption|]. repeat constructor. apply Hall. now left.
Qed.

(** * Subsequences of sets *)
Lemma subseq_set c t : is_set t -> subseq c t -> is_set c.
Proof.
  intros Ht H. induction H as [l|a s l H IH|a s l H IH]; [constructor| |].
  - inversion Ht as [|? ? Ht' Hall]; subst. constructor; [now apply IH|].
    rewrite Forall_forall in Hall |- *. intros x Hx. apply Hall.
    exact (subseq_incl H _ Hx).
  - inversion Ht; subst. now apply IH.
Qed.

Lemma subseq_incl_iff c t : is_set t -> (subseq c t <-> is_set c /\ incl c t).
Proof.
  intros Ht. split.
  - intros H. split; [eapply subseq_set; eassumption|now apply subseq_incl].
  - intros (Hc & Hin). revert t Ht Hin. induction Hc as [|a c Hc IH Hall]; intros t Ht Hin; [constructor|].
    induction Ht as [|b t Ht IHt Hallt].
    + exfalso. apply (Hin a). now left.
    + rewrite Forall_forall in Hall, Hallt.
      destruct (Hin a (or_introl eq_refl)) as [->|Ha].
      * apply sub_take. apply IH; [assumption|]. intros x Hx.
        destruct (Hin x (or_intror Hx)) as [->|]; [|assumption].
        specialize (Hall x Hx). lia.
      * apply sub_skip. apply IHt. intros x Hx. destruct (Hin x Hx) as [->|]; [|assumption].
        destruct Hx as [->|Hx]; [assumption|].
        specialize (Hall x Hx). specialize (Hallt a Ha). lia.
Qed.

Lemma combinations_Ok {A} (x : list A) k : exists l, combinations x k = Ok l.
Proof. rewrite combinations_masks. eauto. Qed.

Lemma generate_Ok X k : exists css, generate_k_subsets X k = Ok (concat css) /\
  Forall2 (fun t cs => combinations t k = Ok cs) X css.
Proof.
  unfold generate_k_subsets.
  destruct (@mapM_exists _ _ (fun t => combinations t k) (fun t cs => combinations t k = Ok cs) X)
    as (css & E & HF).
  - intros t _. destruct (combinations_Ok t k) as (l & E). eauto.
  - rewrite E. simpl. eauto.
Qed.

Lemma subsets_length X k subs : generate_k_subsets X k = Ok subs -> Forall (fun it => length it = k) subs.
Proof.
  intros E. destruct (generate_Ok X k) as (css & E2 & HF). rewrite E in E2. injection E2 as ->.
  clear E. induction HF as [|t cs X css E HF IH]; simpl; [constructor|].
  apply Forall_app. split; [|assumption]. apply Forall_forall. intros c Hc.
  now apply (in_combinations _ _ c E) in Hc.
Qed.

Lemma subsets_count X k subs c : Forall is_set X -> generate_k_subsets X k = Ok subs ->
  is_set c -> length c = k -> count_occ itemset_eq_dec subs c = support X c.
Proof.
  intros HX E Hc Hk. destruct (generate_Ok X k) as (css & E2 & HF). rewrite E in E2. injection E2 as ->.
  clear E. unfold support. induction HF as [|t cs X css E HF IH]; simpl; [reflexivity|].
  inversion HX as [|? ? Ht HX']; subst. rewrite count_occ_app, IH by assumption.
  assert (Hiff : In c cs <-> incl c t).
  { rewrite (in_combinations _ _ c E), (subseq_incl_iff c Ht). tauto. }
  destruct (transaction_has c t) eqn:Et.
  - apply transaction_has_spec in Et. simpl.
    rewrite (proj1 (NoDup_count_occ' itemset_eq_dec cs)).
    + reflexivity.
    + eapply combinations_NoDup; [|exact E]. now apply is_set_NoDup.
    + now apply Hiff.
  - rewrite (proj1 (count_occ_not_In itemset_eq_dec cs c)); [reflexivity|].
    intros Hin. apply Hiff in Hin. apply transaction_has_spec in Hin. congruence.
Qed.

(** * Candidate generation *)
Lemma is_prefix_spec : forall l1 l2, length l1 = length l2 -> l1 <> [] ->
  is_prefix l1 l2 = Ok (list_Z_eqb (removelast l1) (removelast l2)).
Proof.
  induction l1 as [|a l1 IH]; intros l2 Hl Hne; [congruence|].
  destruct l1 as [|a' l1].
  - destruct l2 as [|b [|b' l2]]; simpl in Hl; try lia. reflexivity.
  - destruct l2 as [|b [|b' l2]]; simpl in Hl; try lia.
    change (removelast (a :: a' :: l1)) with (a :: removelast (a' :: l1)).
    change (removelast (b :: b' :: l2)) with (b :: removelast (b' :: l2)).
    change (is_prefix (a :: a' :: l1) (b :: b' :: l2)) with
      (if (a =? b)%Z then is_prefix (a' :: l1) (b' :: l2) else Ok false).
    destruct (Z.eqb_spec a b) as [->|Hab].
    + rewrite IH; [|simpl; lia|discriminate]. f_equal. unfold list_Z_eqb. simpl lex.
      now rewrite Z.compare_refl.
    + f_equal. symmetry. apply Bool.not_true_iff_false. rewrite list_Z_eqb_spec. intros [= H _]. contradiction.
Qed.

Fixpoint same_prefix (p : list Z) (l : list (list Z)) : list (list Z) :=
  match l with
  | [] => []
  | q :: l' => if list_Z_eqb (removelast p) (removelast q) then q :: same_prefix p l' else []
  end.

Lemma join_with_spec k p l : 0 < k -> length p = k -> Forall (fun q => length q = k) l ->
  join_with p l = Ok (map (fun q => p ++ [last q 0%Z]) (same_prefix p l)).
Proof.
  intros Hk Hp HF. induction HF as [|q l Hq HF IH]; simpl; [reflexivity|].
  assert (Hpn : p <> []) by (destruct p; simpl in *; [lia|discriminate]).
  rewrite is_prefix_spec by (auto; congruence). simpl.
  destruct (list_Z_eqb (removelast p) (removelast q)); simpl; [|reflexivity].
  rewrite IH. cbn [bind map]. f_equal. f_equal.
  change (removelast p ++ [last p 0%Z] ++ [last q 0%Z] = p ++ [last q 0%Z]).
  now rewrite app_assoc, <- (app_removelast_last 0%Z Hpn).
Qed.

Definition joined (l : list (list Z)) : list (list Z) :=
  (fix go l := match l with
               | [] => []
               | p :: rest => map (fun q => p ++ [last q 0%Z]) (same_prefix p rest) ++ go rest
               end) l.

Lemma join_all_spec k l : 0 < k -> Forall (fun q => length q = k) l -> join_all l = Ok (joined l).
Proof.
  intros Hk HF. induction HF as [|p l Hp HF IH]; simpl; [reflexivity|].
  rewrite (@join_with_spec k) by assumption. simpl. rewrite IH. reflexivity.
Qed.

Lemma same_prefix_In p l q : In q (same_prefix p l) -> In q l /\ removelast q = removelast p.
Proof.
  induction l as [|r l IH]; simpl; [contradiction|].
  destruct (list_Z_eqb (removelast p) (removelast r)) eqn:E; simpl; [|contradiction].
  intros [<-|H].
  - apply list_Z_eqb_spec in E. auto.
  - apply IH in H. tauto.
Qed.

Lemma joined_In l c : In c (joined l) ->
  exists l1 p l2 q, l = l1 ++ p :: l2 /\ In q l2 /\ removelast q = removelast p /\ c = p ++ [last q 0%Z].
Proof.
  induction l as [|p l IH]; simpl; [contradiction|]. intros Hin. apply in_app_iff in Hin.
  destruct Hin as [Hin|Hin].
  - apply in_map_iff in Hin. destruct Hin as (q & <- & Hq). apply same_prefix_In in Hq.
    exists [], p, l, q. tauto.
  - destruct (IH Hin) as (l1 & p' & l2 & q & -> & Hq). exists (p :: l1), p', l2, q. tauto.
Qed.

Lemma same_prefix_all p l1 q l2 :
  Forall (fun r => removelast r = removelast p) l1 -> removelast q = removelast p ->
  In q (same_prefix p (l1 ++ q :: l2)).
Proof.
  intros HF Hq. induction HF as [|r l1 Hr HF IH]; simpl.
  - rewrite (proj2 (list_Z_eqb_spec _ _)) by congruence. now left.
  - rewrite (proj2 (list_Z_eqb_spec _ _)) by congruence. now right.
Qed.

Lemma joined_complete l1 p l2 q l3 :
  Forall (fun r => removelast r = removelast p) l2 -> removelast q = removelast p ->
  In (p ++ [last q 0%Z]) (joined (l1 ++ p :: l2 ++ q :: l3)).
Proof.
  intros HF Hq. induction l1 as [|r l1 IH]; simpl.
  - apply in_app_iff. left. apply in_map_iff. exists q. split; [reflexivity|].
    now apply same_prefix_all.
  - apply in_app_iff. now right.
Qed.

(* between two lists with the same prefix only lists with that prefix lie *)
Lemma lex_between : forall u a b r, length r = S (length u) ->
  lex (u ++ [a]) r = Lt -> lex r (u ++ [b]) = Lt -> removelast r = u.
Proof.
  induction u as [|x u IH]; intros a b r Hr H1 H2.
  - destruct r as [|y [|]]; simpl in Hr; try lia. reflexivity.
  - destruct r as [|y r]; simpl in Hr; [lia|]. simpl in H1, H2.
    destruct (Z.compare_spec x y) as [->|Hlt|Hgt]; [|destruct (Z.compare_spec y x); try lia; discriminate|discriminate].
    rewrite Z.compare_refl in H2.
    assert (E : removelast r = u) by (apply (IH a b); [now injection Hr|assumption|assumption]).
    destruct r as [|z r]; [simpl in Hr; lia|]. simpl in *. now rewrite E.
Qed.

Lemma lex_snoc u a b : lex (u ++ [a]) (u ++ [b]) = Lt <-> (a < b)%Z.
Proof.
  induction u as [|x u IH]; simpl.
  - destruct (Z.compare_spec a b); split; intros; try discriminate; try reflexivity; try assumption; lia.
  - now rewrite Z.compare_refl.
Qed.

(** * One level *)
Lemma count_level_empty s subs : count_level s [] subs = Ok ([], []).
Proof.
  unfold count_level. cbn [length map app]. change (Z.of_nat 0) with 0%Z.
  assert (E : ht_run (ht_new 0 0) (map OpAdd subs ++ [OpQuery s]) = Ok (ht_new 0 0, [([], [])])).
  { induction subs as [|x subs IH]; [reflexivity|].
    cbn [map app ht_run].
    change (ht_step (ht_new 0 0) (OpAdd x)) with (Ok (ht_new 0 0, @nil (list nat * list itemset))).
    cbn [bind]. rewrite IH. reflexivity. }
  rewrite E. reflexivity.
Qed.

Lemma count_level_spec k s cands subs :
  Forall (fun it => length it = k) cands -> Forall (fun it => length it = k) subs ->
  exists counts itemsets, count_level s cands subs = Ok (counts, itemsets) /\
    length counts = length itemsets /\ NoDup itemsets /\
    forall it n, In (it, n) (combine itemsets counts) <->
      In it cands /\ n = count_occ itemset_eq_dec subs it /\ s <= n.
Proof.
  intros Hc Hs. destruct cands as [|c0 cands].
  - exists [], []. rewrite count_level_empty. repeat split; try constructor; simpl in *; tauto.
  - assert (Hmc : (0 < Z.of_nat (length (c0 :: cands)))%Z) by (simpl length; lia).
    destruct (@ht_classic k (length (c0 :: cands)) (Z.of_nat (length (c0 :: cands))) (c0 :: cands) subs s
                Hmc Hc Hs) as (t & counts & itemsets & E & H1 & H2 & H3).
    exists counts, itemsets. unfold count_level. rewrite E. simpl. auto.
Qed.

Lemma combine_In_l {A B} (l1 : list A) (l2 : list B) a :
  length l1 = length l2 -> In a l1 -> exists b, In (a, b) (combine l1 l2).
Proof.
  revert l2. induction l1 as [|x l1 IH]; intros [|y l2] Hl Hin; simpl in *; try lia; try contradiction.
  destruct Hin as [->|Hin]; [exists y; now left|].
  destruct (IH l2) as (b & Hb); [lia|assumption|]. exists b. now right.
Qed.

Lemma map_fst_combine {A B} (l1 : list A) (l2 : list B) :
  length l1 = length l2 -> map fst (combine l1 l2) = l1.
Proof.
  revert l2. induction l1 as [|x l1 IH]; intros [|y l2] Hl; simpl in *; try lia; [reflexivity|].
  f_equal. apply IH. lia.
Qed.

(** ** Safety on every database *)
Section General.
  Variable X : list (list Z).
  Variable s : nat.

  Definition gen_level (k : nat) (prev : list itemset) : Prop :=
    NoDup prev /\ Forall (fun I => length I = k /\ NoDup I /\ incl I (concat X)) prev.

  Lemma joined_gen k prev : 0 < k -> gen_level k prev ->
    Forall (fun I => length I = S k /\ NoDup I /\ incl I (concat X)) (joined prev).
  Proof.
    intros Hk (Hnd & HF). apply Forall_forall. intros c Hc. apply joined_In in Hc.
    destruct Hc as (l1 & p & l2 & q & -> & Hq & Hpre & ->). rewrite Forall_forall in HF.
    destruct (HF p) as (Hp1 & Hp2 & Hp3); [apply in_app_iff; right; now left|].
    destruct (HF q) as (Hq1 & Hq2 & Hq3); [apply in_app_iff; right; now right|].
    assert (Hpn : p <> []) by (destruct p; simpl in *; [lia|discriminate]).
    assert (Hqn : q <> []) by (destruct q; simpl in *; [lia|discriminate]).
    assert (Hpq : p <> q).
    { intros ->. apply NoDup_remove_2 in Hnd. apply Hnd. apply in_app_iff. now right. }
    assert (Hlast : In (last q 0%Z) q).
    { rewrite (app_removelast_last 0%Z Hqn) at 2. apply in_app_iff. right. now left. }
    split; [rewrite app_length; simpl; lia|]. split.
    - apply NoDup_app_intro; [assumption|repeat constructor; simpl; tauto|].
      intros x Hx [<-|[]].
      rewrite (app_removelast_last 0%Z Hpn) in Hx. apply in_app_iff in Hx. destruct Hx as [Hx|[Hx|[]]].
      + rewrite (app_removelast_last 0%Z Hqn) in Hq2. apply NoDup_remove_2 in Hq2.
        rewrite app_nil_r in Hq2. apply Hq2. rewrite Hpre. assumption.
      + apply Hpq. rewrite (app_removelast_last 0%Z Hpn), (app_removelast_last 0%Z Hqn). congruence.
    - intros x Hx. apply in_app_iff in Hx. destruct Hx as [Hx|[<-|[]]]; [now apply Hp3|now apply Hq3].
  Qed.

  Lemma level_loop_safe : forall fuel k prev freq,
    0 < k -> gen_level k prev -> prev <> [] -> length (concat X) + 3 <= fuel + k ->
    (exists r, level_loop fuel X s (S k) prev freq = Ok r) \/
    level_loop fuel X s (S k) prev freq = Throw InvalidArgument.
  Proof.
    induction fuel as [|fuel IH]; intros k prev freq Hk Hg Hne Hf.
    - exfalso. destruct Hg as (Hnd & HF). destruct prev as [|p prev]; [congruence|].
      inversion HF as [|? ? (H1 & H2 & H3) _]; subst.
      pose proof (NoDup_incl_length H2 H3). lia.
    - cbn [level_loop]. destruct (Nat.leb_spec (length prev) 1) as [Hle|Hgt]; [left; eauto|].
      assert (Hlen : Forall (fun q => length q = k) prev).
      { destruct Hg as (_ & HF). eapply Forall_impl; [|exact HF]. simpl. tauto. }
      rewrite (join_all_spec Hk Hlen). cbn [bind].
      destruct (generate_Ok X (S k)) as (css & Eg & _). rewrite Eg. cbn [bind].
      pose proof (subsets_length _ _ Eg) as Hsl.
      pose proof (joined_gen Hk Hg) as Hj.
      destruct (@count_level_spec (S k) s (joined prev) (concat css)) as (counts & its & Ec & Hl & Hnd & Hin).
      { eapply Forall_impl; [|exact Hj]. simpl. tauto. }
      { assumption. }
      rewrite Ec. cbn [bind].
      destruct its as [|i0 its]; [right; reflexivity|].
      assert (HI : forall it, In it (i0 :: its) -> In it (joined prev)).
      { intros it Hit. destruct (@combine_In_l _ _ (i0 :: its) counts it (eq_sym Hl) Hit) as (n & Hn).
        now apply Hin in Hn. }
      rewrite Forall_forall in Hj.
      destruct (@sortrows_ok (i0 :: its) (S k) false) as (r & Er & Hp & _).
      + discriminate.
      + lia.
      + apply Forall_forall. intros it Hit. now apply Hj, HI.
      + assumption.
      + rewrite Er. cbn [bind]. apply IH.
        * lia.
        * split; [now apply (Permutation_NoDup Hp)|]. apply Forall_forall. intros it Hit.
          apply Hj, HI. apply (Permutation_in _ (Permutation_sym Hp) Hit).
        * intros ->. apply Permutation_length in Hp. discriminate.
        * lia.
  Qed.

  Definition F1 : list Z := filter (fun x => s <=? support X [x]) (records_order X).

  Lemma first_level_eq :
    first_level (erase_infrequent s (all_records X)) (records_order X) = map (fun x => ([x], support X [x])) F1.
  Proof.
    unfold first_level, F1, records_order.
    assert (H : forall l, incl l (concat X) ->
      flat_map (fun x => match om_find Z.compare x (erase_infrequent s (all_records X)) with
                         | Some c => [([x], c)] | None => [] end) l =
      map (fun x => ([x], support X [x])) (filter (fun x => s <=? support X [x]) l)).
    { induction l as [|x l IH]; intros Hl; simpl; [reflexivity|].
      rewrite recs_find, IH by (intros y Hy; apply Hl; now right).
      rewrite (proj2 (existsb_In x (concat X))) by (apply Hl; now left). simpl.
      destruct (s <=? support X [x]); reflexivity. }
    apply H. intros x Hx. exact (proj1 (records_order_In _ _) Hx).
  Qed.

  Lemma F1_In x : In x F1 <-> In x (concat X) /\ s <= support X [x].
  Proof.
    unfold F1. rewrite filter_In, Nat.leb_le. unfold records_order. now rewrite records_order_In.
  Qed.

  Lemma F1_recs : F1 = [] <-> erase_infrequent s (all_records X) = [].
  Proof.
    split; intros H.
    - destruct (erase_infrequent s (all_records X)) as [|(x & c) m] eqn:E; [reflexivity|].
      exfalso. pose proof (recs_find s X x) as Hf. rewrite E in Hf. simpl in Hf. rewrite Z.compare_refl in Hf.
      destruct (existsb (Z.eqb x) (concat X)) eqn:E1; [|discriminate].
      destruct (Nat.leb_spec s (support X [x])); [|discriminate].
      assert (Hin : In x F1) by (apply F1_In; split; [now apply existsb_In|assumption]).
      rewrite H in Hin. destruct Hin.
    - destruct F1 as [|x l] eqn:E; [reflexivity|]. exfalso.
      assert (Hin : In x F1) by (rewrite E; now left). apply F1_In in Hin. destruct Hin as (Hin & Hs).
      pose proof (recs_find s X x) as Hf. rewrite H in Hf.
      rewrite (proj2 (existsb_In x (concat X)) Hin), (proj2 (Nat.leb_le _ _) Hs) in Hf. discriminate.
  Qed.

  Lemma F1_gen : gen_level 1 (map (fun x => [x]) F1).
  Proof.
    split.
    - assert (Hnd : NoDup F1) by (apply NoDup_filter, records_order_NoDup).
      induction Hnd as [|x l Hn Hnd IH]; simpl; constructor; [|assumption].
      intros Hin. apply in_map_iff in Hin. destruct Hin as (y & [= ->] & Hy). contradiction.
    - apply Forall_forall. intros I HI. apply in_map_iff in HI. destruct HI as (x & <- & Hx).
      apply F1_In in Hx. split; [reflexivity|]. split; [repeat constructor; simpl; tauto|].
      intros y [<-|[]]. tauto.
  Qed.

  Lemma fit_data_unfold freq :
    fit_data X s freq = if match F1 with [] => true | _ => false end then Throw RuntimeError
      else level_loop (S (S (length (concat X)))) X s 2 (map (fun x => [x]) F1)
             (freq ++ map (fun x => ([x], support X [x])) F1).
  Proof.
    unfold fit_data. rewrite first_level_eq, map_map. simpl.
    destruct (erase_infrequent s (all_records X)) eqn:E.
    - apply F1_recs in E. now rewrite E.
    - assert (H : F1 <> []) by (intros H; apply F1_recs in H; congruence).
      destruct F1; [congruence|reflexivity].
  Qed.

  Lemma fit_data_safe freq :
    (exists r, fit_data X s freq = Ok r) \/
    fit_data X s freq = Throw RuntimeError \/ fit_data X s freq = Throw InvalidArgument.
  Proof.
    rewrite fit_data_unfold. pose proof F1_gen as Hg.
    destruct F1 as [|x l] eqn:E; [right; now left|].
    destruct (@level_loop_safe (S (S (length (concat X)))) 1 (map (fun x => [x]) (x :: l))
               (freq ++ map (fun x => ([x], support X [x])) (x :: l))) as [H|H]; auto.
    - discriminate.
    - lia.
  Qed.

  Lemma fit_data_no_item freq :
    fit_data X s freq = Throw RuntimeError <-> (forall x, In x (concat X) -> support X [x] < s).
  Proof.
    rewrite fit_data_unfold. pose proof F1_gen as Hg. pose proof F1_In as HF.
    destruct F1 as [|x l] eqn:E.
    - split; [|reflexivity]. intros _ x Hx. destruct (Nat.lt_ge_cases (support X [x]) s) as [|Hge]; [assumption|].
      exfalso. apply (proj2 (HF x)). auto.
    - split.
      + intros H. exfalso.
        destruct (@level_loop_safe (S (S (length (concat X)))) 1 (map (fun x => [x]) (x :: l))
               (freq ++ map (fun x => ([x], support X [x])) (x :: l))) as [(r & H2)|H2]; auto;
          try congruence; try discriminate; try lia.
      + intros H. exfalso. destruct (proj1 (HF x) (or_introl eq_refl)) as (H1 & H2).
        specialize (H x H1). lia.
  Qed.
End General.
