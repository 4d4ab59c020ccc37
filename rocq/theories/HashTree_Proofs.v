From Verif Require Import Base HashTree_Model HashTree_Spec.
Set Implicit Arguments.

Notation find := (om_find lex).

Fixpoint entries (n : node) : list (itemset * nat) :=
  match n with
  | Node true b _ => b
  | Node false _ ch => flat_map (fun kc => entries (snd kc)) ch
  end.

Lemma dfs_entries s n : dfs s n = filter (fun e => s <=? snd e) (entries n).
Proof.
  revert n. fix IH 1. intros [lf b ch]. destruct lf; simpl; [reflexivity|].
  induction ch as [|[k c] ch IHch]; simpl; [reflexivity|].
  rewrite filter_app, IHch, IH. reflexivity.
Qed.

Lemma find_app (x : itemset) (l1 l2 : list (itemset * nat)) :
  find x (l1 ++ l2) = match find x l1 with Some v => Some v | None => find x l2 end.
Proof.
  induction l1 as [|[k v] l1 IH]; simpl; [reflexivity|].
  destruct (lex x k); auto.
Qed.

Lemma find_None_keys (x : itemset) (l : list (itemset * nat)) :
  find x l = None <-> ~ In x (map fst l).
Proof. apply om_find_None. exact lex_eq. Qed.

Lemma find_Some_In (x : itemset) v (l : list (itemset * nat)) :
  find x l = Some v -> In (x, v) l.
Proof. apply om_find_In. exact lex_eq. Qed.

Lemma find_cons_eq x v (l : list (itemset * nat)) : find x ((x, v) :: l) = Some v.
Proof. simpl. now rewrite (proj2 (lex_eq x x) eq_refl). Qed.

Lemma find_cons_neq x y v (l : list (itemset * nat)) : x <> y -> find x ((y, v) :: l) = find x l.
Proof.
  intros H. simpl. destruct (lex x y) eqn:E; auto. apply lex_eq in E. contradiction.
Qed.

Definition upd (f : itemset -> option nat) (it : itemset) (c : nat) (x : itemset) : option nat :=
  if itemset_eq_dec x it
  then Some (match f it with Some m => m + c | None => c end)
  else f x.

Lemma om_set_lex_find (it : itemset) (v : nat) b x :
  om_sorted lex b ->
  find x (om_set lex it v b) = if itemset_eq_dec x it then Some v else find x b.
Proof.
  intros Hs. rewrite (om_set_find (cmp:=lex)); auto using lex_eq, lex_antisym.
  destruct (itemset_eq_dec x it) as [->|Hne].
  - now rewrite (proj2 (lex_eq it it) eq_refl).
  - destruct (lex x it) eqn:E; auto. apply lex_eq in E. contradiction.
Qed.

Lemma bucket_add_find it c b x :
  om_sorted lex b -> find x (bucket_add it c b) = upd (fun y => find y b) it c x.
Proof.
  intros Hs. unfold bucket_add, upd.
  destruct (find it b) as [n|] eqn:E; rewrite om_set_lex_find by assumption; reflexivity.
Qed.

Lemma bucket_add_sorted it c b : om_sorted lex b -> om_sorted lex (bucket_add it c b).
Proof.
  intros Hs. unfold bucket_add.
  destruct (find it b); apply om_set_sorted; auto using lex_eq, lex_antisym; exact lex_trans.
Qed.

Lemma bucket_add_In it c b e : In e (bucket_add it c b) -> fst e = it \/ In e b.
Proof.
  unfold bucket_add. destruct (find it b); intros H; apply om_set_In in H;
    destruct H as [->|H]; auto.
Qed.

Section Uniform.
  Variable k : nat.          (* common length *)
  Variable max_leaf : nat.
  Variable max_child : Z.
  Hypothesis max_child_pos : (0 < max_child)%Z.

  Definition hx (idx : nat) (x : itemset) : Z := ((nth idx x 0 mod two64) mod max_child)%Z.

  Lemma hash_nth it idx :
    idx < length it ->
    (let! x := vget it idx in hash max_child x) = Ok (hx idx it).
  Proof.
    intros H. rewrite (vget_Ok it 0%Z H). simpl. unfold hash, hx.
    destruct (Z.eqb_spec max_child 0); [lia|reflexivity].
  Qed.

  (* [d] is the number of remaining item positions, idx + d = k *)
  Fixpoint wf (d idx : nat) (n : node) : Prop :=
    match n with
    | Node true b ch => ch = [] /\ om_sorted lex b /\ Forall (fun e => length (fst e) = k) b
    | Node false b ch =>
        b = [] /\
        match d with
        | O => False
        | S d' =>
            om_sorted Z.compare ch /\
            Forall (fun kc => wf d' (S idx) (snd kc) /\
                              Forall (fun e => hx idx (fst e) = fst kc) (entries (snd kc))) ch
        end
    end.

  Lemma wf_empty d idx : wf d idx empty_node.
  Proof. destruct d; simpl; repeat constructor. Qed.

  Lemma wf_entries_length d idx n :
    wf d idx n -> Forall (fun e => length (fst e) = k) (entries n).
  Proof.
    revert idx n. induction d as [|d IH]; intros idx [lf b ch]; destruct lf; simpl; try tauto.
    intros (_ & _ & Hch). apply Forall_forall. intros e He.
    apply in_flat_map in He. destruct He as (kc & Hkc & He).
    rewrite Forall_forall in Hch. destruct (Hch kc Hkc) as [Hw _].
    specialize (IH _ _ Hw). rewrite Forall_forall in IH. now apply IH.
  Qed.

  Lemma zsorted_NoDup (ch : list (Z * node)) : om_sorted Z.compare ch -> NoDup (map fst ch).
  Proof. apply om_sorted_NoDup; intros; try apply Z.compare_eq_iff. Qed.

  Lemma zset_sorted key c (ch : list (Z * node)) :
    om_sorted Z.compare ch -> om_sorted Z.compare (om_set Z.compare key c ch).
  Proof.
    apply om_set_sorted.
    - apply Z.compare_eq_iff.
    - intros; apply Z.compare_antisym.
    - intros a b c'. rewrite !Z.compare_lt_iff. lia.
  Qed.

  Lemma zset_find key c (ch : list (Z * node)) x :
    om_sorted Z.compare ch ->
    om_find Z.compare x (om_set Z.compare key c ch) =
    if Z.eq_dec x key then Some c else om_find Z.compare x ch.
  Proof.
    intros Hs. rewrite om_set_find; auto.
    - destruct (Z.eq_dec x key) as [->|Hne].
      + now rewrite Z.compare_refl.
      + destruct (Z.compare_spec x key); auto. lia.
    - apply Z.compare_eq_iff.
    - intros; apply Z.compare_antisym.
  Qed.

  (* looking an itemset up in an internal node goes through the child of its hash *)
  Lemma find_inner idx ch x :
    om_sorted Z.compare ch ->
    Forall (fun kc => Forall (fun e => hx idx (fst e) = fst kc) (entries (snd kc))) ch ->
    find x (flat_map (fun kc => entries (snd kc)) ch) =
    match om_find Z.compare (hx idx x) ch with Some c => find x (entries c) | None => None end.
  Proof.
    intros Hs. apply zsorted_NoDup in Hs. revert Hs.
    induction ch as [|[kk c] ch IH]; simpl; intros ND Hall; [reflexivity|].
    inversion ND as [|? ? Hn ND']; subst.
    inversion Hall as [|? ? Hc Hall']; subst. simpl in Hc.
    rewrite find_app.
    destruct (Z.compare_spec (hx idx x) kk) as [E|L|L].
    - destruct (find x (entries c)) eqn:F; [reflexivity|].
      apply find_None_keys. intros Hin. apply in_map_iff in Hin.
      destruct Hin as (e & Hx & He). apply in_flat_map in He. destruct He as (kc & Hkc & He).
      rewrite Forall_forall in Hall'. specialize (Hall' kc Hkc).
      rewrite Forall_forall in Hall'. specialize (Hall' e He).
      apply Hn. rewrite <- E, <- Hx, Hall'. now apply in_map.
    - replace (find x (entries c)) with (@None nat); [now apply IH|].
      symmetry. apply find_None_keys. intros Hin. apply in_map_iff in Hin.
      destruct Hin as (e & Hx & He). rewrite Forall_forall in Hc. specialize (Hc e He).
      rewrite Hx in Hc. lia.
    - replace (find x (entries c)) with (@None nat); [now apply IH|].
      symmetry. apply find_None_keys. intros Hin. apply in_map_iff in Hin.
      destruct Hin as (e & Hx & He). rewrite Forall_forall in Hc. specialize (Hc e He).
      rewrite Hx in Hc. lia.
  Qed.

  Lemma wf_entries_NoDup d idx n : wf d idx n -> NoDup (map fst (entries n)).
  Proof.
    revert idx n. induction d as [|d IH]; intros idx [lf b ch]; destruct lf; simpl; try tauto.
    - intros (_ & Hs & _). apply (om_sorted_NoDup lex_eq Hs).
    - intros (_ & Hs & _). apply (om_sorted_NoDup lex_eq Hs).
    - intros (_ & Hs & Hch). apply zsorted_NoDup in Hs. revert Hs Hch.
      induction ch as [|[kk c] ch IHch]; simpl; intros ND Hall; [constructor|].
      inversion ND as [|? ? Hn ND']; subst.
      inversion Hall as [|? ? [Hw Hc] Hall']; subst. simpl in Hw, Hc.
      rewrite map_app.
      assert (Hdisj : forall y, In y (map fst (entries c)) ->
                 ~ In y (map fst (flat_map (fun kc => entries (snd kc)) ch))).
      { intros y Hy Hy'. apply in_map_iff in Hy. destruct Hy as (e & <- & He).
        apply in_map_iff in Hy'. destruct Hy' as (e' & Ee & He').
        apply in_flat_map in He'. destruct He' as (kc & Hkc & He').
        rewrite Forall_forall in Hc. specialize (Hc e He).
        rewrite Forall_forall in Hall'. destruct (Hall' kc Hkc) as [_ Hc'].
        rewrite Forall_forall in Hc'. specialize (Hc' e' He').
        apply Hn. rewrite <- Hc, <- Ee, Hc'. now apply in_map. }
      specialize (IHch ND' Hall'). specialize (IH _ _ Hw).
      clear -IHch IH Hdisj.
      induction (map fst (entries c)) as [|y l IHl]; simpl; [assumption|].
      inversion IH; subst. constructor.
      + rewrite in_app_iff. intros [?|?]; [contradiction|]. apply (Hdisj y); simpl; auto.
      + apply IHl; auto. intros z Hz. apply Hdisj. now right.
  Qed.

  Lemma wf_child_or_new d idx key ch :
    om_sorted Z.compare ch ->
    Forall (fun kc => wf d (S idx) (snd kc) /\
                      Forall (fun e => hx idx (fst e) = fst kc) (entries (snd kc))) ch ->
    wf d (S idx) (child_or_new key ch) /\
    Forall (fun e => hx idx (fst e) = key) (entries (child_or_new key ch)).
  Proof.
    intros Hs Hall. unfold child_or_new.
    destruct (om_find Z.compare key ch) as [c|] eqn:E.
    - apply om_find_In in E; [|apply Z.compare_eq_iff].
      rewrite Forall_forall in Hall. exact (Hall _ E).
    - split; [apply wf_empty|constructor].
  Qed.

  (* inserting in an internal node, given the specification for children *)
  Lemma inner_step d idx ch it c c' :
    length it = k ->
    om_sorted Z.compare ch ->
    Forall (fun kc => wf d (S idx) (snd kc) /\
                      Forall (fun e => hx idx (fst e) = fst kc) (entries (snd kc))) ch ->
    wf d (S idx) c' ->
    (forall x, find x (entries c') =
               upd (fun y => find y (entries (child_or_new (hx idx it) ch))) it c x) ->
    let ch' := om_set Z.compare (hx idx it) c' ch in
    om_sorted Z.compare ch' /\
    Forall (fun kc => wf d (S idx) (snd kc) /\
                      Forall (fun e => hx idx (fst e) = fst kc) (entries (snd kc))) ch' /\
    (forall x, find x (flat_map (fun kc => entries (snd kc)) ch') =
               upd (fun y => find y (flat_map (fun kc => entries (snd kc)) ch)) it c x).
  Proof.
    intros Hlen Hs Hall Hw Hf ch'.
    assert (Hs' : om_sorted Z.compare ch') by now apply zset_sorted.
    assert (Hall' : Forall (fun kc => wf d (S idx) (snd kc) /\
                      Forall (fun e => hx idx (fst e) = fst kc) (entries (snd kc))) ch').
    { apply Forall_forall. intros kc Hkc. apply om_set_In in Hkc. destruct Hkc as [->|Hkc].
      - simpl. split; [assumption|]. apply Forall_forall. intros [y n] Hy. simpl.
        destruct (itemset_eq_dec y it) as [->|Hne]; [reflexivity|].
        assert (Hin : find y (entries c') <> None).
        { intros HN. apply find_None_keys in HN. apply HN. apply in_map_iff. now exists (y, n). }
        rewrite Hf in Hin. unfold upd in Hin.
        destruct (itemset_eq_dec y it); [contradiction|].
        destruct (find y (entries (child_or_new (hx idx it) ch))) as [m|] eqn:F; [|contradiction].
        apply find_Some_In in F.
        destruct (wf_child_or_new d idx (hx idx it) Hs Hall) as [_ Hc].
        rewrite Forall_forall in Hc. exact (Hc _ F).
      - rewrite Forall_forall in Hall. now apply Hall. }
    split; [assumption|]. split; [assumption|].
    assert (Hside : Forall (fun kc => Forall (fun e => hx idx (fst e) = fst kc) (entries (snd kc))) ch).
    { eapply Forall_impl; [|exact Hall]. intros kc [_ H]. exact H. }
    assert (Hside' : Forall (fun kc => Forall (fun e => hx idx (fst e) = fst kc) (entries (snd kc))) ch').
    { eapply Forall_impl; [|exact Hall']. intros kc [_ H]. exact H. }
    intros x. rewrite (find_inner idx x Hs' Hside').
    unfold ch'. rewrite zset_find by assumption.
    unfold upd. rewrite !(find_inner idx _ Hs Hside).
    destruct (itemset_eq_dec x it) as [->|Hne].
    - destruct (Z.eq_dec (hx idx it) (hx idx it)); [|congruence].
      rewrite Hf. unfold upd. destruct (itemset_eq_dec it it); [|congruence].
      unfold child_or_new. destruct (om_find Z.compare (hx idx it) ch); reflexivity.
    - destruct (Z.eq_dec (hx idx x) (hx idx it)) as [E|E]; [|reflexivity].
      rewrite Hf. unfold upd. destruct (itemset_eq_dec x it); [contradiction|].
      rewrite E. unfold child_or_new. destruct (om_find Z.compare (hx idx it) ch); reflexivity.
  Qed.

  Lemma insert_spec d : forall fuel n it c idx,
    length it = k -> idx + d = k -> d < fuel -> wf d idx n ->
    exists n', insert fuel max_leaf max_child n it c idx = Ok n' /\
               wf d idx n' /\
               (forall x, find x (entries n') = upd (fun y => find y (entries n)) it c x).
  Proof.
    induction d as [|d IH]; intros fuel [lf b ch] it c idx Hlen Hidx Hfuel Hwf.
    - (* idx = k: the bucket of the last node *)
      destruct fuel as [|fuel]; [lia|]. cbn [insert].
      destruct (Nat.eqb_spec idx (length it)) as [Heq|Hneq]; [|lia].
      destruct lf; [|simpl in Hwf; tauto].
      destruct Hwf as (-> & Hs & Hl).
      eexists. split; [reflexivity|]. split; [|intros x; now apply bucket_add_find].
      simpl. split; [reflexivity|]. split; [now apply bucket_add_sorted|].
      apply Forall_forall. intros e He. apply bucket_add_In in He.
      destruct He as [->|He]; [assumption|]. rewrite Forall_forall in Hl. now apply Hl.
    - destruct fuel as [|fuel]; [lia|]. cbn [insert].
      destruct (Nat.eqb_spec idx (length it)) as [Heq|Hneq]; [lia|].
      destruct lf; cbn [negb].
      + (* leaf *)
        destruct Hwf as (-> & Hs & Hl).
        pose proof (bucket_add_sorted it c Hs) as Hs'.
        assert (Hl' : Forall (fun e => length (fst e) = k) (bucket_add it c b)).
        { apply Forall_forall. intros e He. apply bucket_add_In in He.
          destruct He as [->|He]; [assumption|]. rewrite Forall_forall in Hl. now apply Hl. }
        assert (Hf' := fun x => bucket_add_find it c x Hs).
        destruct (length (bucket_add it c b) =? max_leaf).
        * (* split *)
          set (F := fun (ch : list (Z * node)) (e : itemset * nat) =>
                         let! x := vget (fst e) idx in
                         let! key := hash max_child x in
                         let! c := insert fuel max_leaf max_child
                                          (child_or_new key ch) (fst e) (snd e) (S idx) in
                         Ok (om_set Z.compare key c ch)).
          assert (Hloop : forall (l : list (itemset * nat)) ch0,
              Forall (fun e => length (fst e) = k) l ->
              NoDup (map fst l) ->
              (forall e, In e l -> find (fst e) (flat_map (fun kc => entries (snd kc)) ch0) = None) ->
              om_sorted Z.compare ch0 ->
              Forall (fun kc => wf d (S idx) (snd kc) /\
                      Forall (fun e => hx idx (fst e) = fst kc) (entries (snd kc))) ch0 ->
              exists ch', foldM F l ch0 = Ok ch' /\
                om_sorted Z.compare ch' /\
                Forall (fun kc => wf d (S idx) (snd kc) /\
                      Forall (fun e => hx idx (fst e) = fst kc) (entries (snd kc))) ch' /\
                (forall x, find x (flat_map (fun kc => entries (snd kc)) ch') =
                           match find x l with
                           | Some v => Some v
                           | None => find x (flat_map (fun kc => entries (snd kc)) ch0)
                           end)).
          { induction l as [|[y m] l IHl]; intros ch0 Hll ND Hdis Hs0 Hall0.
            - exists ch0. simpl. auto.
            - inversion Hll as [|? ? Hy Hll']; subst. simpl in Hy.
              inversion ND as [|? ? Hn ND']; subst.
              destruct (wf_child_or_new d idx (hx idx y) Hs0 Hall0) as [Hwc Hcc].
              destruct (IH fuel (child_or_new (hx idx y) ch0) y m (S idx)) as (c' & Ec & Hwc' & Hfc);
                [assumption|lia|lia|assumption|].
              destruct (@inner_step d idx _ _ _ c' Hy Hs0 Hall0 Hwc' Hfc) as (Hs1 & Hall1 & Hf1).
              cbn [foldM]. unfold F at 1. cbn [fst snd].
              assert (Hidx' : idx < length y) by lia.
              pose proof (hash_nth y Hidx') as Hh.
              destruct (vget y idx) as [z| | |]; simpl in Hh |- *; try discriminate.
              rewrite Hh. simpl. rewrite Ec. simpl.
              destruct (IHl (om_set Z.compare (hx idx y) c' ch0)) as (ch' & E' & Hs2 & Hall2 & Hf2);
                auto.
              { intros e He. rewrite Hf1. unfold upd.
                destruct (itemset_eq_dec (fst e) y) as [Eq|_].
                - exfalso. apply Hn. rewrite <- Eq. now apply in_map.
                - apply Hdis. now right. }
              exists ch'. split; [assumption|]. split; [assumption|]. split; [assumption|].
              intros x. rewrite Hf2, Hf1. unfold upd.
              destruct (itemset_eq_dec x y) as [->|Hne].
              + pose proof (proj2 (find_None_keys y l) Hn) as HN. rewrite HN.
                rewrite (proj2 (lex_eq y y) eq_refl).
                pose proof (Hdis (y, m) (or_introl eq_refl)) as Hd. cbn [fst] in Hd. rewrite Hd. reflexivity.
              + destruct (lex x y) eqn:El; [apply lex_eq in El; contradiction| |]; reflexivity. }
          destruct (Hloop (bucket_add it c b) []) as (ch' & E & Hs1 & Hall1 & Hf1);
            auto; [apply (om_sorted_NoDup lex_eq Hs')|constructor|].
          match goal with |- context [foldM ?G ?l ?c0] => replace (foldM G l c0) with (Ok ch') by (symmetry; exact E) end.
          simpl. eexists. split; [reflexivity|]. split; [simpl; auto|].
          intros x. cbn [entries]. rewrite Hf1.
          rewrite Hf'. cbn [entries flat_map om_find].
          unfold upd. destruct (itemset_eq_dec x it); [reflexivity|].
          destruct (find x b); reflexivity.
        * eexists. split; [reflexivity|]. split; [simpl; auto|]. exact Hf'.
      + (* internal *)
        destruct Hwf as (-> & Hs & Hall).
        destruct (wf_child_or_new d idx (hx idx it) Hs Hall) as [Hwc Hcc].
        destruct (IH fuel (child_or_new (hx idx it) ch) it c (S idx)) as (c' & Ec & Hwc' & Hfc);
          [assumption|lia|lia|assumption|].
        destruct (@inner_step d idx _ _ _ c' Hlen Hs Hall Hwc' Hfc) as (Hs1 & Hall1 & Hf1).
        assert (Hidx' : idx < length it) by lia.
        pose proof (hash_nth it Hidx') as Hh.
        destruct (vget it idx) as [z| | |]; simpl in Hh |- *; try discriminate.
        rewrite Hh. simpl. rewrite Ec. simpl.
        eexists. split; [reflexivity|]. split; [simpl; auto|]. exact Hf1.
  Qed.

  Lemma max_length_uniform l : Forall (fun x => length x = k) l -> max_length l <= k.
  Proof. induction 1; simpl; lia. Qed.

  (* walk in add_support, named *)
  Definition walk (key : Z) (it : itemset) (idx : nat) :=
    fix walk (l : list (Z * node)) : outcome (list (Z * node)) :=
           match l with
           | [] => Ok []
           | (k', c) :: l' =>
               match Z.compare key k' with
               | Eq => let! c' := add_support_node max_child c it (S idx) in
                       Ok ((k', c') :: l')
               | _ => let! r := walk l' in Ok ((k', c) :: r)
               end
           end.

  Definition bump (f : itemset -> option nat) (it x : itemset) : option nat :=
    if itemset_eq_dec x it then option_map S (f x) else f x.

  Lemma walk_spec key it idx ch :
    om_sorted Z.compare ch ->
    match om_find Z.compare key ch with
    | None => walk key it idx ch = Ok ch
    | Some c => forall c', add_support_node max_child c it (S idx) = Ok c' ->
                walk key it idx ch = Ok (om_set Z.compare key c' ch)
    end.
  Proof.
    intros Hs. induction Hs as [|[kk c] ch Hs IH Hall]; simpl; [reflexivity|].
    destruct (Z.compare_spec key kk) as [E|L|L].
    - intros c' Ec. rewrite Ec. simpl. now subst.
    - assert (HN : om_find Z.compare key ch = None).
      { apply om_find_None; [apply Z.compare_eq_iff|]. intros Hin. apply in_map_iff in Hin.
        destruct Hin as (e & He & Hin). rewrite Forall_forall in Hall.
        specialize (Hall e Hin). rewrite Z.compare_lt_iff in Hall. simpl in Hall. lia. }
      rewrite HN in IH |- *. rewrite IH. reflexivity.
    - destruct (om_find Z.compare key ch) as [c1|].
      + intros c' Ec. rewrite (IH _ Ec). reflexivity.
      + rewrite IH. reflexivity.
  Qed.

  Lemma add_support_spec d : forall n it idx,
    k <= length it -> idx + d = k -> wf d idx n ->
    exists n', add_support_node max_child n it idx = Ok n' /\
               wf d idx n' /\
               (forall x, find x (entries n') = bump (fun y => find y (entries n)) it x).
  Proof.
    induction d as [|d IH]; intros [lf b ch] it idx Hlen Hidx Hwf.
    - destruct lf; [|simpl in Hwf; tauto]. destruct Hwf as (-> & Hs & Hl). simpl.
      destruct (find it b) as [m|] eqn:F.
      + eexists. split; [reflexivity|]. split.
        * simpl. split; [reflexivity|]. split.
          -- apply om_set_sorted; auto using lex_eq, lex_antisym. exact lex_trans.
          -- apply Forall_forall. intros e He. rewrite Forall_forall in Hl.
             apply om_set_In in He. destruct He as [->|He]; [|now apply Hl].
             apply find_Some_In in F. apply (Hl _ F).
        * intros x. cbn [entries]. rewrite om_set_lex_find by assumption. unfold bump.
          destruct (itemset_eq_dec x it) as [->|]; [now rewrite F|reflexivity].
      + eexists. split; [reflexivity|]. split; [simpl; auto|].
        intros x. cbn [entries]. unfold bump.
        destruct (itemset_eq_dec x it) as [->|]; [now rewrite F|reflexivity].
    - destruct lf.
      + destruct Hwf as (-> & Hs & Hl). simpl.
        destruct (find it b) as [m|] eqn:F.
        * eexists. split; [reflexivity|]. split.
          -- simpl. split; [reflexivity|]. split.
             ++ apply om_set_sorted; auto using lex_eq, lex_antisym. exact lex_trans.
             ++ apply Forall_forall. intros e He. rewrite Forall_forall in Hl.
                apply om_set_In in He. destruct He as [->|He]; [|now apply Hl].
                apply find_Some_In in F. apply (Hl _ F).
          -- intros x. cbn [entries]. rewrite om_set_lex_find by assumption. unfold bump.
             destruct (itemset_eq_dec x it) as [->|]; [now rewrite F|reflexivity].
        * eexists. split; [reflexivity|]. split; [simpl; auto|].
          intros x. cbn [entries]. unfold bump.
          destruct (itemset_eq_dec x it) as [->|]; [now rewrite F|reflexivity].
      + destruct Hwf as (-> & Hs & Hall).
        assert (Hidx' : idx < length it) by lia.
        pose proof (hash_nth it Hidx') as Hh. cbn [add_support_node].
        destruct (vget it idx) as [z| | |]; simpl in Hh |- *; try discriminate.
        rewrite Hh. simpl.
        change (exists n' : node,
                   (let! ch' := walk (hx idx it) it idx ch in Ok (Node false [] ch')) = Ok n' /\
                   wf (S d) idx n' /\
                   (forall x, find x (entries n') =
                              bump (fun y => find y (flat_map (fun kc => entries (snd kc)) ch)) it x)).
        pose proof (walk_spec (hx idx it) it idx Hs) as Hwk.
        assert (Hside : Forall (fun kc => Forall (fun e => hx idx (fst e) = fst kc) (entries (snd kc))) ch).
        { eapply Forall_impl; [|exact Hall]. intros kc [_ H]. exact H. }
        destruct (om_find Z.compare (hx idx it) ch) as [c|] eqn:F.
        * assert (Hc : wf d (S idx) c /\ Forall (fun e => hx idx (fst e) = hx idx it) (entries c)).
          { apply om_find_In in F; [|apply Z.compare_eq_iff].
            rewrite Forall_forall in Hall. exact (Hall _ F). }
          destruct Hc as [Hwc Hcc].
          destruct (IH c it (S idx)) as (c' & Ec & Hwc' & Hfc); [assumption|lia|assumption|].
          rewrite (Hwk _ Ec). simpl. eexists. split; [reflexivity|].
          assert (Hs' : om_sorted Z.compare (om_set Z.compare (hx idx it) c' ch)) by now apply zset_sorted.
          assert (Hall' : Forall (fun kc => wf d (S idx) (snd kc) /\
                      Forall (fun e => hx idx (fst e) = fst kc) (entries (snd kc)))
                      (om_set Z.compare (hx idx it) c' ch)).
          { apply Forall_forall. intros kc Hkc. apply om_set_In in Hkc. destruct Hkc as [->|Hkc].
            - simpl. split; [assumption|]. apply Forall_forall. intros [y m] Hy. simpl.
              assert (Hin : find y (entries c') <> None).
              { intros HN. apply find_None_keys in HN. apply HN. apply in_map_iff. now exists (y, m). }
              rewrite Hfc in Hin. unfold bump in Hin.
              destruct (itemset_eq_dec y it) as [->|Hne]; [reflexivity|].
              destruct (find y (entries c)) as [m'|] eqn:Fy; [|contradiction].
              apply find_Some_In in Fy. rewrite Forall_forall in Hcc. exact (Hcc _ Fy).
            - rewrite Forall_forall in Hall. now apply Hall. }
          split; [simpl; auto|].
          assert (Hside' : Forall (fun kc => Forall (fun e => hx idx (fst e) = fst kc) (entries (snd kc)))
                      (om_set Z.compare (hx idx it) c' ch)).
          { eapply Forall_impl; [|exact Hall']. intros kc [_ H]. exact H. }
          intros x. cbn [entries]. rewrite (find_inner idx x Hs' Hside').
          rewrite zset_find by assumption.
          unfold bump. rewrite !(find_inner idx _ Hs Hside).
          destruct (itemset_eq_dec x it) as [->|Hne].
          -- destruct (Z.eq_dec (hx idx it) (hx idx it)); [|congruence].
             rewrite Hfc. unfold bump. destruct (itemset_eq_dec it it); [|congruence].
             now rewrite F.
          -- destruct (Z.eq_dec (hx idx x) (hx idx it)) as [E|E]; [|reflexivity].
             rewrite Hfc. unfold bump. destruct (itemset_eq_dec x it); [contradiction|].
             now rewrite E, F.
        * rewrite Hwk. simpl. eexists. split; [reflexivity|]. split; [simpl; auto|].
          intros x. cbn [entries]. unfold bump.
          destruct (itemset_eq_dec x it) as [->|]; [|reflexivity].
          rewrite !(find_inner idx _ Hs Hside), F. reflexivity.
  Qed.

  Definition tree_ok (t : hashtree) : Prop :=
    ht_max_leaf t = max_leaf /\ ht_max_child t = max_child /\ wf k 0 (ht_root t).
  Definition tree_find (t : hashtree) (x : itemset) := find x (entries (ht_root t)).

  Lemma wf_keys d idx n : wf d idx n -> Forall (fun x => length x = k) (node_keys n).
  Proof.
    revert idx n. induction d as [|d IH]; intros idx [lf b ch]; destruct lf; simpl; try tauto.
    - intros (-> & _ & H). simpl. rewrite app_nil_r. now rewrite Forall_map.
    - intros (-> & _ & H). simpl. rewrite app_nil_r. now rewrite Forall_map.
    - intros (-> & _ & Hch). simpl. apply Forall_forall. intros x Hx.
      apply in_flat_map in Hx. destruct Hx as (kc & Hkc & Hx).
      rewrite Forall_forall in Hch. destruct (Hch kc Hkc) as [Hw _].
      specialize (IH _ _ Hw). rewrite Forall_forall in IH. now apply IH.
  Qed.

  Lemma build_tree_spec t it :
    tree_ok t -> length it = k ->
    exists t', build_tree t it = Ok t' /\ tree_ok t' /\
      ht_counts t' = ht_counts t /\ ht_itemsets t' = ht_itemsets t /\
      forall x, tree_find t' x = if itemset_eq_dec it x
                                 then match tree_find t x with None => Some 0 | v => v end
                                 else tree_find t x.
  Proof.
    intros (E1 & E2 & Hw) Hlen. unfold build_tree.
    rewrite E1, E2.
    destruct (@insert_spec k (S (max_length (it :: node_keys (ht_root t))))
                (ht_root t) it 0 0) as (n' & E & Hw' & Hf); auto.
    { simpl. lia. }
    rewrite E. simpl. eexists. split; [reflexivity|]. split; [repeat split; assumption|].
    split; [reflexivity|]. split; [reflexivity|].
    intros x. unfold tree_find. simpl. rewrite Hf. unfold upd.
    destruct (itemset_eq_dec x it) as [->|Hne]; destruct (itemset_eq_dec it it); try congruence.
    - destruct (find it (entries (ht_root t))); [|reflexivity]. f_equal. lia.
    - destruct (itemset_eq_dec it x); [congruence|]. reflexivity.
  Qed.

  Lemma add_support_ok t it :
    tree_ok t -> k <= length it ->
    exists t', add_support t it = Ok t' /\ tree_ok t' /\
      ht_counts t' = ht_counts t /\ ht_itemsets t' = ht_itemsets t /\
      forall x, tree_find t' x = if itemset_eq_dec it x
                                 then option_map S (tree_find t x)
                                 else tree_find t x.
  Proof.
    intros (E1 & E2 & Hw) Hlen. unfold add_support. rewrite E2.
    destruct (@add_support_spec k (ht_root t) it 0) as (n' & E & Hw' & Hf); auto.
    rewrite E. simpl. eexists. split; [reflexivity|]. split; [repeat split; assumption|].
    split; [reflexivity|]. split; [reflexivity|].
    intros x. unfold tree_find. simpl. rewrite Hf. unfold bump.
    destruct (itemset_eq_dec x it) as [->|Hne]; destruct (itemset_eq_dec it it); try congruence.
    destruct (itemset_eq_dec it x); [congruence|]. reflexivity.
  Qed.

  Lemma combine_map_fst_snd {A B} (l : list (A * B)) : combine (map fst l) (map snd l) = l.
  Proof. induction l as [|[a b] l IH]; simpl; congruence. Qed.

  Lemma NoDup_map_filter {A B} (f : A -> B) p l : NoDup (map f l) -> NoDup (map f (filter p l)).
  Proof.
    induction l as [|a l IH]; simpl; intros H; [constructor|].
    inversion H as [|? ? Hn Hd]; subst.
    destruct (p a); simpl; [|auto]. constructor; [|auto].
    intros Hin. apply Hn. apply in_map_iff in Hin. destruct Hin as (y & <- & Hy).
    apply filter_In in Hy. apply in_map. tauto.
  Qed.

  Lemma dfs_answer t s (f : itemset -> option nat) :
    tree_ok t -> (forall x, tree_find t x = f x) ->
    let found := dfs s (ht_root t) in
    length (map snd found) = length (map fst found) /\
    NoDup (map fst found) /\
    forall it n, In (it, n) (combine (map fst found) (map snd found)) <-> f it = Some n /\ s <= n.
  Proof.
    intros (_ & _ & Hw) Hf. simpl. rewrite !map_length. split; [reflexivity|].
    rewrite dfs_entries. pose proof (wf_entries_NoDup _ _ _ Hw) as ND.
    split; [now apply NoDup_map_filter|].
    intros it n. rewrite combine_map_fst_snd, filter_In. simpl. rewrite Nat.leb_le.
    rewrite <- Hf. unfold tree_find. split; intros [H1 H2]; split; try assumption.
    - apply om_In_find; [exact lex_eq|exact ND|exact H1].
    - now apply find_Some_In.
  Qed.

  Lemma ht_run_app t ops1 ops2 :
    ht_run t (ops1 ++ ops2) =
    let! (t1, o1) := ht_run t ops1 in
    let! (t2, o2) := ht_run t1 ops2 in Ok (t2, o1 ++ o2).
  Proof.
    revert t. induction ops1 as [|o ops1 IH]; intros t; simpl.
    - destruct (ht_run t ops2) as [[t2 o2]| | |]; reflexivity.
    - destruct (ht_step t o) as [[t1 o1]| | |]; simpl; auto. rewrite IH.
      destruct (ht_run t1 ops1) as [[t3 o3]| | |]; simpl; auto.
      destruct (ht_run t3 ops2) as [[t4 o4]| | |]; simpl; auto. now rewrite app_assoc.
  Qed.

  Lemma ht_run_spec ops : forall t,
    tree_ok t -> Forall (op_length_ok k) ops ->
    exists t' outs, ht_run t ops = Ok (t', outs) /\ tree_ok t' /\
      (forall x, tree_find t' x = tally (tree_find t x) x ops) /\
      (ht_counts t', ht_itemsets t') = last outs (ht_counts t, ht_itemsets t) /\
      length outs = length (filter is_query ops).
  Proof.
    induction ops as [|o ops IH]; intros t Hok Hops.
    - exists t, []. simpl. auto.
    - inversion Hops as [|? ? Ho Hops']; subst.
      destruct o as [it|it|s]; simpl in Ho.
      + destruct (build_tree_spec it Hok Ho) as (t1 & E1 & Hok1 & Ec & Ei & Hf).
        destruct (IH t1 Hok1 Hops') as (t2 & outs & E2 & Hok2 & Hf2 & Hl & Hn).
        exists t2, outs. simpl. rewrite E1. simpl. rewrite E2. simpl.
        split; [reflexivity|]. split; [assumption|]. split.
        * intros x. rewrite Hf2, Hf. destruct (itemset_eq_dec it x); destruct (tree_find t x); reflexivity.
        * split; [now rewrite <- Ec, <- Ei|assumption].
      + destruct (add_support_ok it Hok Ho) as (t1 & E1 & Hok1 & Ec & Ei & Hf).
        destruct (IH t1 Hok1 Hops') as (t2 & outs & E2 & Hok2 & Hf2 & Hl & Hn).
        exists t2, outs. simpl. rewrite E1. simpl. rewrite E2. simpl.
        split; [reflexivity|]. split; [assumption|]. split.
        * intros x. rewrite Hf2, Hf. destruct (itemset_eq_dec it x); destruct (tree_find t x); reflexivity.
        * split; [now rewrite <- Ec, <- Ei|assumption].
      + set (t1 := fst (compute_frequency_itemsets t s)).
        destruct (IH t1) as (t2 & outs & E2 & Hok2 & Hf2 & Hl & Hn); auto.
        eexists t2, (_ :: outs). cbn [ht_run ht_step compute_frequency_itemsets bind].
        match goal with |- context [ht_run ?r ops] => change (ht_run r ops) with (ht_run t1 ops) end.
        rewrite E2. simpl.
        split; [reflexivity|]. split; [assumption|]. split; [exact Hf2|].
        split; [|simpl; now rewrite Hn].
        rewrite Hl. destruct outs; [reflexivity|]. simpl.
        clear. revert p. induction outs as [|q outs IH']; intros p; [reflexivity|]. apply IH'.
  Qed.
End Uniform.

Lemma tree_ok_new k ml mc : tree_ok k ml mc (ht_new ml mc).
Proof. split; [reflexivity|]. split; [reflexivity|]. apply wf_empty. Qed.

Lemma ht_query_answer k ml mc ops s :
  (0 < mc)%Z -> Forall (op_length_ok k) ops ->
  exists t outs counts itemsets,
    ht_run (ht_new ml mc) (ops ++ [OpQuery s]) =
      Ok (t, outs ++ [(fst (last outs ([], [])) ++ counts, snd (last outs ([], [])) ++ itemsets)]) /\
    length outs = length (filter is_query ops) /\
    frequent_answer ops s counts itemsets.
Proof.
  intros Hmc Hops.
  destruct (@ht_run_spec k ml mc Hmc ops (ht_new ml mc) (tree_ok_new k ml mc) Hops)
    as (t1 & outs & E & Hok & Hf & Hl & Hn).
  pose proof (@dfs_answer k ml mc t1 s (fun x => tally None x ops) Hok Hf) as Hans.
  eexists _, outs, (map snd (dfs s (ht_root t1))), (map fst (dfs s (ht_root t1))).
  split; [|split; [exact Hn|exact Hans]].
  rewrite ht_run_app, E. simpl in *. rewrite <- Hl. reflexivity.
Qed.

(** ** The recursion fuel chosen by [build_tree] never runs out, for any history *)
Lemma om_set_keys key c (ch : list (Z * node)) x :
  In x (flat_map (fun kc => node_keys (snd kc)) (om_set Z.compare key c ch)) ->
  In x (node_keys c) \/ In x (flat_map (fun kc => node_keys (snd kc)) ch).
Proof.
  intros H. apply in_flat_map in H. destruct H as (kc & Hkc & H).
  apply om_set_In in Hkc. destruct Hkc as [->|Hkc]; [now left|].
  right. apply in_flat_map. eauto.
Qed.

Lemma child_or_new_keys key (ch : list (Z * node)) x :
  In x (node_keys (child_or_new key ch)) -> In x (flat_map (fun kc => node_keys (snd kc)) ch).
Proof.
  unfold child_or_new. destruct (om_find Z.compare key ch) as [c|] eqn:E; simpl; [|tauto].
  apply om_find_In in E; [|apply Z.compare_eq_iff]. intros H. apply in_flat_map. eauto.
Qed.

Lemma insert_no_fuel ml mc fuel : forall n it c idx,
  idx <= length it ->
  (forall x, In x (it :: node_keys n) -> length x < idx + fuel) ->
  insert fuel ml mc n it c idx <> Fuel /\
  forall n', insert fuel ml mc n it c idx = Ok n' ->
    forall x, In x (node_keys n') -> x = it \/ In x (node_keys n).
Proof.
  induction fuel as [|fuel IH]; intros [lf b ch] it c idx Hidx Hlt.
  - specialize (Hlt it (or_introl eq_refl)). lia.
  - cbn [insert].
    destruct (Nat.eqb_spec idx (length it)) as [Heq|Hneq].
    + split; [discriminate|]. intros n' [= <-] x. cbn [node_keys]. rewrite !in_app_iff.
      intros [Hx|Hx]; [|now auto].
      apply in_map_iff in Hx. destruct Hx as (e & <- & He).
      apply bucket_add_In in He. destruct He as [->|He]; auto using in_map.
    + destruct lf; cbn [negb].
      * assert (Hb : forall e, In e (bucket_add it c b) -> fst e = it \/ In (fst e) (map fst b)).
        { intros e He. apply bucket_add_In in He. destruct He; auto using in_map. }
        destruct (length (bucket_add it c b) =? ml).
        -- set (F := fun (ch : list (Z * node)) (e : itemset * nat) =>
                         let! x := vget (fst e) idx in
                         let! key := hash mc x in
                         let! c := insert fuel ml mc
                                          (child_or_new key ch) (fst e) (snd e) (S idx) in
                         Ok (om_set Z.compare key c ch)).
           set (P := fun x : itemset => x = it \/ In x (node_keys (Node true b ch))).
           assert (HP : forall x, P x -> length x < idx + S fuel).
           { intros x [->|Hx]; apply Hlt; [now left|now right]. }
           assert (Hloop : forall l ch0,
              (forall e, In e l -> P (fst e)) ->
              (forall x, In x (flat_map (fun kc => node_keys (snd kc)) ch0) -> P x) ->
              foldM F l ch0 <> Fuel /\
              forall ch', foldM F l ch0 = Ok ch' ->
                forall x, In x (flat_map (fun kc => node_keys (snd kc)) ch') -> P x).
           { induction l as [|e l IHl]; intros ch0 Hl Hch0.
             - simpl. split; [discriminate|]. intros ch' [= <-]. exact Hch0.
             - cbn [foldM]. unfold F at 1 3.
               destruct (vget (fst e) idx) as [z| | |] eqn:Ev; simpl;
                 try (split; [discriminate|intros ch'; discriminate]);
                 try (unfold vget in Ev; destruct (nth_error (fst e) idx); discriminate).
               destruct (hash mc z) as [key| | |] eqn:Eh; simpl;
                 try (split; [discriminate|intros ch'; discriminate]);
                 try (unfold hash in Eh; destruct (mc =? 0)%Z; discriminate).
               assert (Hle : S idx <= length (fst e)).
               { unfold vget in Ev. destruct (nth_error (fst e) idx) eqn:En; [|discriminate].
                 assert (nth_error (fst e) idx <> None) as Hnn by congruence.
                 apply nth_error_Some in Hnn. lia. }
               destruct (IH (child_or_new key ch0) (fst e) (snd e) (S idx) Hle) as [Hnf Hk].
               { intros x [<-|Hx].
                 - specialize (HP _ (Hl e (or_introl eq_refl))). lia.
                 - apply child_or_new_keys in Hx. specialize (HP _ (Hch0 _ Hx)). lia. }
               destruct (insert fuel ml mc (child_or_new key ch0) (fst e) (snd e) (S idx))
                 as [c'| | |]; simpl;
                 try (split; [discriminate|intros ch'; discriminate]).
               + apply IHl.
                 * intros e' He'. apply Hl. now right.
                 * intros x Hx. apply om_set_keys in Hx. destruct Hx as [Hx|Hx]; [|now apply Hch0].
                   destruct (Hk _ eq_refl x Hx) as [->|Hx']; [apply Hl; now left|].
                   apply child_or_new_keys in Hx'. now apply Hch0.
               + congruence. }
           destruct (Hloop (bucket_add it c b) ch) as [Hnf Hk].
           { intros e He. destruct (Hb e He) as [->|Hin]; [now left|].
             right. simpl. apply in_app_iff. now left. }
           { intros x Hx. right. simpl. apply in_app_iff. now right. }
           destruct (foldM F (bucket_add it c b) ch) as [ch'| | |] eqn:EF; simpl;
             try (split; [discriminate|intros n'; discriminate]); [|congruence].
           split; [discriminate|]. intros n' [= <-] x Hx. simpl in Hx.
           exact (Hk ch' eq_refl x Hx).
        -- split; [discriminate|]. intros n' [= <-] x. cbn [node_keys]. rewrite !in_app_iff.
           intros [Hx|Hx]; [|now auto].
           apply in_map_iff in Hx. destruct Hx as (e & <- & He).
           destruct (Hb e He); auto.
      * destruct (vget it idx) as [z| | |] eqn:Ev; simpl;
          try (split; [discriminate|intros n'; discriminate]);
          try (unfold vget in Ev; destruct (nth_error it idx); discriminate).
        destruct (hash mc z) as [key| | |] eqn:Eh; simpl;
          try (split; [discriminate|intros n'; discriminate]);
          try (unfold hash in Eh; destruct (mc =? 0)%Z; discriminate).
        destruct (IH (child_or_new key ch) it c (S idx)) as [Hnf Hk].
        { lia. }
        { intros x [<-|Hx].
          - specialize (Hlt it (or_introl eq_refl)). lia.
          - apply child_or_new_keys in Hx. specialize (Hlt x). simpl in Hlt.
            rewrite in_app_iff in Hlt. specialize (Hlt (or_intror (or_intror Hx))). lia. }
        destruct (insert fuel ml mc (child_or_new key ch) it c (S idx)) as [c'| | |]; simpl;
          try (split; [discriminate|intros n'; discriminate]); [|congruence].
        split; [discriminate|]. intros n' [= <-] x. simpl. rewrite !in_app_iff.
        intros [Hx|Hx]; [now auto|]. apply om_set_keys in Hx. destruct Hx as [Hx|Hx]; [|now auto].
        destruct (Hk _ eq_refl x Hx) as [->|Hx']; [now auto|].
        apply child_or_new_keys in Hx'. auto.
Qed.

Lemma max_length_ge l x : In x l -> length x <= max_length l.
Proof.
  induction l as [|y l IH]; simpl; [tauto|]. intros [->|H]; [lia|]. specialize (IH H). lia.
Qed.

Lemma build_tree_no_fuel t it : build_tree t it <> Fuel.
Proof.
  unfold build_tree.
  destruct (@insert_no_fuel (ht_max_leaf t) (ht_max_child t)
              (S (max_length (it :: node_keys (ht_root t)))) (ht_root t) it 0 0) as [H _].
  - lia.
  - intros x Hx. apply max_length_ge in Hx. lia.
  - destruct (insert _ _ _ _ _ _ _); simpl; congruence.
Qed.

Lemma add_support_node_no_fuel mc n : forall it idx, add_support_node mc n it idx <> Fuel.
Proof.
  revert n. fix IH 1. intros [lf b ch] it idx. destruct lf; cbn [add_support_node].
  - destruct (find it b); discriminate.
  - destruct (vget it idx) as [z| | |] eqn:Ev; simpl; try discriminate;
      try (unfold vget in Ev; destruct (nth_error it idx); discriminate).
    destruct (hash mc z) as [key| | |] eqn:Eh; simpl; try discriminate;
      try (unfold hash in Eh; destruct (mc =? 0)%Z; discriminate).
    match goal with |- (let! _ := ?w ch in _) <> _ => assert (Hw : w ch <> Fuel) end.
    { clear -IH. induction ch as [|[k' c] ch IHch]; [discriminate|].
      destruct (Z.compare key k').
      - specialize (IH c it (S idx)). destruct (add_support_node mc c it (S idx)); simpl; congruence.
      - match goal with |- (let! _ := ?w ch in _) <> _ => destruct (w ch) end; simpl; congruence.
      - match goal with |- (let! _ := ?w ch in _) <> _ => destruct (w ch) end; simpl; congruence. }
    match goal with |- (let! _ := ?w ch in _) <> _ => destruct (w ch) end; simpl; congruence.
Qed.

Lemma ht_run_no_fuel ops : forall t, ht_run t ops <> Fuel.
Proof.
  induction ops as [|o ops IH]; intros t; [discriminate|]. cbn [ht_run].
  assert (Hs : ht_step t o <> Fuel).
  { destruct o as [it|it|s]; cbn [ht_step].
    - pose proof (@build_tree_no_fuel t it). destruct (build_tree t it); simpl; congruence.
    - pose proof (@add_support_node_no_fuel (ht_max_child t) (ht_root t) it 0).
      unfold add_support. destruct (add_support_node _ _ _ _); simpl; congruence.
    - discriminate. }
  destruct (ht_step t o) as [[t1 o1]| | |]; simpl; try congruence.
  specialize (IH t1). destruct (ht_run t1 ops) as [[t2 o2]| | |]; simpl; congruence.
Qed.

(** ** The classic use: register, count, query *)
Lemma tally_app cur it ops1 ops2 : tally cur it (ops1 ++ ops2) = tally (tally cur it ops1) it ops2.
Proof.
  revert cur. induction ops1 as [|o ops1 IH]; intros cur; simpl; [reflexivity|].
  destruct o; try destruct (itemset_eq_dec _ _); apply IH.
Qed.

Lemma tally_builds cur it cands :
  tally cur it (map OpBuild cands) =
  match cur with
  | Some n => Some n
  | None => if in_dec itemset_eq_dec it cands then Some 0 else None
  end.
Proof.
  revert cur. induction cands as [|x l IH]; intros cur; simpl.
  - destruct cur; reflexivity.
  - destruct (itemset_eq_dec x it) as [->|Hne].
    + rewrite IH. destruct cur; reflexivity.
    + rewrite IH. destruct cur; [reflexivity|].
      destruct (in_dec itemset_eq_dec it l); reflexivity.
Qed.

Lemma tally_adds cur it subs :
  tally cur it (map OpAdd subs) = option_map (fun n => n + count_occ itemset_eq_dec subs it) cur.
Proof.
  revert cur. induction subs as [|x l IH]; intros cur; simpl.
  - destruct cur; simpl; [f_equal; lia|reflexivity].
  - destruct (itemset_eq_dec x it) as [->|Hne]; rewrite IH; destruct cur; simpl; f_equal; lia.
Qed.

Lemma ht_classic k ml mc cands subs s :
  (0 < mc)%Z ->
  Forall (fun it => length it = k) cands ->
  Forall (fun it => length it = k) subs ->
  exists t counts itemsets,
    ht_run (ht_new ml mc) (map OpBuild cands ++ map OpAdd subs ++ [OpQuery s]) =
      Ok (t, [(counts, itemsets)]) /\
    length counts = length itemsets /\ NoDup itemsets /\
    forall it n, In (it, n) (combine itemsets counts) <->
                 In it cands /\ n = count_occ itemset_eq_dec subs it /\ s <= n.
Proof.
  intros Hmc Hc Hs.
  destruct (@ht_query_answer k ml mc (map OpBuild cands ++ map OpAdd subs) s Hmc)
    as (t & outs & counts & itemsets & E & Hn & Hl & ND & Hin).
  { apply Forall_app. rewrite !Forall_map. split.
    - exact Hc.
    - eapply Forall_impl; [|exact Hs]. intros a Ha. simpl in *. lia. }
  rewrite filter_app in Hn.
  replace (filter is_query (map OpBuild cands)) with (@nil ht_op) in Hn
    by (clear; induction cands; simpl; congruence).
  replace (filter is_query (map OpAdd subs)) with (@nil ht_op) in Hn
    by (clear; induction subs; simpl; congruence).
  destruct outs; [|discriminate Hn]. simpl in E.
  exists t, counts, itemsets. split; [now rewrite app_assoc|].
  split; [assumption|]. split; [assumption|].
  intros it n. rewrite Hin. unfold count_after_build.
  rewrite tally_app, tally_builds, tally_adds. simpl.
  destruct (in_dec itemset_eq_dec it cands); simpl; [|split; [intros [? _]; discriminate|tauto]].
  split.
  - intros [[= <-] Hsn]. auto.
  - intros (_ & -> & Hsn). auto.
Qed.

Lemma ht_query_twice k ml mc ops s :
  (0 < mc)%Z -> Forall (op_length_ok k) ops -> filter is_query ops = [] ->
  exists t counts itemsets,
    ht_run (ht_new ml mc) (ops ++ [OpQuery s; OpQuery s]) =
      Ok (t, [(counts, itemsets); (counts ++ counts, itemsets ++ itemsets)]) /\
    frequent_answer ops s counts itemsets.
Proof.
  intros Hmc Hops Hq.
  destruct (@ht_run_spec k ml mc Hmc ops (ht_new ml mc) (tree_ok_new k ml mc) Hops)
    as (t1 & outs & E & Hok & Hf & Hl & Hn).
  rewrite Hq in Hn. destruct outs; [|discriminate Hn]. simpl in Hl. injection Hl as Hl1 Hl2.
  pose proof (@dfs_answer k ml mc t1 s (fun x => tally None x ops) Hok Hf) as Hans.
  eexists _, (map snd (dfs s (ht_root t1))), (map fst (dfs s (ht_root t1))).
  split; [|exact Hans].
  rewrite ht_run_app, E. simpl. rewrite Hl1, Hl2. reflexivity.
Qed.
