(** [remove_duplicate_rows] returns the first occurrences, in order. *)
From Verif Require Import Base Sorting Common_Model.
Set Implicit Arguments.

Lemma list_Z_eqb_spec a b : list_Z_eqb a b = true <-> a = b.
Proof.
  unfold list_Z_eqb. rewrite <- lex_eq. destruct (lex a b); split; congruence.
Qed.

Lemma set_nth_length {A} (l : list A) i v : length (set_nth l i v) = length l.
Proof. revert i. induction l as [|a l IH]; intros [|i]; simpl; auto. Qed.

Lemma nth_set_nth {A} (l : list A) i v j d :
  i < length l -> nth j (set_nth l i v) d = if Nat.eq_dec j i then v else nth j l d.
Proof.
  revert i j. induction l as [|a l IH]; intros [|i] [|j] H; simpl in *; try lia; auto.
  rewrite IH by lia. destruct (Nat.eq_dec j i), (Nat.eq_dec (S j) (S i)); auto; lia.
Qed.

(* number of [true] among positions lo .. lo+len-1 *)
Fixpoint cnt (f : nat -> bool) (lo len : nat) : nat :=
  match len with O => 0 | S len' => (if f lo then 1 else 0) + cnt f (S lo) len' end.

Lemma cnt_le f len : forall lo, cnt f lo len <= len.
Proof. induction len as [|len IH]; intros lo; simpl; [lia|]. specialize (IH (S lo)). destruct (f lo); lia. Qed.

Lemma cnt_full f len : forall lo, cnt f lo len = len -> forall j, lo <= j < lo + len -> f j = true.
Proof.
  induction len as [|len IH]; intros lo H j Hj; [lia|]. simpl in H.
  pose proof (cnt_le f len (S lo)). destruct (f lo) eqn:E.
  - destruct (Nat.eq_dec j lo) as [->|]; [assumption|]. apply (IH (S lo)); lia.
  - lia.
Qed.

Lemma cnt_split f a : forall b lo, cnt f lo (a + b) = cnt f lo a + cnt f (lo + a) b.
Proof.
  induction a as [|a IH]; intros b lo; simpl.
  - now rewrite Nat.add_0_r.
  - rewrite IH. replace (S lo + a) with (lo + S a) by lia. lia.
Qed.

Lemma cnt_ext f g len : forall lo, (forall j, lo <= j < lo + len -> f j = g j) -> cnt f lo len = cnt g lo len.
Proof.
  induction len as [|len IH]; intros lo H; simpl; [reflexivity|].
  rewrite H by lia. f_equal. apply IH. intros j Hj. apply H. lia.
Qed.

Lemma cnt_all f len : forall lo, (forall j, lo <= j < lo + len -> f j = true) -> cnt f lo len = len.
Proof.
  induction len as [|len IH]; intros lo H; simpl; [reflexivity|].
  rewrite H by lia. rewrite IH; [lia|]. intros j Hj. apply H. lia.
Qed.

Lemma cnt_set f g len i : forall lo, lo <= i < lo + len -> f i = false -> g i = true ->
  (forall j, j <> i -> g j = f j) -> cnt g lo len = S (cnt f lo len).
Proof.
  induction len as [|len IH]; intros lo Hi Hf Hg He; [lia|]. simpl.
  destruct (Nat.eq_dec lo i) as [->|Hne].
  - rewrite Hf, Hg. rewrite (@cnt_ext g f); [lia|]. intros j Hj. apply He. lia.
  - rewrite (He lo) by assumption. rewrite IH; auto; lia.
Qed.

Section RDR.
  Variable X : list (list Z).
  Let n := length X.
  Let row i := nth i X [].

  Definition is_first (i : nat) : Prop := forall j, j < i -> row j <> row i.
  Definition firstb (i : nat) : bool := forallb (fun j => negb (list_Z_eqb (row j) (row i))) (seq 0 i).
  Lemma firstb_spec i : firstb i = true <-> is_first i.
  Proof.
    unfold firstb, is_first. rewrite forallb_forall. split.
    - intros H j Hj E. specialize (H j). rewrite in_seq in H. specialize (H ltac:(lia)).
      apply list_Z_eqb_spec in E. rewrite E in H. discriminate.
    - intros H j Hj. apply in_seq in Hj. destruct (list_Z_eqb (row j) (row i)) eqn:E; [|reflexivity].
      apply list_Z_eqb_spec in E. exfalso. apply (H j); [lia|assumption].
  Qed.

  Definition mk (ind : list bool) j := nth j ind false.

  Record Inv (s : rdr) : Prop := {
    i_cur : rd_cur s < n;
    i_len : length (rd_ind s) = n;
    i_it : rd_cur s < rd_it s <= n;
    i_uniq : rd_uniq s = filter firstb (seq 0 (S (rd_cur s)));
    i_first : is_first (rd_cur s);
    i_mark : forall j, rd_cur s < j < n ->
      (mk (rd_ind s) j = true <->
       exists i, i <= rd_cur s /\ row i = row j /\ (i < rd_cur s \/ j < rd_it s));
    i_num : rd_num s = S (rd_cur s) + cnt (mk (rd_ind s)) (S (rd_cur s)) (n - S (rd_cur s))
  }.

  Lemma next_unmarked_spec ind : length ind = n ->
    forall len lo fuel, lo + len = n -> len < fuel -> cnt (mk ind) lo len < len ->
    exists c, next_unmarked fuel ind lo = Ok c /\ lo <= c < n /\ mk ind c = false /\
              forall j, lo <= j < c -> mk ind j = true.
  Proof.
    intros Hlen. induction len as [|len IH]; intros lo fuel Hlo Hf Hc; [lia|].
    destruct fuel as [|fuel]; [lia|]. cbn [next_unmarked].
    rewrite (vget_Ok ind false) by lia. simpl. fold (mk ind lo).
    simpl in Hc. destruct (mk ind lo) eqn:E.
    - destruct (IH (S lo) fuel) as (c & Ec & Hcr & Hm & Hall); try lia.
      exists c. split; [assumption|]. split; [lia|]. split; [assumption|].
      intros j Hj. destruct (Nat.eq_dec j lo) as [->|]; [assumption|]. apply Hall. lia.
    - exists lo. split; [reflexivity|]. split; [lia|]. split; [assumption|]. intros j Hj. lia.
  Qed.

  Lemma scan_inv s : Inv s -> rd_it s < n ->
    exists s', rdr_scan X s = Ok s' /\ Inv s' /\ rd_cur s' = rd_cur s /\ rd_it s' = S (rd_it s).
  Proof.
    intros [Hcur Hlen Hit Hu Hfirst Hmark Hnum] Hlt. unfold rdr_scan.
    rewrite (vget_Ok (rd_ind s) false) by lia. simpl. fold (mk (rd_ind s) (rd_it s)).
    destruct (mk (rd_ind s) (rd_it s)) eqn:E.
    - eexists. split; [reflexivity|]. split; [|split; reflexivity].
      constructor; simpl; auto; try lia.
      intros j Hj. rewrite Hmark by assumption. split.
      + intros (i & H1 & H2 & H3). exists i. intuition lia.
      + intros (i & H1 & H2 & H3). destruct (Nat.eq_dec j (rd_it s)) as [->|Hne].
        * apply Hmark in E; [|lia]. exact E.
        * exists i. intuition lia.
    - rewrite (vget_Ok X [] Hcur). simpl. rewrite (vget_Ok X [] Hlt). simpl.
      fold (row (rd_cur s)). fold (row (rd_it s)).
      destruct (list_Z_eqb (row (rd_cur s)) (row (rd_it s))) eqn:Eq.
      + apply list_Z_eqb_spec in Eq.
        eexists. split; [reflexivity|]. split; [|split; reflexivity].
        assert (Hmk : forall j, mk (set_nth (rd_ind s) (rd_it s) true) j =
                                if Nat.eq_dec j (rd_it s) then true else mk (rd_ind s) j).
        { intros j. unfold mk. apply nth_set_nth. lia. }
        constructor; simpl; auto; try lia.
        * now rewrite set_nth_length.
        * intros j Hj. rewrite Hmk. destruct (Nat.eq_dec j (rd_it s)) as [->|Hne].
          -- split; [|reflexivity]. intros _. exists (rd_cur s). split; [lia|]. split; [assumption|]. lia.
          -- rewrite Hmark by assumption. split; intros (i & H1 & H2 & H3); exists i; intuition lia.
        * rewrite Hnum. erewrite (@cnt_set _ (mk (set_nth (rd_ind s) (rd_it s) true)) _ (rd_it s)).
          -- rewrite Nat.add_succ_r. reflexivity.
          -- lia.
          -- exact E.
          -- rewrite Hmk. destruct (Nat.eq_dec (rd_it s) (rd_it s)); congruence.
          -- intros j Hj. rewrite Hmk. destruct (Nat.eq_dec j (rd_it s)); congruence.
      + eexists. split; [reflexivity|]. split; [|split; reflexivity].
        constructor; simpl; auto; try lia.
        intros j Hj. rewrite Hmark by assumption. split.
        * intros (i & H1 & H2 & H3). exists i. intuition lia.
        * intros (i & H1 & H2 & H3). destruct (Nat.eq_dec j (rd_it s)) as [->|Hne].
          -- destruct (Nat.eq_dec i (rd_cur s)) as [->|Hi].
             ++ apply list_Z_eqb_spec in H2. congruence.
             ++ exists i. intuition lia.
          -- exists i. intuition lia.
  Qed.

  Lemma filter_none {A} (p : A -> bool) l : (forall x, In x l -> p x = false) -> filter p l = [].
  Proof.
    induction l as [|a l IH]; intros H; simpl; [reflexivity|].
    rewrite H by now left. apply IH. intros x Hx. apply H. now right.
  Qed.

  Definition measure (s : rdr) : nat := (n - S (rd_cur s)) * n + (n - rd_it s).

  Lemma rdr_loop_inv fuel : forall s, Inv s -> measure s < fuel ->
    exists s', rdr_loop fuel X s = Ok s' /\ Inv s' /\ rd_num s' = n.
  Proof.
    induction fuel as [|fuel IH]; intros s HI Hm; [lia|]. cbn [rdr_loop]. fold n.
    destruct (Nat.ltb_spec (rd_num s) n) as [Hlt|Hge].
    - destruct (Nat.leb_spec n (rd_it s)) as [Hit|Hit].
      + destruct HI as [Hcur Hlen Hit' Hu Hfirst Hmark Hnum].
        destruct (@next_unmarked_spec (rd_ind s) Hlen (n - S (rd_cur s)) (S (rd_cur s))
                    (S (length (rd_ind s)))) as (c & Ec & Hc & Hmc & Hall); try lia.
        rewrite Ec. cbn [bind].
        set (s1 := {| rd_ind := rd_ind s; rd_uniq := rd_uniq s ++ [c]; rd_num := S (rd_num s);
                      rd_cur := c; rd_it := S c |}).
        assert (Hiteq : rd_it s = n) by lia.
        assert (Hdup : forall j, rd_cur s < j < c -> exists u, u <= rd_cur s /\ row u = row j).
        { intros j Hj. assert (Hmj : mk (rd_ind s) j = true) by (apply Hall; lia).
          apply Hmark in Hmj; [|lia]. destruct Hmj as (u & H1 & H2 & _). eauto. }
        assert (Hnew : forall i, i <= rd_cur s -> row i <> row c).
        { intros i Hi E. assert (mk (rd_ind s) c = true); [|congruence].
          apply Hmark; [lia|]. exists i. split; [lia|]. split; [assumption|]. lia. }
        assert (Hfc : is_first c).
        { intros j Hj. destruct (Nat.le_gt_cases j (rd_cur s)) as [Hle|Hgt]; [now apply Hnew|].
          destruct (Hdup j) as (u & Hu1 & Hu2); [lia|]. rewrite <- Hu2. now apply Hnew. }
        assert (HI1 : Inv s1).
        { constructor; cbn [s1 rd_ind rd_uniq rd_num rd_cur rd_it]; auto; try lia.
          - rewrite Hu.
            replace (seq 0 (S c)) with (seq 0 (S (rd_cur s)) ++ seq (S (rd_cur s)) (c - S (rd_cur s)) ++ [c]).
            + rewrite !filter_app. f_equal. rewrite filter_none.
              * simpl. rewrite (proj2 (firstb_spec c) Hfc). reflexivity.
              * intros j Hj. apply in_seq in Hj. destruct (firstb j) eqn:Ef; [|reflexivity].
                apply firstb_spec in Ef. destruct (Hdup j) as (u & Hu1 & Hu2); [lia|].
                exfalso. apply (Ef u); [lia|assumption].
            + replace (S c) with (S (rd_cur s) + ((c - S (rd_cur s)) + 1)) by lia.
              rewrite !seq_app. simpl. do 3 f_equal. f_equal. lia.
          - intros j Hj. rewrite Hmark by lia. split.
            + intros (i & H1 & H2 & H3). exists i. intuition lia.
            + intros (i & H1 & H2 & H3).
              destruct (Nat.le_gt_cases i (rd_cur s)) as [Hle|Hgt].
              * exists i. intuition lia.
              * destruct (Hdup i) as (u & Hu1 & Hu2); [lia|].
                exists u. split; [assumption|]. split; [congruence|lia].
          - rewrite Hnum.
            replace (n - S (rd_cur s)) with ((c - S (rd_cur s)) + (1 + (n - S c))) by lia.
            rewrite cnt_split. rewrite (@cnt_all _ (c - S (rd_cur s))) by (intros j Hj; apply Hall; lia).
            replace (S (rd_cur s) + (c - S (rd_cur s))) with c by lia.
            rewrite cnt_split. simpl cnt at 1. rewrite Hmc.
            replace (c + 1) with (S c) by lia. lia. }
        destruct ((n <=? rd_it s1) && (n =? rd_num s1)) eqn:Eb.
        * exists s1. split; [reflexivity|]. split; [assumption|].
          apply andb_prop in Eb. destruct Eb as [_ Eb]. apply Nat.eqb_eq in Eb. now symmetry.
        * assert (Hit1 : rd_it s1 < n).
          { destruct (Nat.leb_spec n (rd_it s1)) as [H|H]; [|assumption]. simpl in Eb.
            apply Nat.eqb_neq in Eb. destruct HI1 as [a1 a2 a3 a4 a5 a6 a7].
            exfalso. apply Eb. simpl in a7, H, a3 |- *. rewrite a7.
            replace (n - S c) with 0 by lia. simpl. lia. }
          destruct (scan_inv HI1 Hit1) as (s2 & E2 & HI2 & Hc2 & Hi2).
          rewrite E2. simpl bind. apply IH; [assumption|].
          unfold measure in *. rewrite Hc2, Hi2. simpl rd_cur. simpl rd_it.
          assert ((n - S (rd_cur s)) >= S (n - S c)) by lia.
          assert ((n - S (rd_cur s)) * n >= S (n - S c) * n) by (apply Nat.mul_le_mono_r; lia).
          simpl in H0. lia.
      + destruct (scan_inv HI Hit) as (s2 & E2 & HI2 & Hc2 & Hi2).
        rewrite E2. simpl bind. apply IH; [assumption|].
        unfold measure in *. rewrite Hc2, Hi2. lia.
    - exists s. split; [reflexivity|]. split; [assumption|].
      destruct HI as [Hcur Hlen Hit' Hu Hfirst Hmark Hnum].
      pose proof (cnt_le (mk (rd_ind s)) (n - S (rd_cur s)) (S (rd_cur s))). lia.
  Qed.

  Lemma rdr_spec r0 X' :
    X = r0 :: X' -> r0 <> [] ->
    remove_duplicate_rows X = Ok (map row (filter firstb (seq 0 n))).
  Proof.
    intros EX Hr0.
    assert (Hn : 0 < n) by (unfold n; rewrite EX; simpl; lia).
    assert (E : remove_duplicate_rows X =
      let! s := rdr_loop (S (n * n + n)) X
                  {| rd_ind := set_nth (repeat false n) 0 true; rd_uniq := [0]; rd_num := 1;
                     rd_cur := 0; rd_it := 1 |} in mapM (vget X) (rd_uniq s)).
    { unfold remove_duplicate_rows, n. rewrite EX. destruct r0; [congruence|reflexivity]. }
    rewrite E. clear E.
    set (s0 := {| rd_ind := set_nth (repeat false n) 0 true; rd_uniq := [0]; rd_num := 1;
                  rd_cur := 0; rd_it := 1 |}).
    assert (Hmk : forall j, 0 < j -> mk (rd_ind s0) j = false).
    { intros j Hj. simpl. unfold mk. rewrite nth_set_nth by (rewrite repeat_length; lia).
      destruct (Nat.eq_dec j 0); [lia|]. destruct (Nat.lt_ge_cases j n).
      - apply nth_repeat.
      - apply nth_overflow. rewrite repeat_length. lia. }
    assert (HI : Inv s0).
    { constructor; simpl; auto; try lia.
      - now rewrite set_nth_length, repeat_length.
      - intros j Hj. lia.
      - intros j Hj. fold (rd_ind s0). pose proof (Hmk j) as Hm. simpl in Hm. rewrite Hm by lia.
        split; [discriminate|]. intros (i & H1 & H2 & H3). lia.
      - assert (Hz : forall len lo, 0 < lo -> cnt (mk (rd_ind s0)) lo len = 0).
        { induction len as [|len IHl]; intros lo Hlo; [reflexivity|].
          cbn [cnt]. rewrite Hmk by assumption. rewrite IHl; lia. }
        simpl in Hz. rewrite Hz by lia. reflexivity. }
    destruct (@rdr_loop_inv (S (n * n + n)) s0 HI) as (s & E & HIs & Hnum).
    { unfold measure. simpl rd_cur. simpl rd_it.
      assert ((n - 1) * n <= n * n) by (apply Nat.mul_le_mono_r; lia). lia. }
    rewrite E. simpl bind.
    destruct HIs as [Hcur Hlen Hit' Hu Hfirst Hmark Hnum'].
    assert (Hu' : rd_uniq s = filter firstb (seq 0 n)).
    { rewrite Hu. replace n with (S (rd_cur s) + (n - S (rd_cur s))) at 1 by lia.
      rewrite seq_app, filter_app.
      rewrite (filter_none firstb (seq (0 + S (rd_cur s)) _)); [now rewrite app_nil_r|].
      intros j Hj. apply in_seq in Hj.
      assert (Hfull : mk (rd_ind s) j = true).
      { eapply cnt_full; [|instantiate (1 := n - S (rd_cur s)); instantiate (1 := S (rd_cur s)); lia].
        lia. }
      apply Hmark in Hfull; [|lia]. destruct Hfull as (i & H1 & H2 & _).
      destruct (firstb j) eqn:Ef; [|reflexivity].
      apply firstb_spec in Ef. exfalso. apply (Ef i); [lia|assumption]. }
    rewrite Hu'. apply mapM_Ok. intros i Hi. apply filter_In in Hi. destruct Hi as [Hi _].
    apply in_seq in Hi. apply vget_Ok. unfold n in *. lia.
  Qed.
End RDR.

Lemma StronglySorted_seq len : forall lo, StronglySorted lt (seq lo len).
Proof.
  induction len as [|len IH]; intros lo; simpl; constructor; [apply IH|].
  apply Forall_forall. intros j Hj. apply in_seq in Hj. lia.
Qed.

Lemma StronglySorted_filter {A} (R : A -> A -> Prop) p l :
  StronglySorted R l -> StronglySorted R (filter p l).
Proof.
  induction 1 as [|a l Hs IH Hall]; simpl; [constructor|].
  destruct (p a); [|assumption]. constructor; [assumption|].
  apply Forall_forall. intros x Hx. apply filter_In in Hx.
  rewrite Forall_forall in Hall. now apply Hall.
Qed.

Lemma remove_duplicate_rows_first X :
  X <> [] -> hd [] X <> [] ->
  exists idx, remove_duplicate_rows X = Ok (map (fun i => nth i X []) idx) /\
    StronglySorted lt idx /\
    forall i, In i idx <-> i < length X /\ (forall j, j < i -> nth j X [] <> nth i X []).
Proof.
  intros HX Hr. destruct X as [|r0 X']; [congruence|]. simpl in Hr.
  exists (filter (firstb (r0 :: X')) (seq 0 (length (r0 :: X')))).
  split; [exact (@rdr_spec (r0 :: X') r0 X' eq_refl Hr)|].
  split; [apply StronglySorted_filter, StronglySorted_seq|].
  intros i. rewrite filter_In, in_seq, firstb_spec. unfold is_first. intuition lia.
Qed.
