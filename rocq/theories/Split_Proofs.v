(** Proofs for [Split_Model]. *)
From Coq Require Import QArith Qround Lia.
From Verif Require Import Base Common_Model CommonMisc_Proofs KDBuild_Proofs Split_Model.
Local Open Scope nat_scope.
Set Implicit Arguments.

Lemma index_of_Some j p i : index_of j p = Some i -> nth_error p i = Some j.
Proof.
  revert i. induction p as [|x p IH]; intros i H; simpl in H; [discriminate|].
  destruct (Nat.eqb_spec x j) as [->|].
  - injection H as <-. reflexivity.
  - destruct (index_of j p) as [k|]; [|discriminate]. injection H as <-. simpl. now apply IH.
Qed.
Lemma index_of_In j p : In j p -> exists i, index_of j p = Some i.
Proof.
  induction p as [|x p IH]; intros H; [destruct H|]. simpl. destruct (Nat.eqb_spec x j) as [->|Hne]; [eauto|].
  destruct H as [->|H]; [congruence|]. destruct (IH H) as (i & ->). simpl. eauto.
Qed.

(* the inverse permutation *)
Definition inv_of (p : list nat) : list nat :=
  map (fun j => match index_of j p with Some i => i | None => 0 end) (seq 0 (length p)).
Lemma inv_perm p : Permutation p (seq 0 (length p)) -> Permutation (inv_of p) (seq 0 (length p)).
Proof.
  intros H. assert (Hn : NoDup p) by (apply (Permutation_NoDup (Permutation_sym H)), seq_NoDup).
  apply NoDup_Permutation_bis.
  - unfold inv_of. assert (G : forall j1 j2, j1 < length p -> j2 < length p ->
      match index_of j1 p with Some i => i | None => 0 end = match index_of j2 p with Some i => i | None => 0 end -> j1 = j2).
    { intros j1 j2 H1 H2. destruct (@index_of_In j1 p) as (i1 & E1); [apply (Permutation_in _ (Permutation_sym H)), in_seq; lia|].
      destruct (@index_of_In j2 p) as (i2 & E2); [apply (Permutation_in _ (Permutation_sym H)), in_seq; lia|].
      rewrite E1, E2. intros ->. apply index_of_Some in E1, E2. congruence. }
    assert (S : forall l, NoDup l -> (forall j, In j l -> j < length p) ->
       NoDup (map (fun j => match index_of j p with Some i => i | None => 0 end) l)).
    { induction 1 as [|x l Hx Hl IH]; intros Hb; simpl; constructor.
      - intros Hin. apply in_map_iff in Hin. destruct Hin as (y & E & Hy). apply Hx.
        rewrite (G x y); [assumption|apply Hb; now left|apply Hb; now right|congruence].
      - apply IH. intros j Hj. apply Hb. now right. }
    apply S; [apply seq_NoDup|]. intros j Hj. apply in_seq in Hj. lia.
  - unfold inv_of. rewrite map_length, !seq_length. lia.
  - intros i Hi. unfold inv_of in Hi. apply in_map_iff in Hi. destruct Hi as (j & <- & Hj).
    destruct (@index_of_In j p) as (i1 & E1); [now apply (Permutation_in _ (Permutation_sym H))|].
    rewrite E1. apply in_seq. apply index_of_Some in E1. split; [lia|]. apply nth_error_Some. congruence.
Qed.

Lemma permute_rows_Ok {A} p (X : list A) d : Permutation p (seq 0 (length p)) -> length p = length X ->
  permute_rows p X = Ok (map (fun i => nth i X d) (inv_of p)).
Proof.
  intros H Hl. unfold permute_rows. rewrite (proj2 (Nat.eqb_eq _ _) Hl).
  unfold inv_of. rewrite map_map. apply mapM_Ok. intros j Hj.
  destruct (@index_of_In j p) as (i & E); [now apply (Permutation_in _ (Permutation_sym H))|]. rewrite E.
  apply vget_Ok. apply index_of_Some in E. rewrite <- Hl. apply nth_error_Some. congruence.
Qed.

Lemma shuffle_both_spec {A B} p (X : list A) (y : list B) : Permutation p (seq 0 (length X)) -> length y = length X ->
  exists X' y', shuffle_both p X y = Ok (X', y') /\ length X' = length X /\ length y' = length X /\
    Permutation (combine X' y') (combine X y) /\
    (forall i j, nth_error p i = Some j -> nth_error X' j = nth_error X i /\ nth_error y' j = nth_error y i).
Proof.
  intros H Hy. assert (Hl : length p = length X) by (apply Permutation_length in H; now rewrite seq_length in H).
  assert (H' : Permutation p (seq 0 (length p))) by now rewrite Hl.
  destruct X as [|x X0] eqn:EX.
  { destruct y; [|discriminate]. simpl in H. destruct p; [|discriminate]. exists [], [].
    split; [reflexivity|]. repeat split; auto. all: destruct i; discriminate. }
  rewrite <- EX in *. destruct y as [|b y0] eqn:EY; [subst X; discriminate|]. rewrite <- EY in *.
  unfold shuffle_both. rewrite (@permute_rows_Ok _ p X x) by assumption. cbn [bind].
  rewrite (@permute_rows_Ok _ p y b) by (assumption || lia). cbn [bind].
  eexists _, _. split; [reflexivity|].
  assert (Hil : length (inv_of p) = length p) by (unfold inv_of; now rewrite map_length, seq_length).
  split; [rewrite map_length; lia|]. split; [rewrite map_length; lia|]. split.
  - rewrite combine_select by lia. transitivity (map (fun i => nth i (combine X y) (x, b)) (seq 0 (length (combine X y)))).
    + apply Permutation_map. rewrite combine_length, Hy, Nat.min_id, <- Hl. now apply inv_perm.
    + now rewrite map_nth_seq'.
  - intros i j Hij.
    assert (Hi : i < length p) by (apply nth_error_Some; congruence).
    assert (Hj : j < length p).
    { assert (In j (seq 0 (length p))) by (apply (Permutation_in _ H'); eapply nth_error_In; eassumption).
      apply in_seq in H0. lia. }
    assert (Hn : NoDup p) by (apply (Permutation_NoDup (Permutation_sym H')), seq_NoDup).
    assert (Einv : nth_error (inv_of p) j = Some i).
    { unfold inv_of. rewrite nth_error_map, (nth_error_nth' _ 0) by (rewrite seq_length; lia).
      rewrite seq_nth by lia. simpl. destruct (@index_of_In j p) as (k & Ek); [eapply nth_error_In; eassumption|].
      rewrite Ek. f_equal. apply index_of_Some in Ek. rewrite NoDup_nth_error in Hn.
      apply Hn; [apply nth_error_Some; congruence|congruence]. }
    rewrite !nth_error_map, Einv. simpl. split; symmetry; apply nth_error_nth'; lia.
Qed.

Lemma trunc_nonneg q : (0 <= q)%Q -> trunc q = Qfloor q.
Proof. intros H. unfold trunc. now rewrite (proj2 (Qle_bool_iff _ _) H). Qed.

Lemma num_train_bounds n ts : (0 <= ts <= 1)%Q ->
  trunc (inject_Z (Z.of_nat n) * ts) = Qfloor (inject_Z (Z.of_nat n) * ts) /\
  (0 <= Qfloor (inject_Z (Z.of_nat n) * ts) <= Z.of_nat n)%Z.
Proof.
  intros (H0 & H1). assert (Hn : (0 <= inject_Z (Z.of_nat n))%Q) by (change 0%Q with (inject_Z 0); rewrite <- Zle_Qle; lia).
  assert (Hp : (0 <= inject_Z (Z.of_nat n) * ts)%Q) by now apply Qmult_le_0_compat.
  split; [now apply trunc_nonneg|]. split.
  - change 0%Z with (Qfloor (inject_Z 0)). now apply Qfloor_resp_le.
  - rewrite <- (Qfloor_Z (Z.of_nat n)) at 2. apply Qfloor_resp_le.
    rewrite <- (Qmult_1_r (inject_Z (Z.of_nat n))) at 2. rewrite !(Qmult_comm (inject_Z (Z.of_nat n))).
    now apply Qmult_le_compat_r.
Qed.

Lemma train_test_split_spec {A B} (X : list A) (y : list B) ts sh :
  length y = length X -> (0 <= ts <= 1)%Q -> (forall p, sh = Some p -> Permutation p (seq 0 (length X))) ->
  exists X' y', match sh with Some p => shuffle_both p X y | None => Ok (X, y) end = Ok (X', y') /\
    length X' = length X /\ length y' = length X /\ Permutation (combine X' y') (combine X y) /\
    let k := Z.to_nat (Qfloor (inject_Z (Z.of_nat (length X)) * ts)) in
    k <= length X /\
    train_test_split X y ts sh = Ok (firstn k X', skipn k X', firstn k y', skipn k y').
Proof.
  intros Hy Hts Hp.
  assert (Hsh : exists X' y', match sh with Some p => shuffle_both p X y | None => Ok (X, y) end = Ok (X', y') /\
    length X' = length X /\ length y' = length X /\ Permutation (combine X' y') (combine X y)).
  { destruct sh as [p|].
    - destruct (shuffle_both_spec X y (Hp p eq_refl) Hy) as (X' & y' & E & H1 & H2 & H3 & _). eauto 10.
    - exists X, y. auto. }
  destruct Hsh as (X' & y' & E & HlX & Hly & HP). exists X', y'. repeat (split; [assumption|]).
  destruct (num_train_bounds (length X) Hts) as (Et & Hb).
  set (f := Qfloor (inject_Z (Z.of_nat (length X)) * ts)) in *. cbv zeta. split; [lia|].
  unfold train_test_split. rewrite E. cbn [bind]. rewrite Et.
  unfold top_rows, bottom_rows. rewrite HlX, Hly.
  rewrite (proj2 (Z.leb_le 0 f)), (proj2 (Z.leb_le f _)) by lia.
  rewrite (proj2 (Z.leb_le 0 (Z.of_nat (length X) - f))), (proj2 (Z.leb_le (Z.of_nat (length X) - f) _)) by lia.
  cbn [andb bind]. replace (length X - Z.to_nat (Z.of_nat (length X) - f)) with (Z.to_nat f) by lia. reflexivity.
Qed.

Lemma divide_loop_spec {T} (leb : T -> T -> bool) feature t : forall X i keep drop,
  Forall (fun r => feature < length r) X ->
  exists k d, divide_loop leb X i feature t keep drop = Ok (keep ++ k, drop ++ d) /\
    k = map (fun p => snd p) (filter (fun p => match nth_error (fst p) feature with Some v => leb v t | None => false end)
          (combine X (seq i (length X)))) /\
    d = map (fun p => snd p) (filter (fun p => match nth_error (fst p) feature with Some v => negb (leb v t) | None => false end)
          (combine X (seq i (length X)))).
Proof.
  induction X as [|r X IH]; intros i keep drop HF; cbn [divide_loop length seq combine filter map].
  - exists [], []. rewrite !app_nil_r. auto.
  - inversion HF as [|? ? Hr HF']; subst. unfold vget. cbn [fst].
    destruct (nth_error r feature) as [v|] eqn:E; [|apply nth_error_None in E; lia]. cbn [bind].
    destruct (leb v t); cbn [negb].
    + destruct (IH (S i) (keep ++ [i]) drop HF') as (k & d & E1 & Hk & Hd). exists (i :: k), d.
      rewrite E1, <- app_assoc. subst. auto.
    + destruct (IH (S i) keep (drop ++ [i]) HF') as (k & d & E1 & Hk & Hd). exists k, (i :: d).
      rewrite E1, <- app_assoc. subst. auto.
Qed.

Lemma seq_filter_sorted {T} (f : list T * nat -> bool) (X : list (list T)) : forall i,
  StronglySorted lt (map snd (filter f (combine X (seq i (length X))))) /\
  (forall j, In j (map snd (filter f (combine X (seq i (length X))))) <->
     exists r, i <= j /\ nth_error X (j - i) = Some r /\ f (r, j) = true).
Proof.
  induction X as [|r X IH]; intros i; cbn [length seq combine filter].
  - split; [constructor|]. intros j. split; [contradiction|]. intros (r & _ & H & _). destruct (j - i); discriminate.
  - destruct (IH (S i)) as (Hs & Hi).
    assert (Hrest : forall j, In j (map snd (filter f (combine X (seq (S i) (length X))))) <->
      (exists r0, i <= j /\ nth_error (r :: X) (j - i) = Some r0 /\ f (r0, j) = true) /\ j <> i).
    { intros j. rewrite Hi. split.
      - intros (r0 & H1 & H2 & H3). split; [|lia]. exists r0. split; [lia|].
        replace (j - i) with (S (j - S i)) by lia. auto.
      - intros ((r0 & H1 & H2 & H3) & Hne). exists r0. split; [lia|].
        replace (j - i) with (S (j - S i)) in H2 by lia. auto. }
    destruct (f (r, i)) eqn:Ef.
    + cbn [map snd]. split.
      * constructor; [assumption|]. apply Forall_forall. intros j Hj. apply Hi in Hj. destruct Hj as (_ & H & _). lia.
      * intros j. simpl. rewrite Hrest. split.
        -- intros [<-|(H & _)]; [|assumption]. exists r. rewrite Nat.sub_diag. auto.
        -- intros H. destruct (Nat.eq_dec i j); [now left|right]. split; [assumption|lia].
    + split; [assumption|]. intros j. rewrite Hrest. split; [tauto|]. intros H. split; [assumption|].
      intros ->. destruct H as (r0 & _ & H & H'). rewrite Nat.sub_diag in H. simpl in H. congruence.
Qed.

Lemma divide_spec {T} (leb : T -> T -> bool) X feature t : Forall (fun r => feature < length r) X ->
  exists left right, divide_on_feature leb X feature t = Ok (left, right) /\
    StronglySorted lt left /\ StronglySorted lt right /\
    (forall i, In i left <-> exists r v, nth_error X i = Some r /\ nth_error r feature = Some v /\ leb v t = true) /\
    (forall i, In i right <-> exists r v, nth_error X i = Some r /\ nth_error r feature = Some v /\ leb v t = false).
Proof.
  intros HF. destruct (@divide_loop_spec T leb feature t X 0 [] [] HF) as (k & d & E & Hk & Hd).
  unfold divide_on_feature. rewrite E. exists k, d. split; [reflexivity|].
  destruct (seq_filter_sorted (fun p => match nth_error (fst p) feature with Some v => leb v t | None => false end) X 0) as (S1 & I1).
  destruct (seq_filter_sorted (fun p => match nth_error (fst p) feature with Some v => negb (leb v t) | None => false end) X 0) as (S2 & I2).
  change (fun p : list T * nat => snd p) with (@snd (list T) nat) in *. rewrite <- Hk in S1, I1. rewrite <- Hd in S2, I2.
  split; [assumption|]. split; [assumption|]. split; intros i; [rewrite I1|rewrite I2].
  - rewrite Nat.sub_0_r. split.
    + intros (r & _ & H1 & H2). simpl in H2. destruct (nth_error r feature) as [v|] eqn:Ev; [|discriminate]. eauto 10.
    + intros (r & v & H1 & H2 & H3). exists r. simpl. rewrite H2. split; [lia|auto].
  - rewrite Nat.sub_0_r. split.
    + intros (r & _ & H1 & H2). simpl in H2. destruct (nth_error r feature) as [v|] eqn:Ev; [|discriminate].
      apply Bool.negb_true_iff in H2. eauto 10.
    + intros (r & v & H1 & H2 & H3). exists r. simpl. rewrite H2, H3. split; [lia|auto].
Qed.
