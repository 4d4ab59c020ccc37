(** The epoch loop: batches, stopping rule, what a run looks like. *)
From Coq Require Import Reals Lra.
From Verif Require Import Base Common_Model RDR_Proofs KDReal_Proofs Impurity_Spec Impurity_Model Impurity_Proofs Vec Loss_Model
  Shuffle_Model Shuffle_Proofs Optim_Model Optim_Spec.
Local Open Scope R_scope.
Set Implicit Arguments.

Lemma firstn_plus {A} a b (l : list A) : firstn (a + b) l = firstn a l ++ firstn b (skipn a l).
Proof. revert l; induction a as [|a IH]; intros [|x l]; cbn; auto; [destruct b; auto|]. f_equal; apply IH. Qed.

Lemma firstn_batches {A} bs m (X : list A) :
  concat (map (fun j => firstn bs (skipn (j * bs) X)) (seq 0 m)) = firstn (m * bs) X.
Proof.
  induction m as [|m IH]; [reflexivity|].
  rewrite seq_S, map_app, concat_app, IH. cbn [map concat]. rewrite app_nil_r. cbn [Nat.add].
  replace (Datatypes.S m * bs)%nat with (m * bs + bs)%nat by lia. symmetry; apply firstn_plus.
Qed.

Lemma middle_rows_Ok {A} (x : list A) b n : (b + n <= length x)%nat -> middle_rows x b n = Ok (firstn n (skipn b x)).
Proof. intro H; unfold middle_rows. apply Nat.leb_le in H; rewrite H; auto. Qed.

Definition cut {A B} (bs : nat) (X : list A) (y : list B) (j : nat) : list A * list B :=
  (firstn bs (skipn (j * bs) X), firstn bs (skipn (j * bs) y)).

Lemma cut_in_batches {A B} bs (X : list A) (y : list B) : (0 < bs)%nat -> length y = length X ->
  in_batches bs X y (map (cut bs X y) (seq 0 (length X / bs))).
Proof.
  intros P E. pose proof (Nat.div_mod_eq (length X) bs) as D. pose proof (Nat.mod_upper_bound (length X) bs ltac:(lia)) as M.
  split; [|split].
  - intros b I. apply in_map_iff in I. destruct I as (j & <- & I). apply in_seq in I. cbn.
    assert (j * bs + bs <= length X)%nat by nia.
    rewrite !firstn_length, !skipn_length. lia.
  - exists (skipn (length X / bs * bs) X). rewrite map_map. cbn [fst cut]. rewrite firstn_batches, firstn_skipn.
    split; auto. rewrite skipn_length. nia.
  - exists (skipn (length X / bs * bs) y). rewrite map_map. cbn [snd cut]. rewrite firstn_batches, firstn_skipn.
    split; auto. rewrite skipn_length. nia.
Qed.

Section Loop.
  Context {Row Lab S : Type}.
  Variable step : S -> R -> nat -> list Row -> list Lab -> outcome (S * R).
  Variable decay : nat -> outcome R.
  Variable perm : nat -> list nat.
  Variable shuffle : bool.
  Variable bs N : nat.
  Variable tol : R.
  Hypothesis Hbs : (0 < bs)%nat.

  Lemma foldM_run lr X y k m s hs r : foldM (run_batch step bs lr X y) (seq k m) (s, hs) = Ok r ->
    exists ls, snd r = hs ++ ls /\ epoch_run step lr k (map (cut bs X y) (seq k m)) s (fst r) (total ls).
  Proof.
    revert k s hs; induction m as [|m IH]; intros k s hs H; cbn [seq map foldM] in *.
    - injection H as <-. exists []. rewrite app_nil_r. split; auto. constructor.
    - unfold run_batch at 1 in H. unfold middle_rows in H.
      destruct (_ <=? length X)%nat eqn:E1; [|discriminate]. cbn [bind] in H.
      destruct (_ <=? length y)%nat eqn:E2; [|discriminate]. cbn [bind fst snd] in H.
      destruct (step s lr k _ _) as [[s' l]| | |] eqn:E3; try discriminate. cbn [bind fst snd] in H.
      destruct (IH _ _ _ H) as (ls & Hs & Hr). exists (l :: ls). rewrite Hs, <- app_assoc. split; auto.
      unfold cut at 1. cbn [total fold_right]. econstructor; eauto.
  Qed.

  Lemma run_epoch_run iter X y s s' L : length y = length X -> run_epoch step decay bs iter X y s = Ok (s', L) ->
    exists lr bl, decay iter = Ok lr /\ in_batches bs X y bl /\ epoch_run step lr 0 bl s s' L.
  Proof.
    intros E H. unfold run_epoch in H. destruct (decay iter) as [lr| | |]; try discriminate. cbn [bind] in H.
    destruct (foldM _ _ _) as [r| | |] eqn:F; try discriminate. cbn [bind] in H. injection H as <- <-.
    destruct (@foldM_run lr X y 0 (length X / bs) s [] r F) as (ls & Hs & Hr). exists lr. eexists; split; [reflexivity|].
    split; [apply cut_in_batches; auto|]. rewrite Hs, Rsum_total. exact Hr.
  Qed.

  (** The stopping rule *)
  Definition count_inv (loss : nat -> R) (i : nat) (best : option R) (count : nat) : Prop :=
    match best with
    | None => i = 0%nat
    | Some b => (exists e, (e < i)%nat /\ loss e = b) /\ forall e, (e < i)%nat -> b <= loss e
    end /\
    (count <= i)%nat /\ (forall k, (k < i)%nat -> (i <= k + count)%nat -> stalled (tol * INR bs) loss k) /\
    ((0 < i)%nat -> (count < i)%nat /\ ~ stalled (tol * INR bs) loss (i - 1 - count)).

  Lemma not_improved_iff loss i best count : count_inv loss i best count ->
    not_improved bs tol (loss i) best = true <-> stalled (tol * INR bs) loss i.
  Proof.
    intros (B & _). destruct best as [b|]; cbn.
    - destruct B as ((e & He & Eb) & M). rewrite Rltb_true. split.
      + intro H. exists e. rewrite Eb. auto.
      + intros (k & Hk & H). specialize (M _ Hk). lra.
    - subst. split; [easy|]. intros (k & Hk & _); lia.
  Qed.

  Lemma count_step loss i best count : count_inv loss i best count ->
    let count' := if not_improved bs tol (loss i) best then Datatypes.S count else 0%nat in
    count_inv loss (Datatypes.S i) (better (loss i) best) count' /\ ((N <= count')%nat <-> stops (tol * INR bs) loss N i).
  Proof.
    intros I count'. pose proof (not_improved_iff I) as NI. destruct I as (B & L & A & C).
    assert (I' : count_inv loss (Datatypes.S i) (better (loss i) best) count').
    { split; [|split; [|split]].
      - destruct best as [b|]; cbn [better].
        + destruct B as ((e & He & Eb) & M). destruct (Rltb (loss i) b) eqn:E.
          * apply Rltb_true in E. split; [exists i; split; auto; lia|]. intros k Hk.
            assert (k = i \/ k < i)%nat as [->|K] by lia; [lra|]. specialize (M _ K); lra.
          * apply Rltb_false in E. split; [exists e; split; auto; lia|]. intros k Hk.
            assert (k = i \/ k < i)%nat as [->|K] by lia; [lra|]. auto.
        + subst i. split; [exists 0%nat; split; auto; lia|]. intros k Hk. assert (k = 0)%nat as -> by lia. lra.
      - unfold count'. destruct (not_improved _ _ _ _); lia.
      - unfold count'. intros k Hk. destruct (not_improved _ _ _ _) eqn:E; [|lia]. intro Hc.
        assert (k = i \/ k < i)%nat as [->|K] by lia; [apply NI; auto|]. apply A; lia.
      - intros _. unfold count'. destruct (not_improved _ _ _ _) eqn:E.
        + assert (0 < i)%nat as P. { destruct (proj1 NI eq_refl) as (k & Hk & _); lia. }
          destruct (C P) as (C1 & C2). split; [lia|]. replace (Datatypes.S i - 1 - Datatypes.S count)%nat with (i - 1 - count)%nat by lia. auto.
        + split; [lia|]. replace (Datatypes.S i - 1 - 0)%nat with i by lia. intro H. apply NI in H. congruence. }
    split; auto. destruct I' as (_ & L' & A' & C'). split.
    - intros HN k Hk Hk'. apply A'; lia.
    - intro St. destruct (le_lt_dec N count') as [?|F]; auto. exfalso. destruct (C' ltac:(lia)) as (C1 & C2). apply C2.
      replace (Datatypes.S i - 1 - count')%nat with (i - count')%nat by lia. apply St; lia.
  Qed.

  Variable X0 : list Row.
  Variable y0 : list Lab.
  Variable s0 : S.
  Hypothesis Hlen : length y0 = length X0.
  Hypothesis Hperm : shuffle = true -> forall k, is_perm (length X0) (perm k).

  Definition loop_inv (i : nat) (X : list Row) (y : list Lab) (s : S) (best : option R) (count : nat) data state loss : Prop :=
    training_run step decay shuffle bs X0 y0 s0 i data state loss /\ state i = s /\
    reordered X0 X y0 y /\ (shuffle = false -> X = X0 /\ y = y0) /\ count_inv loss i best count /\
    forall e, (e < i)%nat -> ~ stops (tol * INR bs) loss N e.

  Lemma loop_init : loop_inv 0 X0 y0 s0 None 0 (fun _ => (X0, y0)) (fun _ => s0) (fun _ => 0).
  Proof.
    split; [split; auto; intros; lia|]. split; auto. split; [repeat split; auto|]. split; auto. split; [|intros; lia].
    split; [auto|]. split; [lia|]. split; [intros; lia|]. intro; lia.
  Qed.

  Definition upd {A} (f : nat -> A) (i : nat) (a : A) : nat -> A := fun k => if (k =? i)%nat then a else f k.
  Lemma upd_same {A} (f : nat -> A) i a : upd f i a i = a.
  Proof. unfold upd; rewrite Nat.eqb_refl; auto. Qed.
  Lemma upd_other {A} (f : nat -> A) i a k : k <> i -> upd f i a k = f k.
  Proof. intro H; unfold upd; apply Nat.eqb_neq in H; rewrite H; auto. Qed.

  Lemma reshuffle_spec i X y : reordered X0 X y0 y -> (shuffle = false -> X = X0 /\ y = y0) ->
    exists X' y', reshuffle perm shuffle i X y = Ok (X', y') /\ reordered X0 X' y0 y' /\ (shuffle = false -> X' = X0 /\ y' = y0).
  Proof.
    intros (L1 & L2 & P) F. unfold reshuffle. destruct shuffle eqn:Es.
    - destruct (@shuffle2_spec Row Lab (length X0) (perm i) X y) as (X' & y' & E & (R1 & R2 & R3) & _); auto; try congruence.
      exists X', y'. split; auto. split; [|easy]. split; [congruence|]. split; [congruence|]. etransitivity; eauto.
    - exists X, y. split; auto. split; [repeat split; auto|auto].
  Qed.

  Lemma stops_ext loss loss' margin e : (forall k, (k <= e)%nat -> loss k = loss' k) ->
    stops margin loss N e -> stops margin loss' N e.
  Proof.
    intros E H k Hk Hk'. destruct (H k Hk Hk') as (i & Hi & L). exists i. rewrite <- !E by lia. auto.
  Qed.
  Lemma count_inv_ext loss loss' i best count : (forall k, (k < i)%nat -> loss k = loss' k) -> count_inv loss i best count -> count_inv loss' i best count.
  Proof.
    intros E (B & L & A & C). split; [|split; [|split]]; auto.
    - destruct best; auto. destruct B as ((e & He & Eb) & M). split; [exists e; rewrite <- E; auto|]. intros k Hk; rewrite <- E; auto.
    - intros k Hk Hc. destruct (A k Hk Hc) as (q & Hq & Lq). exists q; rewrite <- !E by lia; auto.
    - intro P. destruct (C P) as (C1 & C2). split; auto. intros (q & Hq & Lq). apply C2. exists q. rewrite !E by lia. auto.
  Qed.

  Lemma loop_step i X y s best count data state loss X' y' s' L :
    loop_inv i X y s best count data state loss ->
    reshuffle perm shuffle i X y = Ok (X', y') -> run_epoch step decay bs i X' y' s = Ok (s', L) ->
    let count' := if not_improved bs tol L best then Datatypes.S count else 0%nat in
    exists data' state' loss',
      training_run step decay shuffle bs X0 y0 s0 (Datatypes.S i) data' state' loss' /\ state' (Datatypes.S i) = s' /\
      (forall e, (e < i)%nat -> ~ stops (tol * INR bs) loss' N e) /\
      ((N <= count')%nat <-> stops (tol * INR bs) loss' N i) /\
      ((count' < N)%nat -> loop_inv (Datatypes.S i) X' y' s' (better L best) count' data' state' loss').
  Proof.
    intros (T & Es & RO & F & CI & NS) Er Ee count'.
    destruct (reshuffle_spec i RO F) as (X1 & y1 & Er' & RO' & F'). rewrite Er in Er'. injection Er' as <- <-.
    pose (data' := upd data i (X', y')). pose (state' := upd state (Datatypes.S i) s'). pose (loss' := upd loss i L).
    assert (CI' : count_inv loss' i best count).
    { eapply count_inv_ext; [|exact CI]. intros k Hk. unfold loss'; rewrite upd_other; auto; lia. }
    assert (EL : loss' i = L) by (unfold loss'; apply upd_same).
    assert (T' : training_run step decay shuffle bs X0 y0 s0 (Datatypes.S i) data' state' loss').
    { destruct T as (T0 & T1). split; [unfold state'; rewrite upd_other; auto|]. intros e He.
      assert (e = i \/ e < i)%nat as [->|K] by lia.
      - unfold data'; rewrite upd_same. split; [exact RO'|]. split; [intro Q; destruct (F' Q) as (-> & ->); auto|].
        cbn [fst snd]. rewrite EL. unfold state'. rewrite upd_same, upd_other, Es by lia.
        apply run_epoch_run; auto. destruct RO' as (A1 & A2 & _). congruence.
      - unfold data', state', loss'. rewrite !upd_other by lia. auto. }
    destruct (count_step CI') as (C1 & C2). rewrite EL in C1, C2. fold count' in C1, C2.
    assert (NS' : forall e, (e < i)%nat -> ~ stops (tol * INR bs) loss' N e).
    { intros e He St. apply (NS e He). eapply stops_ext; [|exact St]. intros k Hk. unfold loss'. rewrite upd_other; auto; lia. }
    exists data', state', loss'. split; auto. split; [unfold state'; apply upd_same|]. split; auto. split; auto.
    intro Hc. split; auto. split; [unfold state'; apply upd_same|]. split; auto. split; auto. split; auto.
    intros e He. assert (e = i \/ e < i)%nat as [->|K] by lia; auto. intro St. apply C2 in St. lia.
  Qed.

  Lemma epochs_Ok m i X y s best count data state loss r :
    loop_inv i X y s best count data state loss ->
    epochs step decay perm shuffle bs N tol (seq i m) X y best count s = Ok r ->
    exists E data' state' loss', (i <= E < i + m)%nat /\
      training_run step decay shuffle bs X0 y0 s0 (Datatypes.S E) data' state' loss' /\ state' (Datatypes.S E) = r /\
      stops (tol * INR bs) loss' N E /\ forall e, (e < E)%nat -> ~ stops (tol * INR bs) loss' N e.
  Proof.
    revert i X y s best count data state loss; induction m as [|m IH]; intros i X y s best count data state loss I H; cbn [seq epochs] in H; [discriminate|].
    destruct (reshuffle _ _ _ _ _) as [[X' y']| | |] eqn:Er; try discriminate. cbn [bind fst snd] in H.
    destruct (run_epoch _ _ _ _ _ _ _) as [[s' L]| | |] eqn:Ee; try discriminate. cbn [bind fst snd] in H.
    destruct (loop_step I Er Ee) as (data' & state' & loss' & T & Es & NS & St & Inv).
    destruct (N <=? _)%nat eqn:Ec.
    - injection H as <-. exists i, data', state', loss'. split; [lia|]. split; auto. split; auto. split; auto. apply St. apply Nat.leb_le; auto.
    - apply Nat.leb_gt in Ec. specialize (Inv Ec). destruct (IH _ _ _ _ _ _ _ _ _ Inv H) as (E & d & st & l & HE & Q).
      exists E, d, st, l. split; [lia|auto].
  Qed.

  (** Totality *)
  Variable I : S -> Prop.
  Hypothesis I0 : I s0.
  Hypothesis Hdecay : forall k, exists lr, decay k = Ok lr.
  Hypothesis Hstep : forall s lr j X y, I s -> length X = bs -> length y = bs -> incl X X0 -> incl y y0 ->
    exists s' l, step s lr j X y = Ok (s', l) /\ I s'.

  Lemma reordered_incl X y : reordered X0 X y0 y -> incl X X0 /\ incl y y0.
  Proof.
    intros (L1 & L2 & P). split; intros a Ha.
    - destruct (In_nth_error _ _ Ha) as (i & Hi). assert (i < length X)%nat by (apply nth_error_Some; congruence).
      destruct (nth_error y i) as [b|] eqn:Eb; [|apply nth_error_None in Eb; lia].
      pose proof (in_combine_nth _ _ _ Hi Eb) as Q. apply (Permutation_in _ (Permutation_sym P)) in Q. eapply in_combine_l; eauto.
    - destruct (In_nth_error _ _ Ha) as (i & Hi). assert (i < length y)%nat by (apply nth_error_Some; congruence).
      destruct (nth_error X i) as [b|] eqn:Eb; [|apply nth_error_None in Eb; lia].
      pose proof (in_combine_nth _ _ _ Eb Hi) as Q. apply (Permutation_in _ (Permutation_sym P)) in Q. eapply in_combine_r; eauto.
  Qed.
  Lemma in_firstn_skipn {A} a b (l : list A) : incl (firstn a (skipn b l)) l.
  Proof.
    intros x Hx. rewrite <- (firstn_skipn b l). apply in_or_app; right. rewrite <- (firstn_skipn a (skipn b l)). apply in_or_app; auto.
  Qed.

  Lemma run_epoch_total i X y s : reordered X0 X y0 y -> I s -> exists s' L, run_epoch step decay bs i X y s = Ok (s', L) /\ I s'.
  Proof.
    intros RO Is. destruct (reordered_incl RO) as (IX & Iy). destruct RO as (L1 & L2 & _).
    unfold run_epoch. destruct (Hdecay i) as (lr & ->). cbn [bind].
    assert (G : forall m k s hs, I s -> (k + m <= length X / bs)%nat -> exists s' hs', foldM (run_batch step bs lr X y) (seq k m) (s, hs) = Ok (s', hs') /\ I s').
    { induction m as [|m IH]; intros k s1 hs I1 Hk; cbn [seq foldM]; [eauto|].
      assert (B : (k * bs + bs <= length X)%nat).
      { pose proof (Nat.div_mod_eq (length X) bs). assert (k + 1 <= length X / bs)%nat by lia. nia. }
      unfold run_batch at 1. rewrite middle_rows_Ok by auto. cbn [bind]. rewrite middle_rows_Ok by congruence. cbn [bind fst snd].
      destruct (@Hstep s1 lr k (firstn bs (skipn (k * bs) X)) (firstn bs (skipn (k * bs) y))) as (s2 & l & E & I2); auto.
      - rewrite firstn_length, skipn_length; lia.
      - rewrite firstn_length, skipn_length; lia.
      - eapply incl_tran; [apply in_firstn_skipn|auto].
      - eapply incl_tran; [apply in_firstn_skipn|auto].
      - rewrite E. cbn [bind fst snd]. apply IH; auto; lia. }
    destruct (G (length X / bs)%nat 0%nat s [] Is ltac:(lia)) as (s' & hs & E & I'). rewrite E. cbn. eauto.
  Qed.

  Lemma epochs_total m i X y s best count data state loss :
    loop_inv i X y s best count data state loss -> I s ->
    (exists r, epochs step decay perm shuffle bs N tol (seq i m) X y best count s = Ok r /\ I r) \/
    (epochs step decay perm shuffle bs N tol (seq i m) X y best count s = Throw RuntimeError /\
     exists data' state' loss', training_run step decay shuffle bs X0 y0 s0 (i + m) data' state' loss' /\
       forall e, (e < i + m)%nat -> ~ stops (tol * INR bs) loss' N e).
  Proof.
    revert i X y s best count data state loss; induction m as [|m IH]; intros i X y s best count data state loss Inv Is; cbn [seq epochs].
    - right. split; auto. rewrite Nat.add_0_r. destruct Inv as (T & _ & _ & _ & _ & NS). eauto.
    - pose proof Inv as (_ & _ & RO & F & _). destruct (reshuffle_spec i RO F) as (X' & y' & Er & RO' & F'). rewrite Er. cbn [bind fst snd].
      destruct (@run_epoch_total i X' y' s RO' Is) as (s' & L & Ee & Is'). rewrite Ee. cbn [bind fst snd].
      destruct (loop_step Inv Er Ee) as (data' & state' & loss' & T & Es & NS & St & Inv').
      destruct (N <=? _)%nat eqn:Ec; [left; eauto|]. apply Nat.leb_gt in Ec. specialize (Inv' Ec).
      replace (i + Datatypes.S m)%nat with (Datatypes.S i + m)%nat by lia. eapply IH; eauto.
  Qed.
End Loop.
