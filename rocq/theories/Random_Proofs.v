(** Proofs about [Random_Model]. *)
From Coq Require Import FinFun.
From Verif Require Import Base Common_Model Shuffle_Model Random_Model Random_Spec.
Set Implicit Arguments.

Lemma nth_error_set {A} (l : list A) i v j : i < length l -> nth_error (set_nth l i v) j = if j =? i then Some v else nth_error l j.
Proof.
  revert i j; induction l as [|a l IH]; intros i j; cbn [length]; [lia|]. destruct i as [|i]; destruct j as [|j]; cbn; intro H; auto.
  apply IH; lia.
Qed.
Lemma set_nth_len {A} (l : list A) i v : length (set_nth l i v) = length l.
Proof. revert i; induction l as [|a l IH]; intros [|i]; cbn; auto. Qed.

(** The exchange of two positions. *)
Definition tr (i j k : nat) : nat := if k =? i then j else if k =? j then i else k.
Lemma tr_invol i j k : tr i j (tr i j k) = k.
Proof. unfold tr. destruct (Nat.eqb_spec k i); destruct (Nat.eqb_spec k j); subst; rewrite ?Nat.eqb_refl; auto.
  - destruct (Nat.eqb_spec j i); auto.
  - rewrite (proj2 (Nat.eqb_neq k i)), (proj2 (Nat.eqb_neq k j)); auto.
Qed.
Lemma tr_inj i j : Injective (tr i j).
Proof. intros a b H. rewrite <- (tr_invol i j a), H. apply tr_invol. Qed.

Lemma swap_at_spec {A} (l : list A) i j : i < length l -> j < length l ->
  exists l', swap_at l i j = Ok l' /\ length l' = length l /\ forall k, nth_error l' k = nth_error l (tr i j k).
Proof.
  intros Hi Hj. unfold swap_at, vget. destruct (nth_error l i) as [a|] eqn:Ea; [|apply nth_error_None in Ea; lia].
  destruct (nth_error l j) as [b|] eqn:Eb; [|apply nth_error_None in Eb; lia]. cbn [bind]. eexists. split; [reflexivity|].
  split; [now rewrite !set_nth_len|]. intro k. rewrite !nth_error_set by (rewrite ?set_nth_len; auto). unfold tr.
  destruct (Nat.eqb_spec k j); destruct (Nat.eqb_spec k i); congruence.
Qed.
Lemma swap_perm {A} (l l' : list A) i j : (length l' = length l) -> (forall k, nth_error l' k = nth_error l (tr i j k)) -> Permutation l l'.
Proof. intros L H. apply Permutation_nth_error. split; [auto|]. exists (tr i j). split; [apply tr_inj|auto]. Qed.
Lemma nth_error_list_ext {A} (l l' : list A) : (forall i, nth_error l i = nth_error l' i) -> l = l'.
Proof.
  revert l'; induction l as [|a l IH]; intros [|b l'] H; auto.
  - specialize (H 0); discriminate.
  - specialize (H 0); discriminate.
  - pose proof (H 0) as H0; cbn in H0; injection H0 as ->. f_equal. apply IH. intro i. exact (H (S i)).
Qed.

Section Engine.
  Variables (state : Type) (draw : state -> nat -> nat * state).
  Lemma shuffle_loop_perm {A} (k i : nat) (l : list A) s : (forall s i, fst (draw s i) <= i) -> i + k <= length l ->
    exists l' s', shuffle_loop draw k i l s = Ok (l', s') /\ Permutation l l'.
  Proof.
    intro D. revert i l s; induction k as [|k IH]; intros i l s H; cbn [shuffle_loop]; [eauto|].
    pose proof (D s i) as Di. destruct (draw s i) as [d s1]; cbn [fst] in Di.
    destruct (@swap_at_spec _ l i d) as (l1 & E & L & N); [lia|lia|]. rewrite E; cbn [bind].
    destruct (IH (S i) l1 s1) as (l2 & s2 & E2 & P); [lia|]. exists l2, s2. split; auto.
    eapply Permutation_trans; [exact (swap_perm _ _ _ _ L N)|exact P].
  Qed.
  Lemma std_shuffle_perm {A} (l : list A) s : (forall s i, fst (draw s i) <= i) -> exists l' s', std_shuffle draw l s = Ok (l', s') /\ Permutation l l'.
  Proof.
    intro D. unfold std_shuffle. destruct l as [|a l]; [exists [], s; auto|]. apply shuffle_loop_perm; auto. cbn [length]; lia.
  Qed.
  Lemma shuffle_loop_add {A} k1 k2 i (l : list A) s :
    shuffle_loop draw (k1 + k2) i l s = let! (l', s') := shuffle_loop draw k1 i l s in shuffle_loop draw k2 (i + k1) l' s'.
  Proof.
    revert i l s; induction k1 as [|k1 IH]; intros i l s; cbn [shuffle_loop plus bind]; [now rewrite Nat.add_0_r|].
    destruct (draw s i) as [d s1]. destruct (swap_at l i d); cbn [bind]; auto. rewrite IH. now replace (S i + k1) with (i + S k1) by lia.
  Qed.
End Engine.

Lemma swap_at_app {A} (l r : list A) i j : i < length l -> j < length l ->
  swap_at (l ++ r) i j = let! l' := swap_at l i j in Ok (l' ++ r).
Proof.
  intros Hi Hj. destruct (@swap_at_spec _ l i j) as (l1 & E & L & N); auto.
  destruct (@swap_at_spec _ (l ++ r) i j) as (l2 & E2 & L2 & N2); try (rewrite app_length; lia).
  rewrite E, E2; cbn [bind]. f_equal. apply nth_error_list_ext. intro k. rewrite N2.
  destruct (Nat.ltb_spec k (length l)) as [H|H].
  - rewrite (nth_error_app1 l1) by lia. rewrite N. apply nth_error_app1. unfold tr. destruct (k =? i); [lia|]. destruct (k =? j); lia.
  - rewrite (nth_error_app2 l1) by lia. unfold tr. rewrite (proj2 (Nat.eqb_neq k i)), (proj2 (Nat.eqb_neq k j)) by lia.
    rewrite nth_error_app2 by lia. now rewrite L.
Qed.

(** Draws that suit the positions i, i+1, ... *)
Definition suits (i : nat) (ds : list nat) : Prop := forall k d, nth_error ds k = Some d -> d <= i + k.
Lemma suits_cons i d ds : suits i (d :: ds) <-> d <= i /\ suits (S i) ds.
Proof.
  unfold suits; split.
  - intro H; split; [specialize (H 0 d eq_refl); lia|]. intros k e E. specialize (H (S k) e E). lia.
  - intros [H1 H2] [|k] e E; cbn in E; [injection E as ->; lia|]. specialize (H2 k e E); lia.
Qed.
Lemma suits_app i ds es : suits i (ds ++ es) <-> suits i ds /\ suits (i + length ds) es.
Proof.
  revert i; induction ds as [|d ds IH]; intro i; cbn [app length].
  - rewrite Nat.add_0_r. split; [split; auto; intros [|?] ? [=]|tauto].
  - rewrite !suits_cons, IH. replace (i + S (length ds)) with (S i + length ds) by lia. tauto.
Qed.
(** A scripted run on the front of a list. *)
Lemma scripted_run {A} (ds es : list nat) i (l r : list A) : suits i ds -> i + length ds <= length l ->
  exists l', shuffle_loop scripted (length ds) i (l ++ r) (ds ++ es) = Ok (l' ++ r, es) /\ shuffle_loop scripted (length ds) i l ds = Ok (l', []) /\ Permutation l l'.
Proof.
  revert i l; induction ds as [|d ds IH]; intros i l S L; cbn [length shuffle_loop app]; [eauto|].
  apply suits_cons in S as [Sd S]. cbn [length] in L. unfold scripted at 1 3; cbn [hd tl].
  rewrite swap_at_app by lia. destruct (@swap_at_spec _ l i d) as (l1 & E & L1 & N); [lia|lia|]. rewrite E; cbn [bind].
  destruct (IH (Datatypes.S i) l1 S) as (l2 & E1 & E2 & P); [lia|]. exists l2. repeat split; auto.
  eapply Permutation_trans; [exact (swap_perm _ _ _ _ L1 N)|exact P].
Qed.

Lemma draws_for_suits n ds : draws_for n ds <-> length ds = n - 1 /\ suits 1 ds.
Proof. unfold draws_for, suits. cbn [plus]. tauto. Qed.

Lemma scripted_step n ds d q : 0 < n -> draws_for n ds -> d <= n -> shuffle_loop scripted (n - 1) 1 (seq 0 n) ds = Ok (q, []) ->
  shuffle_loop scripted n 1 (seq 0 (S n)) (ds ++ [d]) = let! p := swap_at (q ++ [n]) n d in Ok (p, []).
Proof.
  intros Hn D Hd E. destruct (proj1 (draws_for_suits _ _) D) as [L S]. rewrite seq_S; cbn [plus].
  replace n with (length ds + 1) at 1 by lia. rewrite shuffle_loop_add.
  destruct (@scripted_run _ ds [d] 1 (seq 0 n) [n] S) as (l' & E1 & E2 & P); [rewrite seq_length; lia|].
  rewrite E1; cbn [bind]. rewrite <- L, E2 in E. injection E as ->. cbn [shuffle_loop scripted hd tl]. now replace (1 + length ds) with n by lia.
Qed.

Lemma draws_for_snoc n ds : 0 < n -> draws_for (S n) ds -> exists ds' d, ds = ds' ++ [d] /\ draws_for n ds' /\ d <= n.
Proof.
  intros Hn D. destruct (proj1 (draws_for_suits _ _) D) as [L S]. destruct (@exists_last _ ds) as (ds' & d & ->). { intros ->; cbn in L; lia. }
  exists ds', d. split; auto. rewrite app_length in L; cbn [length] in L. apply suits_app in S as [S1 S2]. split.
  - apply draws_for_suits. split; [lia|auto].
  - specialize (S2 0 d eq_refl). lia.
Qed.
Lemma draws_for_snoc_intro n ds d : 0 < n -> draws_for n ds -> d <= n -> draws_for (S n) (ds ++ [d]).
Proof.
  intros Hn D Hd. destruct (proj1 (draws_for_suits _ _) D) as [L S]. apply draws_for_suits. rewrite app_length; cbn [length]. split; [lia|].
  apply suits_app; split; auto. intros [|k] e E; cbn in E; [injection E as <-; lia|]. destruct k; discriminate.
Qed.

Lemma seq_last_spec n q d p : length q = n -> swap_at (q ++ [n]) n d = Ok p -> d <= n ->
  length p = S n /\ forall k, nth_error p k = nth_error (q ++ [n]) (tr n d k).
Proof.
  intros L E Hd. destruct (@swap_at_spec _ (q ++ [n]) n d) as (p' & E' & L' & N); try (rewrite app_length; cbn [length]; lia).
  rewrite E in E'. injection E' as <-. rewrite app_length in L'; cbn [length] in L'. split; [lia|auto].
Qed.

(** Every order comes from exactly one sequence of draws. *)
Lemma shuffle_onto n : forall p, Permutation p (seq 0 n) -> exists ds, draws_for n ds /\ shuffle_loop scripted (n - 1) 1 (seq 0 n) ds = Ok (p, []).
Proof.
  induction n as [|n IH]; intros p P.
  { apply Permutation_sym, Permutation_nil in P as ->. exists []. split; [split; [auto|intros [|?] ? [=]]|reflexivity]. }
  destruct n as [|n].
  { apply Permutation_sym, Permutation_length_1_inv in P as ->. exists []. split; [split; [auto|intros [|?] ? [=]]|reflexivity]. }
  set (m := S n) in *. assert (Lp : length p = S m) by (rewrite (Permutation_length P), seq_length; auto).
  assert (I : In m p). { apply (Permutation_in _ (Permutation_sym P)), in_seq. lia. }
  apply In_nth_error in I as (d & Ed). assert (Hd : d < S m) by (rewrite <- Lp; apply nth_error_Some; congruence).
  destruct (@swap_at_spec _ p m d) as (p1 & E1 & L1 & N1); [lia|lia|].
  destruct (@exists_last _ p1) as (q & z & ->). { intros ->; cbn in L1; lia. }
  rewrite app_length in L1; cbn [length] in L1. assert (Lq : length q = m) by lia.
  assert (z = m) as ->.
  { specialize (N1 m). rewrite nth_error_app2, Lq, Nat.sub_diag in N1 by lia. cbn in N1. unfold tr in N1. rewrite Nat.eqb_refl in N1. congruence. }
  assert (Q : Permutation q (seq 0 m)).
  { apply (Permutation_app_inv_r [m]). change [m] with (seq (0 + m) 1) at 2. rewrite <- seq_app, Nat.add_1_r.
    eapply Permutation_trans; [|exact P]. apply Permutation_sym. eapply swap_perm; [|exact N1]. rewrite app_length; cbn [length]; lia. }
  destruct (IH q Q) as (ds & D & E). exists (ds ++ [d]). split; [apply draws_for_snoc_intro; auto; lia|].
  replace (S m - 1) with m by lia. rewrite (@scripted_step m ds d q) by (auto; lia).
  destruct (@swap_at_spec _ (q ++ [m]) m d) as (p2 & E2 & L2 & N2); try (rewrite app_length; cbn [length]; lia). rewrite E2; cbn [bind].
  do 2 f_equal. apply nth_error_list_ext. intro k. now rewrite N2, N1, tr_invol.
Qed.

Lemma shuffle_inj n : forall ds ds' p, draws_for n ds -> draws_for n ds' -> shuffle_loop scripted (n - 1) 1 (seq 0 n) ds = Ok (p, []) ->
  shuffle_loop scripted (n - 1) 1 (seq 0 n) ds' = Ok (p, []) -> ds = ds'.
Proof.
  induction n as [|n IH]; intros ds ds' p D D' E E'.
  { destruct D as [L _], D' as [L' _]. destruct ds, ds'; auto; discriminate. }
  destruct n as [|n]. { destruct D as [L _], D' as [L' _]. destruct ds, ds'; auto; discriminate. }
  set (m := S n) in *. apply draws_for_snoc in D as (es & d & -> & D & Hd); [|lia]. apply draws_for_snoc in D' as (es' & d' & -> & D' & Hd'); [|lia].
  destruct (proj1 (draws_for_suits _ _) D) as [L S]. destruct (proj1 (draws_for_suits _ _) D') as [L' S'].
  destruct (@scripted_run _ es [] 1 (seq 0 m) [] S) as (q & _ & Eq & Pq); [rewrite seq_length; lia|].
  destruct (@scripted_run _ es' [] 1 (seq 0 m) [] S') as (q' & _ & Eq' & Pq'); [rewrite seq_length; lia|].
  rewrite L in Eq. rewrite L' in Eq'. replace (Datatypes.S m - 1) with m in * by lia.
  assert (Hm : 0 < m) by lia. rewrite (scripted_step Hm D Hd Eq) in E. rewrite (scripted_step Hm D' Hd' Eq') in E'.
  destruct (swap_at (q ++ [m]) m d) as [p1| | |] eqn:W; try discriminate. destruct (swap_at (q' ++ [m]) m d') as [p2| | |] eqn:W'; try discriminate.
  cbn [bind] in E, E'. injection E as ->. injection E' as ->.
  assert (Lq : length q = m) by (rewrite <- (Permutation_length Pq); apply seq_length).
  assert (Lq' : length q' = m) by (rewrite <- (Permutation_length Pq'); apply seq_length).
  destruct (@seq_last_spec _ _ _ _ Lq W Hd) as [Lp N]. destruct (@seq_last_spec _ _ _ _ Lq' W' Hd') as [_ N'].
  assert (d = d') as <-.
  { assert (ND : NoDup p).
    { apply (Permutation_NoDup (l := q ++ [m])); [eapply swap_perm; [|exact N]; rewrite app_length; cbn [length]; lia|].
      apply (Permutation_NoDup (l := seq 0 m ++ [m])); [now apply Permutation_app_tail|]. change [m] with (seq (0 + m) 1). rewrite <- seq_app. apply seq_NoDup. }
    assert (T : forall e, tr m e e = m). { intro e. unfold tr. destruct (Nat.eqb_spec e m); auto. now rewrite Nat.eqb_refl. }
    rewrite NoDup_nth_error in ND. apply ND; [lia|]. rewrite (N d), (N' d'), !T. rewrite !nth_error_app2 by lia. now rewrite Lq, Lq'. }
  assert (q = q') as <-.
  { apply (app_inv_tail [m]). apply nth_error_list_ext. intro k. specialize (N (tr m d k)). specialize (N' (tr m d k)). rewrite tr_invol in N, N'. congruence. }
  f_equal. eapply IH; eauto.
Qed.

Lemma permutation_once n p : Permutation p (seq 0 n) -> exists! ds, draws_for n ds /\ permutation scripted n ds = Ok p.
Proof.
  intro P. assert (W : forall ds, draws_for n ds -> permutation scripted n ds = Ok p -> shuffle_loop scripted (n - 1) 1 (seq 0 n) ds = Ok (p, [])).
  { intros ds D E. destruct (proj1 (draws_for_suits _ _) D) as [L S]. destruct n as [|n]; [destruct ds; [|discriminate]; cbn in *; congruence|].
    destruct (@scripted_run _ ds [] 1 (seq 0 (Datatypes.S n)) [] S) as (q & _ & Eq & _); [rewrite seq_length; lia|].
    unfold permutation, std_shuffle in E. rewrite seq_length in E. rewrite L in Eq. rewrite Eq in E. cbn [bind] in E. congruence. }
  destruct (@shuffle_onto _ _ P) as (ds & D & E). exists ds. split.
  - split; auto. unfold permutation, std_shuffle. rewrite seq_length, E. reflexivity.
  - intros ds' [D' E']. eapply shuffle_inj; eauto.
Qed.

(** * Counting *)
Fixpoint all_draws (k i : nat) : list (list nat) :=
  match k with 0 => [[]] | S k' => flat_map (fun d => map (cons d) (all_draws k' (S i))) (seq 0 (S i)) end.
Lemma all_draws_in k : forall i ds, In ds (all_draws k i) <-> length ds = k /\ suits i ds.
Proof.
  induction k as [|k IH]; intros i ds; cbn [all_draws].
  - split.
    + intros [<-|[]]. split; auto. intros [|?] ? [=].
    + intros [L _]. destruct ds; [now left|discriminate].
  - rewrite in_flat_map. split.
    + intros (d & Hd & H). apply in_seq in Hd. apply in_map_iff in H as (es & <- & H). apply IH in H as [L S].
      split; [cbn; lia|]. apply suits_cons; split; [lia|auto].
    + intros [L S]. destruct ds as [|d ds]; [discriminate|]. apply suits_cons in S as [Sd S]. exists d.
      split; [apply in_seq; lia|]. apply in_map. apply IH. split; auto.
Qed.
Lemma NoDup_app2 {A} (l r : list A) : NoDup l -> NoDup r -> (forall x, In x l -> ~ In x r) -> NoDup (l ++ r).
Proof.
  intros N M D. induction N as [|a l Ha N IH]; cbn; auto. constructor.
  - intro H. apply in_app_or in H as [H|H]; [auto|]. apply (D a); [now left|auto].
  - apply IH. intros x Hx. apply D. now right.
Qed.
Lemma all_draws_NoDup k : forall i, NoDup (all_draws k i).
Proof.
  induction k as [|k IH]; intro i; cbn [all_draws]; [repeat constructor; auto|].
  assert (G : forall l, NoDup l -> NoDup (flat_map (fun d => map (cons d) (all_draws k (S i))) l)).
  { intros l N. induction N as [|d l Hd N IHl]; cbn [flat_map]; [constructor|]. apply NoDup_app2; auto.
    - apply Injective_map_NoDup; [|apply IH]. intros a b [= ->]. auto.
    - intros x Hx Hy. apply in_map_iff in Hx as (u & <- & _). apply in_flat_map in Hy as (e & He & Hy). apply in_map_iff in Hy as (v & [= -> _] & _). auto. }
  apply G, seq_NoDup.
Qed.
(** i (i+1) ... (i+k-1) *)
Fixpoint rising (k : nat) (i : Z) : Z := match k with 0 => 1%Z | S k' => (i * rising k' (i + 1))%Z end.
Lemma all_draws_count k : forall i, Z.of_nat (length (all_draws k i)) = rising k (Z.of_nat i + 1).
Proof.
  induction k as [|k IH]; intro i; cbn [all_draws rising]; [reflexivity|].
  assert (G : forall l, Z.of_nat (length (flat_map (fun d => map (cons d) (all_draws k (S i))) l)) = (Z.of_nat (length l) * rising k (Z.of_nat i + 1 + 1))%Z).
  { induction l as [|d l IHl]; cbn [flat_map length]; [lia|]. rewrite app_length, map_length, !Nat2Z.inj_add, IHl, IH. 
    replace (Z.of_nat (S i) + 1)%Z with (Z.of_nat i + 1 + 1)%Z by lia. lia. }
  rewrite G, seq_length. f_equal. lia.
Qed.
Lemma rising_add k1 k2 i : rising (k1 + k2) i = (rising k1 i * rising k2 (i + Z.of_nat k1))%Z.
Proof.
  revert i; induction k1 as [|k1 IH]; intro i; cbn [plus rising]; [rewrite Z.add_0_r; lia|]. rewrite IH.
  replace (i + Z.of_nat (S k1))%Z with (i + 1 + Z.of_nat k1)%Z by lia. lia.
Qed.
Lemma rising_pos k i : (0 < i)%Z -> (0 < rising k i)%Z.
Proof. revert i; induction k as [|k IH]; intros i H; cbn [rising]; [lia|]. apply Z.mul_pos_pos; auto. apply IH; lia. Qed.

Section Seeds.
  Variables (state : Type) (draw : state -> nat -> nat * state) (init : nat -> state).
  Definition is_result (n : nat) (p : list nat) (s : nat) : bool :=
    match permutation draw n (init s) with Ok q => if list_eq_dec Nat.eq_dec q p then true else false | _ => false end.
  Definition result (n s : nat) : list nat := match permutation draw n (init s) with Ok q => q | _ => [] end.

  (** Fewer seeds than orders: some order is missing. *)
  Lemma missing_order n N : (Z.of_nat N < rising (n - 1) 2)%Z -> 2 <= n -> exists p, Permutation p (seq 0 n) /\
    forall s, s < N -> permutation draw n (init s) <> Ok p.
  Proof.
    intros H Hn. set (orders := map (fun ds => match permutation scripted n ds with Ok p => p | _ => [] end) (all_draws (n - 1) 1)).
    assert (G : forall ds, In ds (all_draws (n - 1) 1) -> draws_for n ds /\ exists p, permutation scripted n ds = Ok p /\ Permutation p (seq 0 n)).
    { intros ds D. apply all_draws_in in D as [L S]. split; [apply draws_for_suits; auto|].
      destruct (@scripted_run _ ds [] 1 (seq 0 n) [] S) as (q & _ & Eq & Pq); [rewrite seq_length; lia|].
      exists q. split; [|now apply Permutation_sym]. unfold permutation, std_shuffle. rewrite seq_length. rewrite L in Eq. rewrite Eq. reflexivity. }
    assert (ND : NoDup orders).
    { unfold orders. pose proof (all_draws_NoDup (n - 1) 1) as N0. induction N0 as [|ds l Hd N0 IH]; cbn [map]; [constructor|].
      constructor; [|apply IH; intros; apply G; now right]. intro I. apply in_map_iff in I as (es & E & I).
      destruct (G ds) as (D & p & Ep & Pp); [now left|]. destruct (G es) as (D' & p' & Ep' & _); [now right|]. rewrite Ep, Ep' in E. subst p'.
      destruct (@permutation_once _ _ Pp) as (x & _ & U). assert (ds = es) by (rewrite <- (U ds), <- (U es); auto). now subst. }
    destruct (Forall_Exists_dec (fun p => In p (map (result n) (seq 0 N)))) with (l := orders) as [F|F].
    { intro p. apply in_dec. apply list_eq_dec, Nat.eq_dec. }
    - exfalso. rewrite Forall_forall in F. pose proof (NoDup_incl_length ND F) as L. unfold orders in L. rewrite !map_length, seq_length in L.
      pose proof (all_draws_count (n - 1) 1) as C. change (Z.of_nat 1 + 1)%Z with 2%Z in C. lia.
    - apply Exists_exists in F as (p & I & F). exists p. apply in_map_iff in I as (ds & E & I). destruct (G ds I) as (_ & q & Eq & Pq). rewrite Eq in E; subst q.
      split; auto. intros s Hs E. apply F. apply in_map_iff. exists s. split; [unfold result; now rewrite E|apply in_seq; lia].
  Qed.
End Seeds.

Section Fill.
  Variables (state T : Type) (draw : state -> T -> T -> T * state) (P : T -> Prop).
  Lemma fill_spec low high : (forall s, P (fst (draw s low high))) -> forall k s, length (fst (fill draw k low high s)) = k /\ Forall P (fst (fill draw k low high s)).
  Proof.
    intro D. induction k as [|k IH]; intro s; cbn [fill]; [split; [auto|constructor]|]. pose proof (D s) as Ds.
    destruct (draw s low high) as [a s1]. specialize (IH s1). destruct (fill draw k low high s1) as [l s2]; cbn [fst] in *. destruct IH; split; [cbn; lia|constructor; auto].
  Qed.
  Lemma fill_cols_spec low high nrows : (forall s, P (fst (draw s low high))) -> forall k s,
    length (fill_cols draw k nrows low high s) = k /\ Forall (fun c => length c = nrows /\ Forall P c) (fill_cols draw k nrows low high s).
  Proof.
    intro D. induction k as [|k IH]; intro s; cbn [fill_cols]; [split; [auto|constructor]|]. pose proof (fill_spec _ _ D nrows s) as Ds.
    destruct (fill draw nrows low high s) as [c s1]; cbn [fst] in *. destruct (IH s1); split; [cbn; lia|constructor; auto].
  Qed.
End Fill.
