(** C58: random orders and random numbers. *)
From Coq Require Import Reals FinFun Psatz.
From Verif Require Import Base Common_Model RDR_Proofs Shuffle_Model Vec Optim_Spec Shuffle_Proofs Random_Model Random_Spec Random_Proofs.
Local Open Scope nat_scope.

(** Whatever the engine does, as long as the distribution keeps to its range: the orders are orders, samples stay with their
    labels, and nothing is read out of range. *)
Theorem C58_permutation : forall state (draw : state -> nat -> nat * state) n s, (forall s i, fst (draw s i) <= i) ->
  exists p, permutation draw n s = Ok p /\ Permutation p (seq 0 n).
Proof.
  intros state draw n s D. destruct (std_shuffle_perm draw (seq 0 n) s D) as (p & s' & E & P). exists p. unfold permutation. rewrite E. split; [reflexivity|now apply Permutation_sym].
Qed.
Print Assumptions C58_permutation.
(** An engine that answers with half the bound. *)
Definition halves (s : unit) (i : nat) : nat * unit := (Nat.div2 i, tt).
Lemma halves_ok s i : fst (halves s i) <= i.
Proof. cbn. apply Nat.div2_decr. lia. Qed.
Example C58_permutation_case := C58_permutation unit halves 5 tt halves_ok.
Theorem C58_shuffle : forall state (draw : state -> nat -> nat * state) A B (X : list A) (y : list B) s, (forall s i, fst (draw s i) <= i) -> length y = length X ->
  exists X' y', shuffle_data draw X y s = Ok (X', y') /\ length X' = length X /\ length y' = length y /\ Permutation (combine X y) (combine X' y').
Proof.
  intros state draw A B X y s D L. destruct (std_shuffle_perm draw (seq 0 (length X)) s D) as (p & s' & E & P). unfold shuffle_data. rewrite E; cbn [bind].
  destruct (@shuffle2_spec A B (length X) p X y) as (X' & y' & E' & R & _); [apply Permutation_sym, P|auto|auto|]. exists X', y'. split; auto.
Qed.
Print Assumptions C58_shuffle.
Example C58_shuffle_case := C58_shuffle unit halves nat bool [10; 11; 12] [true; false; true] tt halves_ok eq_refl.

(** Every order is the result of exactly one of the n! possible sequences of draws: uniform draws give uniform orders. *)
Theorem C58_every_order_once : forall n p, Permutation p (seq 0 n) -> exists! ds, draws_for n ds /\ permutation scripted n ds = Ok p.
Proof. exact permutation_once. Qed.
Print Assumptions C58_every_order_once.
Example C58_every_order_once_case := C58_every_order_once 4 [0; 2; 1; 3] (perm_skip 0 (perm_swap 1 2 [3])).
(** Every way to reorder the labelled samples can come out of a shuffle. *)
Theorem C58_every_shuffle : forall A B (X X' : list A) (y y' : list B), length y = length X -> length X' = length X -> length y' = length X' ->
  Permutation (combine X y) (combine X' y') -> exists ds, draws_for (length X) ds /\ shuffle_data scripted X y ds = Ok (X', y').
Proof.
  intros A B X X' y y' Ly LX' Ly' P. apply Permutation_sym, Permutation_nth_error in P as (Lc & f & Fi & Fn).
  set (n := length X) in *.
  assert (Fl : forall i, i < n -> f i < n).
  { intros i Hi. assert (H : nth_error (combine X y) i <> None) by (apply nth_error_Some; rewrite combine_length; fold n; lia).
    rewrite Fn in H. apply nth_error_Some in H. rewrite combine_length in H. lia. }
  assert (P : Permutation (map f (seq 0 n)) (seq 0 n)).
  { apply NoDup_Permutation_bis; [apply Injective_map_NoDup; [exact Fi|apply seq_NoDup]|rewrite map_length; lia|].
    intros j Hj. apply in_map_iff in Hj as (i & <- & Hi). apply in_seq in Hi. apply in_seq. specialize (Fl i). lia. }
  destruct (C58_every_order_once n _ P) as (ds & (D & E) & _). exists ds. split; auto. unfold shuffle_data. fold n. unfold permutation in E.
  destruct (std_shuffle scripted (seq 0 n) ds) as [[p s]| | |]; cbn [bind] in *; try discriminate. injection E as ->.
  destruct (@shuffle2_spec A B n (map f (seq 0 n)) X y P eq_refl) as (X1 & y1 & E1 & (L1 & L2 & _) & N); [lia|]. rewrite E1.
  assert (G : forall k, nth_error (combine X' y') k = nth_error (combine X1 y1) k).
  { intro k. destruct (Nat.ltb_spec k n) as [H|H].
    - assert (I : In k (map f (seq 0 n))) by (apply (Permutation_in _ (Permutation_sym P)), in_seq; lia).
      apply In_nth_error in I as (i & Ei). destruct (N i k Ei) as [N1 N2]. rewrite (nth_error_combine X1), N1, N2, <- nth_error_combine, Fn. f_equal.
      assert (Hi : i < n). { assert (H' : nth_error (map f (seq 0 n)) i <> None) by congruence. apply nth_error_Some in H'. rewrite map_length, seq_length in H'. auto. }
      rewrite nth_error_map in Ei. rewrite (nth_error_nth' (seq 0 n) 0) in Ei by (rewrite seq_length; auto). rewrite seq_nth in Ei by auto. cbn in Ei. congruence.
    - rewrite !(proj2 (nth_error_None _ k)); auto; rewrite combine_length; lia. }
  apply nth_error_list_ext in G. assert (length X1 = length y1) by lia. assert (length X' = length y') by lia.
  pose proof (combine_split X' y' ltac:(auto)) as S1. pose proof (combine_split X1 y1 ltac:(auto)) as S2. rewrite G in S1. congruence.
Qed.
Print Assumptions C58_every_shuffle.
Example C58_every_shuffle_case := C58_every_shuffle nat bool [10; 11; 12] [11; 10; 12] [true; false; true] [false; true; true] eq_refl eq_refl eq_refl (perm_swap (11, false) (10, true) [(12, true)]).

(** A fresh engine is made for every call from one 32-bit number (an [unsigned] clock reading, one word of std::random_device).
    From 13 elements on there are more orders than such numbers: whatever the engine, some orders never come out, so the orders are
    not all equally likely. *)
Theorem C58_all_orders_refuted : forall state (draw : state -> nat -> nat * state) (init : Z -> state) n, 13 <= n ->
  exists p, Permutation p (seq 0 n) /\ forall seed, (0 <= seed < 2 ^ 32)%Z -> permutation draw n (init seed) <> Ok p.
Proof.
  intros state draw init n Hn. destruct (@missing_order state draw (fun s => init (Z.of_nat s)) n (Z.to_nat (2 ^ 32))) as (p & P & M); [|lia|].
  - rewrite Z2Nat.id by lia. replace (n - 1) with (12 + (n - 13)) by lia. rewrite rising_add.
    apply Z.lt_le_trans with (rising 12 2); [reflexivity|]. pose proof (@rising_pos (n - 13) (2 + Z.of_nat 12)%Z ltac:(lia)) as R.
    assert (0 < rising 12 2)%Z by reflexivity. nia.
  - exists p. split; auto. intros seed Hs E. apply (M (Z.to_nat seed)); [apply Z2Nat.inj_lt; lia|]. rewrite Z2Nat.id by lia. exact E.
Qed.
Print Assumptions C58_all_orders_refuted.

(** k-means' random initialisation: the centres are rows of the data at different places; more centres than rows is an assertion violation. *)
Theorem C58_random_rows : forall state (draw : state -> nat -> nat * state) A (X : list A) k s, (forall s i, fst (draw s i) <= i) ->
  (length X < k -> random_rows draw X k s = UB) /\
  (k <= length X -> exists idx C, random_rows draw X k s = Ok C /\ NoDup idx /\ length idx = k /\ Forall2 (fun i c => nth_error X i = Some c) idx C).
Proof.
  intros state draw A X k s D. destruct (C58_permutation _ draw (length X) s D) as (p & E & P). unfold random_rows. rewrite E; cbn [bind].
  pose proof (Permutation_length P) as Lp. rewrite seq_length in Lp. split; intro H.
  - now rewrite (proj2 (Nat.leb_gt _ _)) by lia.
  - rewrite (proj2 (Nat.leb_le _ _)) by lia. assert (F : forall i, In i (firstn k p) -> i < length X).
    { intros i Hi. assert (Hp : In i p) by (rewrite <- (firstn_skipn k p); apply in_or_app; now left). apply (Permutation_in _ P), in_seq in Hp. lia. }
    assert (G : forall idx, (forall i, In i idx -> i < length X) -> exists C, mapM (vget X) idx = Ok C /\ Forall2 (fun i c => nth_error X i = Some c) idx C).
    { induction idx as [|i idx IH]; intro Hi; cbn [mapM]; [eauto|]. unfold vget at 1. destruct (nth_error X i) as [c|] eqn:Ec.
      - destruct IH as (C & EC & FC); [intros; apply Hi; now right|]. rewrite EC. cbn [bind]. exists (c :: C). auto.
      - apply nth_error_None in Ec. specialize (Hi i (or_introl eq_refl)). lia. }
    destruct (G _ F) as (C & EC & FC). exists (firstn k p), C. repeat split; auto.
    + assert (ND : NoDup p) by (apply (Permutation_NoDup (Permutation_sym P)), seq_NoDup). rewrite <- (firstn_skipn k p) in ND.
      revert ND. generalize (firstn k p) (skipn k p). clear. intros l r. induction l as [|a l IH]; intro ND; [constructor|].
      inversion ND as [|x m N1 N2]; subst. constructor; [|now apply IH]. intro I. apply N1. apply in_or_app. now left.
    + rewrite firstn_length; lia.
Qed.
Print Assumptions C58_random_rows.
Example C58_random_rows_case := proj2 (C58_random_rows unit halves nat [10; 11; 12; 13] 2 tt halves_ok) ltac:(cbn; lia).

(** Random matrices: the shape asked for, all entries between the limits; reversed limits are undefined. *)
Theorem C58_matrix : forall state T (leb : T -> T -> bool) (within : T -> T -> T -> Prop) (draw : state -> T -> T -> T * state) nrows ncols low high s,
  (forall s, leb low high = true -> within low high (fst (draw s low high))) ->
  (leb low high = true -> exists M, random_columns leb draw nrows ncols low high s = Ok M /\ length M = ncols /\
     forall c, In c M -> length c = nrows /\ forall a, In a c -> within low high a) /\
  (leb low high = false -> random_columns leb draw nrows ncols low high s = UB).
Proof.
  intros state T leb within draw nrows ncols low high s D. unfold random_columns. destruct (leb low high) eqn:E; split; intro H; try discriminate; auto.
  destruct (fill_cols_spec draw (within low high) _ _ nrows (fun s => D s eq_refl) ncols s) as [L F].
  eexists. split; [reflexivity|]. split; [exact L|]. intros c Hc. rewrite Forall_forall in F. destruct (F c Hc) as [Lc Fc]. split; [exact Lc|]. now apply Forall_forall.
Qed.
Print Assumptions C58_matrix.
(** An engine that answers with the middle of the range. *)
Definition middles (s : unit) (a b : Z) : Z * unit := (((a + b) / 2)%Z, tt).
Lemma middles_ok s a b : (a <= b)%Z -> (a <= fst (middles s a b) <= b)%Z.
Proof. intros H. cbn. split; [apply Z.div_le_lower_bound|apply Z.div_le_upper_bound]; lia. Qed.
Example C58_matrix_case := proj1 (C58_matrix unit Z Z.leb (fun a b x => (a <= x <= b)%Z) middles 3 2 (-5)%Z 6%Z tt
  ltac:(intros s H; apply middles_ok; apply Z.leb_le; exact H)) eq_refl.
(** The first centre of k-means++ is one of the rows, and can be any of them; without rows the limits are taken modulo 2^64. *)
Theorem C58_first_center : forall state (draw : state -> Z -> Z -> Z * state) n s, 0 < n -> (Z.of_nat n <= 2 ^ 64)%Z ->
  (forall s low high, (low <= high)%Z -> (low <= fst (draw s low high) <= high)%Z) ->
  exists c, first_center draw n s = Ok c /\ (0 <= c < Z.of_nat n)%Z.
Proof.
  intros state draw n s H H64 D. unfold first_center. rewrite Z.mod_small by lia.
  destruct (C58_matrix state Z Z.leb (fun lo hi a => (lo <= a <= hi)%Z) draw 1 1 0%Z (Z.of_nat n - 1)%Z s) as [(M & E & L & F) _].
  - intros s' Hs. apply D. now apply Z.leb_le.
  - apply Z.leb_le. lia.
  - rewrite E; cbn [bind]. destruct M as [|c M]; [discriminate|]. destruct (F c (or_introl eq_refl)) as [Lc Fc].
    destruct c as [|a c]; [discriminate|]. cbn. exists a. split; auto. specialize (Fc a (or_introl eq_refl)). lia.
Qed.
Print Assumptions C58_first_center.
Example C58_first_center_case := C58_first_center unit middles 7 tt ltac:(lia) ltac:(lia) middles_ok.
Theorem C58_first_center_any : forall n i, (Z.of_nat n <= 2 ^ 64)%Z -> (0 <= i < Z.of_nat n)%Z ->
  exists draw : unit -> Z -> Z -> Z * unit, (forall s low high, (low <= high)%Z -> (low <= fst (draw s low high) <= high)%Z) /\ first_center draw n tt = Ok i.
Proof.
  intros n i H64 Hi. exists (fun s lo hi => (Z.max lo (Z.min i hi), s)). split; [cbn; intros; lia|]. unfold first_center, random_columns.
  rewrite Z.mod_small by lia. rewrite (proj2 (Z.leb_le _ _)) by lia. cbn. f_equal. lia.
Qed.
Print Assumptions C58_first_center_any.
Example C58_first_center_any_case := C58_first_center_any 7 3 ltac:(lia) ltac:(lia).
Theorem C58_no_rows_refuted : exists draw : unit -> Z -> Z -> Z * unit, (forall s low high, (low <= high)%Z -> (low <= fst (draw s low high) <= high)%Z) /\
  first_center draw 0 tt = Ok (2 ^ 64 - 1)%Z.
Proof. exists (fun s lo hi => (hi, s)). split; [cbn; intros; lia|reflexivity]. Qed.
Print Assumptions C58_no_rows_refuted.

Example C58_case : permutation scripted 5 [1; 0; 3; 2] = Ok [2; 1; 4; 3; 0] /\ draws_for 5 [1; 0; 3; 2].
Proof. split; [reflexivity|]. split; [reflexivity|]. intros [|[|[|[|i]]]] d; cbn; intro E; try (injection E as <-; lia). destruct i; discriminate. Qed.
Example C58_case_shuffle : shuffle_data scripted [10; 11; 12] [true; false; true] [0; 1] = Ok ([12; 10; 11], [true; true; false]).
Proof. reflexivity. Qed.
