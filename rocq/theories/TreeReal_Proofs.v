From Coq Require Import Reals Lra QArith.
From Verif Require Import Base Tree_Model Tree_Spec Tree_Proofs KDReal_Proofs Impurity_Model Impurity_Spec Impurity_Proofs.
Local Open Scope R_scope.
Set Implicit Arguments.

Lemma Rltb_order : total_order Rltb.
Proof. constructor; [exact Rltb_irrefl|exact Rltb_trans|exact Rltb_total]. Qed.
Lemma Rgtb_order : weak_order Rgtb.
Proof.
  constructor; unfold Rgtb.
  - exact Rltb_irrefl.
  - intros a b c H1 H2. eapply Rltb_trans; eassumption.
  - intros a b c. rewrite !Rltb_false. lra.
Qed.
Lemma Rgtb_true a b : Rgtb a b = true <-> a > b.
Proof. unfold Rgtb. rewrite Rltb_true. lra. Qed.
Lemma Rgtb_false a b : Rgtb a b = false <-> a <= b.
Proof. unfold Rgtb. rewrite Rltb_false. lra. Qed.
Lemma dbl_min_pos : 0 < dbl_min.
Proof. apply Rinv_0_lt_compat, pow_lt. lra. Qed.
Lemma dbl_min_half : dbl_min < 1 / 2.
Proof.
  unfold dbl_min, Rdiv. rewrite Rmult_1_l. apply Rinv_lt_contravar; [apply Rmult_lt_0_compat; [lra|apply pow_lt; lra]|].
  rewrite <- (pow_1 2) at 1. apply Rlt_pow; [lra|]. apply Nat.ltb_lt. reflexivity.
Qed.

Lemma combine_fst {A B} (X : list A) (y : list B) : length y = length X -> map fst (combine X y) = X.
Proof. revert y. induction X as [|a X IH]; intros [|b y] H; simpl in *; try discriminate; [reflexivity|]. f_equal. apply IH. lia. Qed.
Lemma combine_snd {A B} (X : list A) (y : list B) : length y = length X -> map snd (combine X y) = y.
Proof. revert y. induction X as [|a X IH]; intros [|b y] H; simpl in *; try discriminate; [reflexivity|]. f_equal. apply IH. lia. Qed.

(** * Arg max *)
Definition first_max (l : list nat) (k : nat) : Prop :=
  exists m, nth_error l k = Some m /\ forall j c, nth_error l j = Some c -> (c <= m)%nat /\ ((j < k)%nat -> (c < m)%nat).

Lemma scan_best_spec l : forall pre best_i best,
  nth_error pre best_i = Some best ->
  (forall j c, nth_error pre j = Some c -> (c <= best)%nat /\ ((j < best_i)%nat -> (c < best)%nat)) ->
  first_max (pre ++ l) (scan_best (fun a b => b <? a)%nat l (length pre) best_i best).
Proof.
  induction l as [|x l IH]; intros pre bi b Hb Hall; cbn [scan_best].
  - rewrite app_nil_r. exists b. auto.
  - replace (pre ++ x :: l) with ((pre ++ [x]) ++ l) by (rewrite <- app_assoc; reflexivity).
    replace (S (length pre)) with (length (pre ++ [x])) by (rewrite app_length; simpl; lia).
    assert (Hbi : (bi < length pre)%nat) by (apply nth_error_Some; congruence).
    destruct (Nat.ltb_spec b x); apply IH.
    + rewrite nth_error_app2, Nat.sub_diag by lia. reflexivity.
    + intros j c Hj. destruct (le_lt_dec (length pre) j) as [Hle|Hlt].
      * rewrite nth_error_app2 in Hj by assumption. destruct (j - length pre)%nat eqn:Ej.
        { simpl in Hj. injection Hj as <-. split; [lia|intros; lia]. }
        { destruct n; discriminate. }
      * rewrite nth_error_app1 in Hj by assumption. destruct (Hall j c Hj). split; [lia|intros; lia].
    + rewrite nth_error_app1 by assumption. assumption.
    + intros j c Hj. destruct (le_lt_dec (length pre) j) as [Hle|Hlt].
      * rewrite nth_error_app2 in Hj by assumption. destruct (j - length pre)%nat eqn:Ej.
        { simpl in Hj. injection Hj as <-. split; [lia|intros; lia]. }
        { destruct n; discriminate. }
      * rewrite nth_error_app1 in Hj by assumption. auto.
Qed.
Lemma arg_best_spec l : l <> [] -> exists k, arg_best (fun a b => b <? a)%nat l = Ok k /\ first_max l k.
Proof.
  destruct l as [|x l]; [congruence|]. intros _. eexists. split; [reflexivity|].
  apply (@scan_best_spec l [x] 0%nat x); [reflexivity|]. intros [|j] c; simpl; [intros [= <-]; split; [lia|intros; lia]|].
  destruct j; discriminate.
Qed.

Lemma scan_best_map {A B} (f : A -> B) (b1 : A -> A -> bool) (b2 : B -> B -> bool) l : (forall x y, b2 (f x) (f y) = b1 x y) ->
  forall i bi b, scan_best b2 (map f l) i bi (f b) = scan_best b1 l i bi b.
Proof. intros H. induction l as [|x l IH]; intros i bi b; cbn [map scan_best]; [reflexivity|]. rewrite H. destruct (b1 x b); apply IH. Qed.
Lemma scan_best_none {A} (b : A -> A -> bool) l x i bi : (forall y, In y l -> b y x = false) -> scan_best b l i bi x = bi.
Proof.
  revert i. induction l as [|y l IH]; intros i H; cbn [scan_best]; [reflexivity|]. rewrite H by now left. apply IH.
  intros z Hz. apply H. now right.
Qed.

Lemma prob_gtb_counts (t a b : nat) : (0 < t)%nat ->
  prob_gtb (Some (inject_Z (Z.of_nat a) / inject_Z (Z.of_nat t))%Q) (Some (inject_Z (Z.of_nat b) / inject_Z (Z.of_nat t))%Q) = (b <? a)%nat.
Proof.
  intros Ht. unfold prob_gtb.
  assert (E : Qle_bool (inject_Z (Z.of_nat a) / inject_Z (Z.of_nat t)) (inject_Z (Z.of_nat b) / inject_Z (Z.of_nat t)) = (a <=? b)%nat).
  { apply eq_true_iff_eq. rewrite Qle_bool_iff, Nat.leb_le. unfold Qdiv.
    assert (Hp : (0 < / inject_Z (Z.of_nat t))%Q) by (apply Qinv_lt_0_compat; unfold Qlt; simpl; lia).
    rewrite (Qmult_le_r _ _ _ Hp). rewrite <- Zle_Qle. lia. }
  rewrite E. destruct (Nat.leb_spec a b), (Nat.ltb_spec b a); try lia; reflexivity.
Qed.

Lemma argmax_probabilities counts : arg_best prob_gtb (probabilities counts) =
  if (fold_right plus 0 counts =? 0)%nat then (match counts with [] => UB | _ => Ok 0%nat end)
  else arg_best (fun a b => b <? a)%nat counts.
Proof.
  unfold probabilities. destruct (Nat.eqb_spec (fold_right plus 0%nat counts) 0) as [E|E].
  - destruct counts as [|c cs]; [reflexivity|]. cbn [map arg_best]. f_equal. apply scan_best_none. intros y _. destruct y; reflexivity.
  - destruct counts as [|c cs]; [reflexivity|]. cbn [map arg_best]. f_equal.
    apply (@scan_best_map _ _ (fun c0 => Some (inject_Z (Z.of_nat c0) / inject_Z (Z.of_nat (fold_right plus 0%nat (c :: cs))))%Q)).
    intros x y. apply prob_gtb_counts. lia.
Qed.

(** * Classifier *)
Notation rcount := (count_occ Req_EM_T).

Lemma class_value_spec labels ys : labels <> [] ->
  exists k, class_value Rltb labels ys = Ok (map (fun l => rcount ys l) (map fst labels), k, false) /\
            first_max (map (fun l => rcount ys l) (map fst labels)) k.
Proof.
  intros Hl. unfold class_value.
  replace (map _ labels) with (map (fun l => rcount ys l) (map fst labels)).
  2: { rewrite map_map. apply map_ext. intros (k & c). cbn [fst].
       destruct (counts_nil Rltb_order Req_EM_T ys) as (_ & _ & _ & H). rewrite H.
       destruct (Nat.eqb_spec (rcount ys k) 0); auto. }
  destruct (@arg_best_spec (map (fun l => rcount ys l) (map fst labels))) as (k & E & H).
  { destruct labels; [congruence|discriminate]. }
  rewrite E. cbn [bind]. eauto.
Qed.

Lemma fit_labels_spec X y : length y = length X -> fit_labels Rltb [] X y = Ok (fold_left (count_label Rltb) y []).
Proof.
  intros H. unfold fit_labels. rewrite <- H.
  rewrite (mapM_Ok _ (fun i => nth i y 0)) by (intros i Hi; apply in_seq in Hi; apply vget_Ok; lia).
  cbn [bind]. now rewrite map_nth_seq_id.
Qed.

Lemma class_gain_defined c y l r : c <> OtherCriterion -> exists g, class_gain Rltb c y l r = Ok g.
Proof.
  intros Hc. unfold class_gain.
  assert (G : forall x, exists v, gini Rltb x [] = Ok v).
  { intros x. destruct (counts_nil Rltb_order Req_EM_T x) as (_ & H & _). eexists. exact (gini_formula Rltb_order Req_EM_T H). }
  assert (E : forall x, exists v, entropy Rltb x [] = Ok v).
  { intros x. destruct (counts_nil Rltb_order Req_EM_T x) as (_ & H & _). eexists. exact (entropy_formula Rltb_order Req_EM_T H). }
  destruct c; [| |congruence].
  - destruct (G l) as (a & ->), (G r) as (b & ->). cbn [bind]. eauto.
  - destruct (E y) as (a & ->), (E l) as (b & ->), (E r) as (d & ->). cbn [bind]. eauto.
Qed.

(** * Regressor *)
Lemma mean_vec_ok y : y <> [] -> mean_vec y = Ok (total y / INR (length y)).
Proof. destruct y as [|a y]; [congruence|]. intros _. unfold mean_vec. now rewrite Rsum_total. Qed.
Lemma var_vec_ok y : y <> [] -> exists v, var_vec y = Ok v.
Proof.
  intros H. unfold var_vec. rewrite mean_vec_ok by assumption. cbn [bind]. rewrite mean_vec_ok by (destruct y; [congruence|discriminate]).
  cbn [bind]. eauto.
Qed.
Lemma reg_value_inv ms y v stop : reg_value ms y = Ok (v, stop) -> y <> [] /\ v = total y / INR (length y).
Proof.
  unfold reg_value. destruct y as [|a y]; [discriminate|]. rewrite mean_vec_ok by discriminate. cbn [bind].
  intros [= <- _]. split; [discriminate|reflexivity].
Qed.
Lemma reg_value_ok ms y : y <> [] -> exists r, reg_value ms y = Ok r.
Proof. intros H. unfold reg_value. rewrite mean_vec_ok by assumption. cbn [bind]. eauto. Qed.

Lemma Rmin_case_or a b : Rmin a b = a \/ Rmin a b = b.
Proof. unfold Rmin. destruct (Rle_dec a b); auto. Qed.
Lemma Rmax_case_or a b : Rmax a b = a \/ Rmax a b = b.
Proof. unfold Rmax. destruct (Rle_dec a b); auto. Qed.
Lemma mean_bounds y : y <> [] -> exists lo hi, In lo y /\ In hi y /\ lo <= total y / INR (length y) <= hi.
Proof.
  intros H. assert (G : exists lo hi, In lo y /\ In hi y /\ INR (length y) * lo <= total y <= INR (length y) * hi).
  { induction y as [|a [|b y] IH]; [congruence| |].
    - exists a, a. simpl. repeat split; auto; lra.
    - destruct IH as (lo & hi & H1 & H2 & H3); [discriminate|].
      assert (Hp : 0 < INR (length (b :: y))) by (apply lt_0_INR; simpl; lia).
      exists (Rmin a lo), (Rmax a hi).
      split; [destruct (Rmin_case_or a lo) as [-> | ->]; [now left|now right]|].
      split; [destruct (Rmax_case_or a hi) as [-> | ->]; [now left|now right]|].
      change (total (a :: b :: y)) with (a + total (b :: y)). change (length (a :: b :: y)) with (S (length (b :: y))). rewrite S_INR.
      pose proof (Rmin_l a lo). pose proof (Rmin_r a lo). pose proof (Rmax_l a hi). pose proof (Rmax_r a hi). 
      assert (INR (length (b :: y)) * Rmin a lo <= INR (length (b :: y)) * lo) by (apply Rmult_le_compat_l; lra).
      assert (INR (length (b :: y)) * hi <= INR (length (b :: y)) * Rmax a hi) by (apply Rmult_le_compat_l; lra). lra. }
  destruct G as (lo & hi & H1 & H2 & H3). exists lo, hi. split; [assumption|]. split; [assumption|].
  assert (Hp : 0 < INR (length y)) by (apply lt_0_INR; destruct y; [congruence|simpl; lia]).
  split; (apply Rmult_le_reg_r with (INR (length y)); [assumption|]); unfold Rdiv; rewrite Rmult_assoc, Rinv_l by lra; lra.
Qed.

Lemma reg_gain_cases c y l r : c <> OtherRegCriterion -> reg_gain c y l r = UB \/ exists g, reg_gain c y l r = Ok g.
Proof.
  intros Hc. assert (M : forall x, mean_vec x = UB \/ exists m, mean_vec x = Ok m) by (intros [|a x]; [now left|right; eexists; reflexivity]).
  assert (V : forall x, var_vec x = UB \/ exists m, var_vec x = Ok m).
  { intros x. unfold var_vec. destruct (M x) as [-> |(m & ->)]; [now left|]. cbn [bind].
    destruct (M (map (fun v => v * v) x)) as [-> |(m2 & ->)]; [now left|right; eexists; reflexivity]. }
  destruct c; [| |congruence]; unfold reg_gain.
  - destruct (V y) as [-> |(a & ->)]; [now left|]. destruct (V l) as [-> |(b & ->)]; [now left|].
    destruct (V r) as [-> |(d & ->)]; [now left|right; eexists; reflexivity].
  - destruct (_ && _ && _); eauto.
Qed.

(** * Small real data sets *)
Ltac Rlt_cases := repeat match goal with |- context[Rltb ?a ?b] => (rewrite (proj2 (Rltb_true a b)) by lra) || (rewrite (proj2 (Rltb_false a b)) by lra) end.

Definition rows3 (x1 x2 x3 y1 y2 y3 : R) : list (list R * R) := combine [[x1];[x2];[x3]] [y1;y2;y3].

Lemma candidate3 x1 x2 x3 y1 y2 y3 t : x1 <= x2 <= x3 ->
  (candidate Rltb Rmid (rows3 x1 x2 x3 y1 y2 y3) 0 t <-> t = (x1 + x2) / 2 \/ t = (x2 + x3) / 2).
Proof.
  intros H. rewrite (@candidate_column R Rltb Rmid (rows3 x1 x2 x3 y1 y2 y3) 0 [x1;x2;x3] t) by reflexivity.
  assert (HS : StronglySorted (fun u v => Rltb v u = false) [x1;x2;x3]).
  { repeat constructor; apply Rltb_false; lra. }
  split.
  - intros (s & i & a & b & HP & Hs & Ha & Hb & ->).
    assert (s = [x1;x2;x3]) as -> by (apply (sorted_perm_unique Rltb_order); assumption).
    destruct i as [|[|[|i]]]; simpl in Ha, Hb; try discriminate; injection Ha as <-; injection Hb as <-; auto.

  - intros [-> | ->]; [exists [x1;x2;x3], 0%nat, x1, x2|exists [x1;x2;x3], 1%nat, x2, x3]; repeat split; auto.
Qed.

Lemma gini_pure x : x <> [] -> (forall a b, In a x -> In b x -> a = b) -> gini Rltb x [] = Ok 0.
Proof.
  intros Hx H. destruct (counts_nil Rltb_order Req_EM_T x) as (_ & HL & _).
  rewrite (gini_formula Rltb_order Req_EM_T HL). f_equal. now apply (gini_zero Req_EM_T Hx HL).
Qed.
Lemma gini_range x : x <> [] -> exists g, gini Rltb x [] = Ok g /\ 0 <= g < 1 /\ (g = 0 -> forall a b, In a x -> In b x -> a = b).
Proof.
  intros Hx. destruct (counts_nil Rltb_order Req_EM_T x) as (_ & HL & _).
  rewrite (gini_formula Rltb_order Req_EM_T HL). eexists. split; [reflexivity|]. split.
  - pose proof (gini_bounds Req_EM_T Hx HL) as H.
    assert (0 < / INR (length (map fst (fold_left (count_label Rltb) x [])))).
    { apply Rinv_0_lt_compat, lt_0_INR. pose proof (labels_nonempty Hx HL). destruct (map fst _); [congruence|simpl; lia]. }
    lra.
  - apply (gini_zero Req_EM_T Hx HL).
Qed.
Lemma gini_nil : gini Rltb [] [] = Ok 1.
Proof. unfold gini, class_probs. simpl. f_equal. ring. Qed.

(** * Distinct feature values keep both sides of every candidate inhabited *)
Definition column_distinct (nf : nat) (D : list (list R * R)) : Prop :=
  forall f, (f < nf)%nat -> NoDup (map (fun e => nth_error (fst e) f) D).

Lemma NoDup_map_filter {A B} (g : A -> B) (h : A -> bool) l : NoDup (map g l) -> NoDup (map g (filter h l)).
Proof.
  induction l as [|a l IH]; simpl; [auto|]. intros H. inversion H as [|? ? H1 H2]; subst.
  destruct (h a); [|auto]. simpl. constructor; [|auto]. intros Hin. apply H1. apply in_map_iff in Hin.
  destruct Hin as (b & <- & Hb). apply filter_In in Hb. apply in_map, Hb.
Qed.
Lemma sorted_adjacent {A} (Rel : A -> A -> Prop) s i a b : StronglySorted Rel s -> nth_error s i = Some a -> nth_error s (S i) = Some b -> Rel a b.
Proof.
  intros H. revert i. induction H as [|x s Hs IH Ha]; intros [|i] H1 H2; try discriminate.
  - cbn in H1. injection H1 as <-. rewrite Forall_forall in Ha. apply Ha. apply (nth_error_In s 0). exact H2.
  - simpl in H1, H2. eauto.
Qed.
Lemma candidate_between nf D f t : column_distinct nf D -> (f < nf)%nat -> candidate Rltb Rmid D f t ->
  (exists e a, In e D /\ nth_error (fst e) f = Some a /\ a < t) /\ (exists e b, In e D /\ nth_error (fst e) f = Some b /\ t < b).
Proof.
  intros HD Hf (s & i & a & b & HP & HS & Ha & Hb & ->). specialize (HD f Hf).
  assert (Hle : a <= b) by (apply Rltb_false; eapply (sorted_adjacent (Rel := fun u v : R => Rltb v u = false)); eassumption).
  assert (ND : NoDup s). { apply (NoDup_map_inv (@Some R)). eapply Permutation_NoDup; [symmetry; exact HP|exact HD]. }
  assert (Hne : a <> b).
  { intros ->. assert (i = S i); [|lia]. rewrite NoDup_nth_error in ND. apply ND; [|congruence]. apply nth_error_Some. congruence. }
  assert (Hin : forall v, In v s -> exists e, In e D /\ nth_error (fst e) f = Some v).
  { intros v Hv. apply (in_map Some) in Hv. apply (Permutation_in _ HP) in Hv. apply in_map_iff in Hv. destruct Hv as (e & E & He). eauto. }
  destruct (Hin a) as (ea & H1 & H2); [eapply nth_error_In; exact Ha|].
  destruct (Hin b) as (eb & H3 & H4); [eapply nth_error_In; exact Hb|].
  unfold Rmid. split; [exists ea, a|exists eb, b]; repeat split; auto; lra.
Qed.
Lemma candidate_sides nf D f t : column_distinct nf D -> (f < nf)%nat -> candidate Rltb Rmid D f t ->
  filter (fun e => goes_left Rltb f t (fst e)) D <> [] /\ filter (fun e => negb (goes_left Rltb f t (fst e))) D <> [].
Proof.
  intros HD Hf Hc. destruct (candidate_between HD Hf Hc) as ((e1 & a & H1 & H2 & H3) & (e2 & b & H4 & H5 & H6)).
  split; intros E.
  - assert (In e1 []); [|contradiction]. rewrite <- E. apply filter_In. split; [assumption|]. unfold goes_left. rewrite H2.
    apply negb_true_iff, Rltb_false. lra.
  - assert (In e2 []); [|contradiction]. rewrite <- E. apply filter_In. split; [assumption|]. unfold goes_left. rewrite H5.
    apply negb_true_iff, negb_false_iff, Rltb_true. lra.
Qed.

Lemma filter_none {A} (f : A -> bool) l : (forall a, In a l -> f a = false) -> filter f l = [].
Proof. induction l as [|a l IH]; intros H; simpl; [reflexivity|]. rewrite H by now left. apply IH. intros. apply H. now right. Qed.

(** A maximum that occurs twice is its own midpoint candidate. *)
Lemma tied_candidate c m i j : i <> j -> nth_error c i = Some m -> nth_error c j = Some m -> (forall u, In u c -> u <= m) ->
  exists s k a b, Permutation s c /\ StronglySorted (fun u v => Rltb v u = false) s /\
    nth_error s k = Some a /\ nth_error s (S k) = Some b /\ m = Rmid a b.
Proof.
  intros Hij Hi Hj Hmax.
  assert (Hc : (2 <= count_occ Req_EM_T c m)%nat).
  { assert (G : forall c i j, (i < j)%nat -> nth_error c i = Some m -> nth_error c j = Some m -> (2 <= count_occ Req_EM_T c m)%nat).
    { clear. induction c as [|a c IH]; intros [|i] [|j] Hij Hi Hj; try lia; try discriminate.
      - simpl in Hi, Hj. injection Hi as ->. simpl. destruct (Req_EM_T m m); [|congruence].
        apply nth_error_In, (count_occ_In Req_EM_T) in Hj. lia.
      - simpl. destruct (Req_EM_T a m); simpl in Hi, Hj; specialize (IH i j ltac:(lia) Hi Hj); lia. }
    destruct (Nat.lt_total i j) as [H|[H|H]]; [eapply G|congruence|eapply G]; eauto. }
  set (c' := filter (fun u => if Req_EM_T u m then false else true) c).
  set (s0 := Sorting.isort Rltb c').
  assert (HP : Permutation c (c' ++ repeat m (count_occ Req_EM_T c m))).
  { unfold c'. clear. induction c as [|a c IH]; simpl; [constructor|]. destruct (Req_EM_T a m) as [->|Hne].
    - simpl. rewrite <- Permutation_middle. now constructor.
    - simpl. now constructor. }
  exists (s0 ++ repeat m (count_occ Req_EM_T c m)), (length s0), m, m.
  assert (Hc2 : exists n, count_occ Req_EM_T c m = S (S n)).
  { destruct (count_occ Req_EM_T c m) as [|[|n]]; [lia|lia|now exists n]. }
  split; [|split; [|split; [|split]]].
  - etransitivity; [|symmetry; exact HP]. apply Permutation_app_tail. symmetry. apply Sorting.isort_perm.
  - apply sorted_app_iff. split; [apply (sort_sorted Rltb_order)|]. split.
    + generalize (count_occ Req_EM_T c m). clear. intros n. induction n as [|n IH]; simpl; constructor; [assumption|].
      apply Forall_forall. intros x Hx. apply repeat_spec in Hx. subst. apply Rltb_irrefl.
    + intros a b Ha Hb. apply repeat_spec in Hb. subst b. apply Rltb_false. apply Sorting.isort_In in Ha. unfold c' in Ha.
      apply filter_In in Ha. now apply Hmax.
  - rewrite nth_error_app2, Nat.sub_diag by lia. destruct Hc2 as (n & ->). reflexivity.
  - rewrite nth_error_app2 by lia. replace (S (length s0) - length s0)%nat with 1%nat by lia. destruct Hc2 as (n & ->). reflexivity.
  - unfold Rmid. lra.
Qed.
