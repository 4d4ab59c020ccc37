(** C23-C26: decision trees; C43: entropy and Gini index. *)
From Coq Require Import Reals Lra QArith.
From Verif Require Import Base Tree_Model Tree_Spec Tree_Proofs KDReal_Proofs Impurity_Model Impurity_Spec Impurity_Proofs TreeReal_Proofs.
Local Open Scope nat_scope.

(** * C23: split search *)

(** For any scalar type with a total order, any midpoint function and any gain (possibly undefined
    or throwing) into a weakly ordered type: whenever the search returns, it returns the first
    candidate of greatest gain, provided it beats the floor, or reports that no candidate does. *)
Theorem C23_best_split :
  forall T (lt : T -> T -> bool) (mid : T -> T -> T) I (gt : I -> I -> bool) (floor : I) gain nf X y b w,
    total_order lt -> weak_order gt -> matrix nf X -> length y = length X ->
    best_split lt mid gt floor gain nf X y = Ok (b, w) ->
    match w with
    | None => b = floor /\ none_better lt mid nf gain gt floor (combine X y)
    | Some (f, t) => first_best lt mid nf gain gt floor (combine X y) f t b
    end.
Proof.
  intros T lt mid I gt floor gain nf X y b w HT HI HM Hl E.
  rewrite <- (combine_fst X y Hl) in E at 1. rewrite <- (combine_snd X y Hl) in E at 2.
  apply (best_split_Ok mid HT HI) in E; [|now rewrite combine_fst]. destruct w as [[f t]|]; [apply E|exact E].
Qed.
Print Assumptions C23_best_split.
Lemma Zltb_order : total_order Z.ltb.
Proof. constructor; [intros a; apply Z.ltb_irrefl|intros a b c; rewrite !Z.ltb_lt; lia|intros a b; rewrite !Z.ltb_ge; lia]. Qed.
Lemma nat_gt_order : weak_order (fun a b => b <? a).
Proof. constructor; [intros a; apply Nat.ltb_irrefl|intros a b c; rewrite !Nat.ltb_lt; lia|intros a b c; rewrite !Nat.ltb_ge; lia]. Qed.
Lemma four_rows : matrix 2 [[2;8];[6;8];[4;2];[8;4]]%Z.
Proof. intros r [<-|[<-|[<-|[<-|[]]]]]; reflexivity. Qed.
Example C23_best_split_case := C23_best_split _ _ (fun a b => (a + b) / 2)%Z _ _ 0 (fun _ l r => Ok (length l * length r)) 2
    [[2;8];[6;8];[4;2];[8;4]]%Z [1;0;1;0]%Z 4 (Some (0, 5%Z)) Zltb_order nat_gt_order four_rows eq_refl eq_refl.

(** With three or more rows and gains defined on the candidates it does return. *)
Theorem C23_defined :
  forall T (lt : T -> T -> bool) (mid : T -> T -> T) I (gt : I -> I -> bool) (floor : I) gain nf X y,
    total_order lt -> matrix nf X -> length y = length X -> 3 <= length X ->
    (forall f t, f < nf -> candidate lt mid (combine X y) f t -> exists g, gain_at lt gain (combine X y) f t = Ok g) ->
    exists b w, best_split lt mid gt floor gain nf X y = Ok (b, w).
Proof.
  intros T lt mid I gt floor gain nf X y HT HM Hl Hn Hg.
  destruct (best_split_defined HT gt floor gain (nf := nf) (D := combine X y) (mid := mid)) as ([b w] & E).
  - now rewrite combine_fst.
  - rewrite combine_length. lia.
  - exact Hg.
  - exists b, w. rewrite <- E, combine_fst, combine_snd by assumption. reflexivity.
Qed.
Print Assumptions C23_defined.
Example C23_defined_case := C23_defined _ _ (fun a b => (a + b) / 2)%Z _ (fun a b => b <? a) 0 (fun _ l r => Ok (length l * length r)) 2
    [[2;8];[6;8];[4;2];[8;4]]%Z [1;0;1;0]%Z Zltb_order four_rows eq_refl ltac:(cbn; lia) ltac:(intros f t _ _; eexists; reflexivity).

(** With one or two rows the search reads outside the column. *)
Theorem C23_small_refuted :
  forall T (lt : T -> T -> bool) (mid : T -> T -> T) I (gt : I -> I -> bool) (floor : I) gain nf X y,
    matrix nf X -> length y = length X -> 0 < nf -> length X = 1 \/ length X = 2 ->
    best_split lt mid gt floor gain nf X y = UB.
Proof.
  intros T lt mid I gt floor gain nf X y HM Hl Hnf Hn.
  rewrite <- (combine_fst X y Hl) at 1. rewrite <- (combine_snd X y Hl) at 2.
  apply best_split_small; [now rewrite combine_fst|assumption|]. rewrite combine_length. lia.
Qed.
Print Assumptions C23_small_refuted.

(** Integers doubled so that midpoints are exact; gain: number of targets on the left. *)
Example C23_case :
  best_split Z.ltb (fun a b => (a + b) / 2)%Z (fun a b => b <? a) 0 (fun _ l r => Ok (length l * length r)) 2
    [[2;8];[6;8];[4;2];[8;4]]%Z [1;0;1;0]%Z = Ok (4, Some (0, 5%Z)) /\
  candidate Z.ltb (fun a b => (a + b) / 2)%Z (combine [[2;8];[6;8];[4;2];[8;4]]%Z [1;0;1;0]%Z) 0 5%Z.
Proof.
  split; [reflexivity|]. exists [2;4;6;8]%Z, 1, 4%Z, 6%Z. repeat split.
  - simpl. apply perm_skip. apply perm_swap.
  - repeat (constructor; try reflexivity).
Qed.

(** * C24: structure *)

(** For any scalar type, gain, node value function and parameters: every node of a fitted tree lies
    at depth at most max_depth + 1; its size and value come from exactly the training rows that
    satisfy the comparisons along its path; a split node carries the first best candidate of
    those rows, respects all growth limits, and its rows are shared out between the two sides; the
    child on a side exists exactly when the side has min_samples_leaf rows; a node without
    split has a reason. *)
Theorem C24_structure :
  forall T (lt : T -> T -> bool) (mid : T -> T -> T) I (gt : I -> I -> bool) (floor : I) gain V
         (node_value : list T -> outcome (V * bool)) nf (P : params I) X y t,
    total_order lt -> weak_order gt -> matrix nf X -> length y = length X ->
    grow lt mid gt floor gain node_value nf P X y = Ok t ->
    t <> Null /\
    forall p i l r, node_at t p = Node i l r ->
      let D := rows_at lt t p (combine X y) in
      length p <= S (max_depth P) /\
      n_samples i = length D /\
      exists stop, node_value (map snd D) = Ok (n_value i, stop) /\
      match n_split i with
      | Some (f, th, g) =>
          stop = false /\ min_samples_split P <= length D /\ length p <= max_depth P /\
          first_best lt mid nf gain gt floor D f th g /\ gt g (min_decrease P) = true /\
          Permutation D (rows_at lt t (p ++ [true]) (combine X y) ++ rows_at lt t (p ++ [false]) (combine X y)) /\
          (l <> Null <-> min_samples_leaf P <= length (rows_at lt t (p ++ [true]) (combine X y))) /\
          (r <> Null <-> min_samples_leaf P <= length (rows_at lt t (p ++ [false]) (combine X y)))
      | None =>
          l = Null /\ r = Null /\
          (stop = true \/ length D < min_samples_split P \/ max_depth P < length p \/
           none_better lt mid nf gain gt floor D \/
           exists f th g, first_best lt mid nf gain gt floor D f th g /\ gt g (min_decrease P) = false)
      end.
Proof.
  intros T lt mid I gt floor gain V node_value nf P X y t HT HI HM Hl E. unfold grow in E.
  split; [eapply build_not_null; exact E|].
  rewrite <- (combine_fst X y Hl) in E at 1. rewrite <- (combine_snd X y Hl) in E at 2.
  assert (HM' : matrix nf (map fst (combine X y))) by now rewrite combine_fst.
  intros p i l r Hp D. split.
  { apply (build_depth mid HT HI) with (p := p) in E; [simpl in E; lia|assumption|lia|rewrite Hp; discriminate]. }
  pose proof (build_nodes mid HT HI _ _ _ _ _ _ _ HM' E p) as H. unfold node_ok in H. rewrite Hp in H. simpl in H. fold D in H.
  destruct H as (H1 & stop & H2 & H3). split; [assumption|]. exists stop. split; [assumption|].
  destruct (n_split i) as [[[f th] g]|] eqn:Es; [|assumption].
  destruct H3 as (A1 & A2 & A3 & A4 & A5 & A6 & A7). repeat (split; [assumption|]). split; [|split; assumption].
  eapply rows_at_partition; eassumption.
Qed.
Print Assumptions C24_structure.

(** The depth bound is the only one: the recursion always ends within it. *)
Theorem C24_terminates :
  forall T (lt : T -> T -> bool) (mid : T -> T -> T) I (gt : I -> I -> bool) (floor : I) gain V
         (node_value : list T -> outcome (V * bool)) nf (P : params I) X y,
    (forall ys, node_value ys <> Fuel) -> (forall y l r, gain y l r <> Fuel) ->
    grow lt mid gt floor gain node_value nf P X y <> Fuel.
Proof. intros. apply build_no_fuel; [assumption|assumption|lia|lia]. Qed.
Print Assumptions C24_terminates.
Example C24_terminates_case := C24_terminates Z Z.ltb (fun a b => (a + b) / 2)%Z nat (fun a b => b <? a) 0 (fun _ l r => Ok (length l * length r)) nat
    (fun ys => Ok (length ys, false)) 1 (Params 3 0 5 0) [[2];[4];[6];[8];[10];[12]]%Z [1;0;1;0;0;0]%Z ltac:(discriminate) ltac:(discriminate).

(** The classifier: the fitted labels are the different training labels in increasing order, and the
    value of a node lists, for each of them, how many of its rows carry it, with the position
    of the first greatest count. *)
Theorem C24_classifier :
  forall c P nf X y labels t, matrix nf X -> length y = length X ->
    classifier_fit c P nf [] X y = Ok (labels, t) ->
    labels_of y (map fst labels) /\ StronglySorted Rlt (map fst labels) /\
    forall p i l r, node_at t p = Node i l r ->
      let ys := map snd (rows_at Rltb t p (combine X y)) in
      n_samples i = length ys /\
      fst (n_value i) = map (fun k => count_occ Req_EM_T ys k) (map fst labels) /\
      first_max (fst (n_value i)) (snd (n_value i)).
Proof.
  intros c P nf X y labels t HM Hl E. unfold classifier_fit in E. rewrite fit_labels_spec in E by assumption. cbn [bind] in E.
  destruct (grow _ _ _ _ _ _ _ _ _ _) as [t'| | |] eqn:Eg; cbn [bind] in E; try discriminate. injection E as <- <-.
  destruct (counts_nil Rltb_order Req_EM_T y) as (S1 & S2 & _).
  split; [assumption|]. split.
  { clear - S1. induction S1 as [|(k & n) m Hs IH Ha]; simpl; constructor; [assumption|].
    rewrite Forall_forall in *. intros k' Hk. apply in_map_iff in Hk. destruct Hk as ((k2 & n2) & <- & Hin).
    specialize (Ha _ Hin). cbn [fst] in *. unfold cmp_of in Ha. destruct (Rltb k k2) eqn:Er; [now apply Rltb_true|].
    destruct (Rltb k2 k); discriminate. }
  intros p i l r Hp. destruct (C24_structure _ _ _ _ _ _ _ _ _ _ _ _ _ _ Rltb_order Rgtb_order HM Hl Eg) as (_ & H). specialize (H p i l r Hp).
  cbn zeta in H. destruct H as (_ & H1 & stop & H2 & _). cbn zeta. split; [now rewrite map_length|].
  set (labels := fold_left (count_label Rltb) y []) in *.
  assert (Hne : labels <> []).
  { intros Hn. rewrite Hn in H2. discriminate. }
  destruct (class_value_spec (map snd (rows_at Rltb t' p (combine X y))) Hne) as (k & Ek & Hk).
  rewrite Ek in H2. injection H2 as H2 _. rewrite <- H2. auto.
Qed.
Print Assumptions C24_classifier.

(** fit is defined for every non-empty data set when nodes of fewer than three rows are not split. *)
Theorem C24_classifier_defined :
  forall c P nf X y, matrix nf X -> length y = length X -> X <> [] ->
    c <> OtherCriterion -> 3 <= min_samples_split P ->
    exists labels t, classifier_fit c P nf [] X y = Ok (labels, t).
Proof.
  intros c P nf X y HM Hl Hne Hc Hs. unfold classifier_fit. rewrite fit_labels_spec by assumption. cbn [bind].
  set (labels := fold_left (count_label Rltb) y []).
  assert (Hlab : labels <> []).
  { destruct y as [|a y]; [destruct X; [congruence|discriminate]|]. intros Hn.
    destruct (counts_nil Rltb_order Req_EM_T (a :: y)) as (_ & (_ & H) & _). fold labels in H. rewrite Hn in H.
    apply (H a). now left. }
  destruct (build_defined (mid := Rmid) Rltb_order Rgtb_order (imin := dbl_min) (gain := class_gain Rltb c) (class_value Rltb labels)
             P (fun _ => True) (nf := nf) (S (S (max_depth P)))) with (depth := 0) (D := combine X y) as (t & Et);
    [..|trivial|lia|lia|].
  - intros D _. destruct (class_value_spec (map snd D) Hlab) as (k & -> & _). eauto.
  - intros D f t _ _ _. apply class_gain_defined. assumption.
  - auto.
  - assumption.
  - now rewrite combine_fst.
  - rewrite combine_fst, combine_snd in Et by assumption. unfold grow. rewrite Et. cbn [bind]. eauto.
Qed.
Print Assumptions C24_classifier_defined.
Lemma three_rows : matrix 1 [[0%R];[1%R];[2%R]].
Proof. intros r [<-|[<-|[<-|[]]]]; reflexivity. Qed.
Lemma three_len : length [5%R;5%R;6%R] = length [[0%R];[1%R];[2%R]].
Proof. reflexivity. Qed.
Example C24_classifier_defined_case := C24_classifier_defined Gini (Params 3 0 4 0%R) 1 [[0%R];[1%R];[2%R]] [5%R;5%R;6%R] three_rows eq_refl
  ltac:(discriminate) ltac:(discriminate) ltac:(cbn; lia).
(** ... and the tree of this data has a root to which the theorem above applies. *)
Example C24_classifier_case : exists labels t i l r, classifier_fit Gini (Params 3 0 4 0%R) 1 [] [[0%R];[1%R];[2%R]] [5%R;5%R;6%R] = Ok (labels, t) /\
  node_at t [] = Node i l r /\ labels_of [5%R;5%R;6%R] (map fst labels).
Proof.
  destruct C24_classifier_defined_case as (labels & t & E). destruct (C24_classifier _ _ _ _ _ _ _ three_rows three_len E) as (LB & _).
  destruct t as [|i l r]; [exfalso|exists labels, (Node i l r), i, l, r; split; [exact E|split; [reflexivity|exact LB]]].
  unfold classifier_fit in E. destruct (fit_labels _ _ _ _); try discriminate. cbn [bind] in E.
  destruct (grow _ _ _ _ _ _ _ _ _ _) as [t'| | |] eqn:Eg; cbn [bind] in E; try discriminate. injection E as _ ->.
  destruct (C24_structure _ _ _ _ _ _ _ _ _ _ _ _ _ _ Rltb_order Rgtb_order three_rows three_len Eg). congruence.
Qed.

(** With the default min_samples_split = 2 fitting two rows is undefined behaviour. *)
Theorem C24_two_rows_refuted :
  exists X y, matrix 1 X /\ length y = length X /\
    classifier_fit Gini (Params 2 0 4 (/ 10 ^ 7)%R) 1 [] X y = UB.
Proof.
  exists [[0%R];[1%R]], [0%R;1%R]. split; [intros r [<- | [<- | []]]; reflexivity|]. split; [reflexivity|].
  unfold classifier_fit. rewrite fit_labels_spec by reflexivity. cbn [bind].
  set (labels := fold_left _ _ _).
  assert (Hlab : labels <> []).
  { intros Hn. destruct (counts_nil Rltb_order Req_EM_T [0%R;1%R]) as (_ & (_ & H) & _). fold labels in H. rewrite Hn in H.
    apply (H 0%R). now left. }
  unfold grow. cbn [max_depth build_tree]. destruct (class_value_spec [0%R;1%R] Hlab) as (k & -> & _). cbn [bind].
  cbn [length min_samples_split max_depth Nat.ltb Nat.leb].
  rewrite C23_small_refuted; [reflexivity|intros r [<- | [<- | []]]; reflexivity|reflexivity|lia|now right].
Qed.
Print Assumptions C24_two_rows_refuted.

(** A tree of three levels over integers, gain: product of the side sizes. *)
Example C24_case :
  exists t, grow Z.ltb (fun a b => (a + b) / 2)%Z (fun a b => b <? a) 0 (fun _ l r => Ok (length l * length r))
              (fun ys => Ok (length ys, false)) 1 (Params 3 0 5 0) [[2];[4];[6];[8];[10];[12]]%Z [1;0;1;0;0;0]%Z = Ok t /\
    node_at t [true] = Node (Info 3 3 (Some (0, 3%Z, 2))) (Node (Info 1 1 None) Null Null) (Node (Info 2 2 None) Null Null).
Proof. eexists. split; [vm_compute; reflexivity|reflexivity]. Qed.

(** * C25: prediction *)

(** With min_samples_leaf = 0 (the default) the walk of every input of the right width ends, at a
    node without children whose path the input follows; that path is unique. *)
Theorem C25_total :
  forall T (lt : T -> T -> bool) (mid : T -> T -> T) I (gt : I -> I -> bool) (floor : I) gain V
         (node_value : list T -> outcome (V * bool)) nf (P : params I) X y t x,
    total_order lt -> weak_order gt -> matrix nf X -> length y = length X ->
    grow lt mid gt floor gain node_value nf P X y = Ok t ->
    min_samples_leaf P = 0 -> length x = nf ->
    exists p i, walk lt t x = Ok i /\ node_at t p = Node i Null Null /\ follows lt t p x = true /\
      forall q j l r, node_at t q = Node j l r -> l = Null -> follows lt t q x = true -> q = p.
Proof.
  intros T lt mid I gt floor gain V node_value nf P X y t x HT HI HM Hl E Hm Hx.
  destruct (C24_structure _ _ _ _ _ _ _ _ _ _ _ _ _ _ HT HI HM Hl E) as (Hn & Hs).
  assert (Hboth : forall k i l r, node_at t k = Node i l r -> l = Null -> r = Null).
  { intros k i l r Hk ->. specialize (Hs k i Null r Hk). cbn zeta in Hs. destruct Hs as (_ & _ & stop & _ & Hs).
    destruct (n_split i) as [[[f th] g]|]; [|tauto]. destruct Hs as (_ & _ & _ & _ & _ & _ & H & _).
    exfalso. apply (proj2 H); [lia|reflexivity]. }
  destruct (@walk_total T lt I V t x) as (i & Ei); [|assumption|].
  { intros p i l r Hp _ Hl'. specialize (Hs p i l r Hp). cbn zeta in Hs. destruct Hs as (_ & _ & stop & _ & Hs).
    destruct (n_split i) as [[[f th] g]|]; [|destruct Hs as (-> & _); congruence].
    destruct Hs as (_ & _ & _ & Hf & _ & _ & _ & H). split; [apply (proj2 H); lia|].
    exists f, th, g. split; [reflexivity|]. destruct Hf as (Hf & _). lia. }
  destruct (walk_sound lt t x Ei) as (p & r & Hp & Hfo).
  assert (r = Null) as -> by (eapply Hboth; [exact Hp|reflexivity]).
  exists p, i. split; [assumption|]. split; [assumption|]. split; [assumption|].
  intros q j l r Hq -> Hfq. eapply follows_unique; eauto.
Qed.
Print Assumptions C25_total.
(** The walk of an input through the tree of [C24_case]. *)
Example C25_total_case : exists t p i, grow Z.ltb (fun a b => (a + b) / 2)%Z (fun a b => b <? a) 0 (fun _ l r => Ok (length l * length r))
              (fun ys => Ok (length ys, false)) 1 (Params 3 0 5 0) [[2];[4];[6];[8];[10];[12]]%Z [1;0;1;0;0;0]%Z = Ok t /\
  walk Z.ltb t [5]%Z = Ok i /\ node_at t p = Node i Null Null.
Proof.
  destruct C24_case as (t & E & _). exists t.
  assert (HM : matrix 1 [[2];[4];[6];[8];[10];[12]]%Z) by (intros r [<-|[<-|[<-|[<-|[<-|[<-|[]]]]]]]; reflexivity).
  destruct (C25_total _ _ _ _ _ _ _ _ _ _ _ _ _ _ [5]%Z Zltb_order nat_gt_order HM (eq_refl : length [1;0;1;0;0;0]%Z = length [[2];[4];[6];[8];[10];[12]]%Z) E eq_refl eq_refl)
    as (p & i & W & N & _). exists p, i. auto.
Qed.

(** What the classifier answers: the class shares of the training rows in that leaf, and as
    prediction the position of the first most frequent class. *)
Theorem C25_classifier :
  forall c P nf X y labels t x, matrix nf X -> length y = length X ->
    classifier_fit c P nf [] X y = Ok (labels, t) ->
    min_samples_leaf P = 0 -> length x = nf ->
    exists p i, node_at t p = Node i Null Null /\ follows Rltb t p x = true /\
      let ys := map snd (rows_at Rltb t p (combine X y)) in
      let counts := map (fun k => count_occ Req_EM_T ys k) (map fst labels) in
      ys <> [] ->
      predict_prob Rltb t [x] = Ok [map (fun n => Some (inject_Z (Z.of_nat n) / inject_Z (Z.of_nat (length ys)))%Q) counts] /\
      exists k, predict_class Rltb t [x] = Ok [k] /\ first_max counts k.
Proof.
  intros c P nf X y labels t x HM Hl E Hm Hx. pose proof (C24_classifier _ _ _ _ _ _ _ HM Hl E) as (HL & _ & HC).
  unfold classifier_fit in E. rewrite fit_labels_spec in E by assumption. cbn [bind] in E.
  destruct (grow _ _ _ _ _ _ _ _ _ _) as [t'| | |] eqn:Eg; cbn [bind] in E; try discriminate. injection E as <- <-.
  destruct (C25_total _ _ _ _ _ _ _ _ _ _ _ _ _ _ _ Rltb_order Rgtb_order HM Hl Eg Hm Hx) as (p & i & Ew & Hp & Hf & _).
  exists p, i. split; [assumption|]. split; [assumption|].
  destruct (HC p i Null Null Hp) as (Hn & Hv & Hk). cbn zeta. set (ys := map snd _) in *. rewrite Hv in Hk.
  set (ls := map fst _) in *. set (counts := map (fun k => count_occ Req_EM_T ys k) ls) in *. intros Hne.
  assert (Hsum : fold_right plus 0 counts = length ys).
  { apply INR_eq. rewrite <- (count_total Req_EM_T ys (ls := ls)).
    - unfold counts, total. rewrite <- (map_map (fun k => count_occ Req_EM_T ys k) INR). generalize (map (fun k => count_occ Req_EM_T ys k) ls).
      intros l. induction l as [|a l IH]; [reflexivity|]. cbn [fold_right map]. rewrite plus_INR, IH. reflexivity.
    - apply HL.
    - intros l Hin. apply HL. unfold ys in Hin. apply in_map_iff in Hin. destruct Hin as (e & <- & He).
      apply filter_In in He. destruct He as (He & _). destruct e as (a & b). apply in_combine_r in He. exact He. }
  assert (Hpos : (length ys =? 0) = false) by (apply Nat.eqb_neq; destruct ys; [congruence|discriminate]).
  unfold predict_class, predict_prob. cbn [mapM]. rewrite Ew. cbn [bind mapM]. rewrite Hv.
  split.
  - unfold probabilities. rewrite Hsum, Hpos. reflexivity.
  - destruct (@arg_best_spec counts) as (k & Ek & Hk').
    { intros Hc0. rewrite Hc0 in Hsum. simpl in Hsum. rewrite <- Hsum in Hpos. discriminate. }
    exists k. split; [|assumption]. rewrite argmax_probabilities, Hsum, Hpos, Ek. reflexivity.
Qed.
Print Assumptions C25_classifier.
Example C25_classifier_case : exists labels t p i, classifier_fit Gini (Params 3 0 4 0%R) 1 [] [[0%R];[1%R];[2%R]] [5%R;5%R;6%R] = Ok (labels, t) /\
  node_at t p = Node i Null Null /\ follows Rltb t p [7%R] = true.
Proof.
  destruct C24_classifier_defined_case as (labels & t & E). destruct (C25_classifier _ _ _ _ _ _ _ [7%R] three_rows three_len E eq_refl eq_refl) as (p & i & N & F & _).
  exists labels, t, p, i. auto.
Qed.

(** With min_samples_leaf = 2 a node can lose its right child: predicting a point to the right of
    the threshold dereferences a null pointer. *)
Theorem C25_missing_child_refuted :
  exists X y t x, matrix 1 X /\ length y = length X /\ length x = 1 /\
    (exists labels, classifier_fit Gini (Params 3 2 4 (/ 10 ^ 7)%R) 1 [] X y = Ok (labels, t)) /\
    predict_class Rltb t [x] = UB.
Proof.
  set (X := [[0%R];[1%R];[2%R]]). set (y := [0%R;0%R;1%R]). set (P := Params 3 2 4 (/ 10 ^ 7)%R).
  assert (HM : matrix 1 X) by (intros r [<- | [<- | [<- | []]]]; reflexivity).
  destruct (C24_classifier_defined Gini P 1 X y HM eq_refl) as (labels & t & E); [discriminate|discriminate|simpl; lia|].
  exists X, y, t, [2%R]. split; [assumption|]. split; [reflexivity|]. split; [reflexivity|]. split; [now exists labels|].
  pose proof E as E0. unfold classifier_fit in E. rewrite fit_labels_spec in E by reflexivity. cbn [bind] in E.
  destruct (grow _ _ _ _ _ _ _ _ _ _) as [t'| | |] eqn:Eg; cbn [bind] in E; try discriminate. injection E as _ ->.
  destruct (C24_structure _ _ _ _ _ _ _ _ _ _ _ _ _ _ Rltb_order Rgtb_order HM (eq_refl : length y = length X) Eg) as (Hnn & Hs).
  destruct t as [|i l r]; [congruence|]. specialize (Hs [] i l r eq_refl). cbn zeta in Hs.
  rewrite rows_at_nil in Hs. change (combine X y) with (rows3 0 1 2 0 0 1) in Hs.
  destruct Hs as (_ & _ & stop & Hv & Hs).
  assert (G15 : gain_at Rltb (class_gain Rltb Gini) (rows3 0 1 2 0 0 1) 0 (3/2)%R = Ok 1%R).
  { unfold gain_at, left_targets, right_targets, rows3, goes_left. cbn [combine filter fst snd nth_error map]. Rlt_cases.
    cbn [negb map snd]. unfold class_gain. rewrite gini_pure; [|discriminate|intros a b [<- | [<- | []]] [<- | [<- | []]]; reflexivity].
    rewrite gini_pure; [|discriminate|intros a b [<- | []] [<- | []]; reflexivity]. cbn [bind]. f_equal. lra. }
  assert (G05 : exists g, gain_at Rltb (class_gain Rltb Gini) (rows3 0 1 2 0 0 1) 0 (1/2)%R = Ok g /\ (g < 1)%R).
  { unfold gain_at, left_targets, right_targets, rows3, goes_left. cbn [combine filter fst snd nth_error map]. Rlt_cases.
    cbn [negb map snd]. unfold class_gain. rewrite gini_pure; [|discriminate|intros a b [<- | []] [<- | []]; reflexivity].
    destruct (@gini_range [0%R;1%R]) as (g & -> & Hg & Hz); [discriminate|]. cbn [bind]. eexists. split; [reflexivity|].
    assert (g <> 0)%R by (intros ->; specialize (Hz eq_refl 0%R 1%R ltac:(simpl; auto) ltac:(simpl; auto)); lra).
    cbn [length INR]. lra. }
  assert (Hfb : forall f th g, first_best Rltb Rmid 1 (class_gain Rltb Gini) Rgtb dbl_min (rows3 0 1 2 0 0 1) f th g -> f = 0 /\ th = (3/2)%R /\ g = 1%R).
  { intros f th g (Hf & Hc & Hg & _ & Hall). assert (f = 0) as -> by lia. split; [reflexivity|].
    assert (Hmax : (1 <= g)%R).
    { destruct (Hall 0 (3/2)%R) as (g' & Hg' & Hle & _); [lia|apply candidate3; [lra|right; lra]|].
      rewrite G15 in Hg'. injection Hg' as <-. now apply Rgtb_false in Hle. }
    apply candidate3 in Hc; [|lra]. destruct Hc as [-> | ->].
    - exfalso. replace ((0 + 1) / 2)%R with (1/2)%R in Hg by lra. destruct G05 as (g' & G05 & Hlt). rewrite G05 in Hg. injection Hg as <-. lra.
    - replace ((1 + 2) / 2)%R with (3/2)%R in * by lra. rewrite G15 in Hg. injection Hg as <-. auto. }
  assert (Hd7 : (/ 10 ^ 7 < 1)%R).
  { apply Rmult_lt_reg_l with (10 ^ 7)%R; [simpl; lra|]. rewrite Rinv_r; simpl; lra. }
  destruct (n_split i) as [[[f th] g]|] eqn:Es.
  - destruct Hs as (_ & _ & _ & Hb & _ & _ & H1 & H2). destruct (Hfb _ _ _ Hb) as (-> & -> & ->).
    change (@nil bool ++ [true]) with [true] in H1. change (@nil bool ++ [false]) with [false] in H2.
    destruct i as [n v sp]. cbn [n_split] in Es. subst sp. rewrite rows_at_left, rows_at_nil in H1. rewrite rows_at_right, rows_at_nil in H2.
    unfold rows3, goes_left in H1, H2. cbn [combine filter fst snd nth_error] in H1, H2. revert H1 H2. Rlt_cases.
    cbn [negb length min_samples_leaf P]. intros H1 H2.
    assert (Hl : l <> Null) by (apply H1; simpl; lia).
    assert (Hr : r = Null). { destruct r; [reflexivity|]. assert (2 <= 1) by (apply H2; discriminate). lia. }
    subst r. destruct l as [|il ll rl]; [congruence|].
    unfold predict_class, predict_prob. cbn [mapM]. unfold walk. cbn [n_split]. cbn [vget nth_error bind]. unfold leb. Rlt_cases. reflexivity.
  - exfalso. destruct Hs as (_ & _ & [Hst|[Hst|[Hst|[Hst|(f & th & g & Hst & Hg)]]]]).
    + subst stop. unfold class_value in Hv. destruct (arg_best _ _); discriminate.
    + simpl in Hst. lia.
    + simpl in Hst. lia.
    + destruct (Hst 0 (3/2)%R) as (g & Hg & Hle); [lia|apply candidate3; [lra|right; lra]|]. rewrite G15 in Hg. injection Hg as <-.
      apply Rgtb_false in Hle. pose proof dbl_min_half. lra.
    + destruct (Hfb _ _ _ Hst) as (_ & _ & ->). apply Rgtb_false in Hg. unfold P in Hg. cbn [min_decrease] in Hg. lra.
Qed.
Print Assumptions C25_missing_child_refuted.

(** With the default min_samples_leaf = 0 a constant feature produces a leaf that no training row
    reaches: the probabilities there are NaN (and the prediction is class number 0). *)
Theorem C25_empty_leaf_refuted :
  exists X y t x, matrix 1 X /\ length y = length X /\ length x = 1 /\
    (exists labels, classifier_fit Gini (Params 3 0 4 (/ 10 ^ 7)%R) 1 [] X y = Ok (labels, t)) /\
    exists ps, predict_prob Rltb t [x] = Ok [ps] /\ Forall (fun p => p = None) ps.
Proof.
  set (X := [[1%R];[1%R];[1%R]]). set (y := [0%R;0%R;1%R]). set (P := Params 3 0 4 (/ 10 ^ 7)%R).
  assert (HM : matrix 1 X) by (intros r [<- | [<- | [<- | []]]]; reflexivity).
  destruct (C24_classifier_defined Gini P 1 X y HM eq_refl) as (labels & t & E); [discriminate|discriminate|simpl; lia|].
  exists X, y, t, [2%R]. split; [assumption|]. split; [reflexivity|]. split; [reflexivity|]. split; [now exists labels|].
  destruct (C24_classifier _ _ _ _ _ _ _ HM (eq_refl : length y = length X) E) as (_ & _ & HC).
  unfold classifier_fit in E. rewrite fit_labels_spec in E by reflexivity. cbn [bind] in E.
  destruct (grow _ _ _ _ _ _ _ _ _ _) as [t'| | |] eqn:Eg; cbn [bind] in E; try discriminate. injection E as Elab ->.
  destruct (C24_structure _ _ _ _ _ _ _ _ _ _ _ _ _ _ Rltb_order Rgtb_order HM (eq_refl : length y = length X) Eg) as (Hnn & Hs).
  destruct t as [|i l r]; [congruence|]. pose proof (Hs [] i l r eq_refl) as Hr. cbn zeta in Hr.
  rewrite rows_at_nil in Hr. change (combine X y) with (rows3 1 1 1 0 0 1) in Hr.
  destruct Hr as (_ & _ & stop & Hv & Hr).
  assert (G1 : exists g, gain_at Rltb (class_gain Rltb Gini) (rows3 1 1 1 0 0 1) 0 1%R = Ok g /\ (1/10^7 < g /\ dbl_min < g)%R).
  { unfold gain_at, left_targets, right_targets, rows3, goes_left. cbn [combine filter fst snd nth_error map]. Rlt_cases.
    cbn [negb map snd]. unfold class_gain. rewrite gini_nil.
    assert (HL : labels_of [0%R;0%R;1%R] [0%R;1%R]).
    { split; [repeat constructor; simpl; intros H; repeat destruct H as [H|H]; try lra; contradiction|]. intros k. simpl. tauto. }
    rewrite (gini_formula Rltb_order Req_EM_T HL).
    pose proof (gini_bounds Req_EM_T (x := [0%R;0%R;1%R]) ltac:(discriminate) HL) as HB. cbn [bind]. eexists. split; [reflexivity|].
    pose proof dbl_min_half. cbn [length INR] in *.
    assert (/ (1 + 1) = 1/2)%R by lra.
    assert (1 / 10 ^ 7 < 1/2)%R.
    { unfold Rdiv. rewrite !Rmult_1_l. apply Rinv_lt_contravar; simpl; lra. }
    lra. }
  assert (Hfb : forall f th g, first_best Rltb Rmid 1 (class_gain Rltb Gini) Rgtb dbl_min (rows3 1 1 1 0 0 1) f th g -> f = 0 /\ th = 1%R /\ exists g', gain_at Rltb (class_gain Rltb Gini) (rows3 1 1 1 0 0 1) 0 1%R = Ok g' /\ g = g').
  { intros f th g (Hf & Hc & Hg & _ & Hall). assert (f = 0) as -> by lia. split; [reflexivity|].
    apply candidate3 in Hc; [|lra]. assert (th = 1%R) as -> by (destruct Hc as [-> | ->]; lra). eauto. }
  destruct G1 as (g1 & G1 & Hg1).
  assert (Hc1 : candidate Rltb Rmid (rows3 1 1 1 0 0 1) 0 1%R) by (apply candidate3; [lra|right; lra]).
  destruct (n_split i) as [[[f th] g]|] eqn:Es.
  - destruct Hr as (_ & _ & _ & Hb & _ & _ & H1 & H2). destruct (Hfb _ _ _ Hb) as (-> & -> & _).
    assert (Hl : l <> Null) by (apply H1; simpl; lia).
    assert (Hrr : r <> Null) by (apply H2; simpl; lia).
    destruct i as [n v sp]. cbn [n_split] in Es. subst sp.
    destruct r as [|ir lr rr]; [congruence|].
    specialize (HC [false] ir lr rr eq_refl). specialize (Hs [false] ir lr rr eq_refl). cbn zeta in HC, Hs.
    rewrite rows_at_right, rows_at_nil in HC, Hs. change (combine X y) with (rows3 1 1 1 0 0 1) in *.
    assert (Hemp : filter (fun e => negb (goes_left Rltb 0 1%R (fst e))) (rows3 1 1 1 0 0 1) = []).
    { unfold rows3, goes_left. cbn [combine filter fst snd nth_error]. Rlt_cases. reflexivity. }
    rewrite Hemp in HC, Hs. cbn [map] in HC. destruct HC as (_ & HC & _).
    destruct Hs as (_ & _ & stop' & _ & Hs).
    assert (lr = Null).
    { destruct (n_split ir) as [[[f' th'] g']|]; [|apply Hs]. destruct Hs as (_ & Hs & _). simpl in Hs. lia. }
    subst lr. destruct l as [|il ll rl]; [congruence|].
    unfold predict_prob. cbn [mapM]. unfold walk. cbn [n_split]. cbn [vget nth_error bind]. unfold leb. Rlt_cases. cbn [negb bind].
    eexists. split; [reflexivity|]. rewrite HC. cbn [count_occ].
    unfold probabilities. assert (Hz : forall ks : list R, fold_right plus 0 (map (fun _ => 0) ks) = 0) by (induction ks; auto).
    rewrite Hz. cbn [Nat.eqb]. apply Forall_forall. intros q Hq. apply in_map_iff in Hq. destruct Hq as (? & <- & _). reflexivity.
  - exfalso. destruct Hr as (_ & _ & [Hst|[Hst|[Hst|[Hst|(f & th & g & Hst & Hg)]]]]).
    + subst stop. unfold class_value in Hv. destruct (arg_best _ _); discriminate.
    + simpl in Hst. lia.
    + simpl in Hst. lia.
    + destruct (Hst 0 1%R) as (g & Hg & Hle); [lia|assumption|]. rewrite G1 in Hg. injection Hg as <-.
      apply Rgtb_false in Hle. lra.
    + destruct (Hfb _ _ _ Hst) as (_ & _ & g' & E1 & ->). rewrite G1 in E1. injection E1 as <-. apply Rgtb_false in Hg. unfold P in Hg. cbn [min_decrease] in Hg.
      unfold Rdiv in Hg1. rewrite Rmult_1_l in Hg1. lra.
Qed.
Print Assumptions C25_empty_leaf_refuted.

(** * C26: regression trees *)

(** Every prediction of a fitted regression tree is the mean of the targets of the training rows at
    the node where the walk of the query ends; hence it lies between two training targets. *)
Theorem C26_mean :
  forall c ms P nf X y t x v, matrix nf X -> length y = length X ->
    regressor_fit c ms P nf X y = Ok t -> regressor_predict t [x] = Ok [v] ->
    exists p i r, node_at t p = Node i Null r /\ follows Rltb t p x = true /\
      let ys := map snd (rows_at Rltb t p (combine X y)) in
      ys <> [] /\ v = (total ys / INR (length ys))%R /\
      exists lo hi, In lo y /\ In hi y /\ (lo <= v <= hi)%R.
Proof.
  intros c ms P nf X y t x v HM Hl E Ep. unfold regressor_predict in Ep. cbn [mapM] in Ep.
  destruct (walk Rltb t x) as [i| | |] eqn:Ew; cbn [bind] in Ep; try discriminate. injection Ep as <-.
  destruct (walk_sound Rltb t x Ew) as (p & r & Hp & Hf). exists p, i, r. split; [assumption|]. split; [assumption|].
  destruct (C24_structure _ _ _ _ _ _ _ _ _ _ _ _ _ _ Rltb_order Rgtb_order HM Hl E) as (_ & Hs).
  specialize (Hs p i Null r Hp). cbn zeta in *. destruct Hs as (_ & _ & stop & Hv & _).
  apply reg_value_inv in Hv. destruct Hv as (Hne & Hv). split; [assumption|]. split; [assumption|].
  destruct (mean_bounds Hne) as (lo & hi & H1 & H2 & H3). rewrite <- Hv in H3. exists lo, hi.
  assert (Hin : forall u, In u (map snd (rows_at Rltb t p (combine X y))) -> In u y).
  { intros u Hu. apply in_map_iff in Hu. destruct Hu as ((a & b) & <- & Hu). apply filter_In in Hu. destruct Hu as (Hu & _).
    now apply in_combine_r in Hu. }
  auto.
Qed.
Print Assumptions C26_mean.

(** With min_samples_leaf at most 1 every input of the right width gets a prediction. *)
Theorem C26_total :
  forall c ms P nf X y t x, matrix nf X -> length y = length X ->
    regressor_fit c ms P nf X y = Ok t -> min_samples_leaf P <= 1 -> length x = nf ->
    exists v, regressor_predict t [x] = Ok [v].
Proof.
  intros c ms P nf X y t x HM Hl E Hm Hx.
  destruct (C24_structure _ _ _ _ _ _ _ _ _ _ _ _ _ _ Rltb_order Rgtb_order HM Hl E) as (Hn & Hs).
  destruct (@walk_total R Rltb R R t x) as (i & Ei); [|assumption|].
  2: { exists (n_value i). unfold regressor_predict. cbn [mapM]. rewrite Ei. reflexivity. }
  intros p i l r Hp _ Hl'. specialize (Hs p i l r Hp). cbn zeta in Hs. destruct Hs as (_ & _ & stop & _ & Hs).
  destruct (n_split i) as [[[f th] g]|] eqn:Es; [|destruct Hs as (-> & _); congruence].
  destruct Hs as (_ & _ & _ & Hf & _ & _ & _ & H). split; [|exists f, th, g; split; [reflexivity|]; destruct Hf as (Hf & _); lia].
  apply (proj2 H).
  destruct Hf as (_ & _ & Hg & _). unfold gain_at in Hg.
  assert (Hr : right_targets Rltb (rows_at Rltb t p (combine X y)) f th <> []).
  { intros Hr. rewrite Hr in Hg. unfold reg_gain in Hg. destruct c; [| |discriminate].
    - destruct (var_vec _); [cbn [bind] in Hg|discriminate..]. destruct (var_vec _); discriminate.
    - cbn [length Nat.eqb] in Hg. rewrite andb_false_r in Hg. discriminate. }
  assert (El : length (right_targets Rltb (rows_at Rltb t p (combine X y)) f th) = length (rows_at Rltb t (p ++ [false]) (combine X y))).
  { unfold right_targets. rewrite map_length. clear - Hp Es. revert t Hp. generalize (combine X y).
    induction p as [|b p IH]; intros D t Hp.
    - cbn in Hp. subst t. destruct i as [n v s]. cbn in Es. subst s. cbn [app]. rewrite rows_at_right, !rows_at_nil. reflexivity.
    - rewrite node_at_cons in Hp. destruct t as [|i0 l0 r0]; [cbn [child] in Hp; rewrite node_at_null in Hp; discriminate|].
      destruct i0 as [n0 v0 [[[f0 t0] g0]|]].
      + cbn [app]. destruct b; cbn [child] in Hp; rewrite ?rows_at_left, ?rows_at_right; now apply IH.
      + assert (E : forall q, rows_at Rltb (Node (Info n0 v0 None) l0 r0) (b :: q) D = []).
        { intros q. unfold rows_at. cbn. clear. induction D; auto. }
        cbn [app]. rewrite !E. reflexivity. }
  rewrite <- El. destruct (right_targets _ _ _ _); [congruence|]. simpl. lia.
Qed.
Print Assumptions C26_total.

(** fit is defined when each feature takes different values in all rows. *)
Theorem C26_defined :
  forall ms P nf X y, matrix nf X -> length y = length X -> X <> [] -> 3 <= min_samples_split P ->
    (forall f, f < nf -> NoDup (map (fun r => nth_error r f) X)) ->
    exists t, regressor_fit SquaredError ms P nf X y = Ok t.
Proof.
  intros ms P nf X y HM Hl Hne Hs Hd.
  destruct (build_defined (mid := Rmid) Rltb_order Rgtb_order (imin := dbl_min) (gain := reg_gain SquaredError) (reg_value ms)
             P (fun D => D <> [] /\ column_distinct nf D) (nf := nf) (S (S (max_depth P)))) with (depth := 0) (D := combine X y) as (t & Et);
    [..|lia|lia|].
  - intros D (HD & _). apply reg_value_ok. destruct D; [congruence|discriminate].
  - intros D f t (HD & HD2) Hf Hc. destruct (candidate_sides HD2 Hf Hc) as (N1 & N2).
    unfold gain_at, reg_gain. destruct (@var_vec_ok (map snd D)) as (a & ->); [destruct D; [congruence|discriminate]|].
    destruct (@var_vec_ok (left_targets Rltb D f t)) as (b & ->); [unfold left_targets; destruct (filter _ D); [congruence|discriminate]|].
    destruct (@var_vec_ok (right_targets Rltb D f t)) as (d & ->); [unfold right_targets; destruct (filter _ D) in N2 |- *; [congruence|discriminate]|].
    cbn [bind]. eauto.
  - intros D f t g (HD & HD2) (Hf & Hc & _). destruct (candidate_sides HD2 Hf Hc) as (N1 & N2).
    split; (split; [assumption|]); intros f' Hf'; apply NoDup_map_filter; now apply HD2.
  - assumption.
  - now rewrite combine_fst.
  - split; [destruct X, y; try congruence; discriminate|]. intros f Hf. rewrite <- (map_map fst (fun r => nth_error r f)), combine_fst by assumption. now apply Hd.
  - rewrite combine_fst, combine_snd in Et by assumption. exists t. exact Et.
Qed.
Print Assumptions C26_defined.

(** But whenever the largest value of some feature occurs twice, fitting (three or more rows, not
    already uniform enough to stop) evaluates the variance of an empty vector: undefined. *)
Theorem C26_tied_maximum_refuted :
  forall ms P nf X y f m i j, matrix nf X -> length y = length X -> 3 <= length X -> min_samples_split P <= length X ->
    (exists v, reg_value ms y = Ok (v, false)) ->
    f < nf -> i <> j ->
    (exists r s, nth_error X i = Some r /\ nth_error r f = Some m /\ nth_error X j = Some s /\ nth_error s f = Some m) ->
    (forall r v, In r X -> nth_error r f = Some v -> (v <= m)%R) ->
    regressor_fit SquaredError ms P nf X y = UB.
Proof.
  intros ms P nf X y f m i j HM Hl Hn Hsp (v & Hv) Hf Hij (r & s & R1 & R2 & R3 & R4) Hmax.
  unfold regressor_fit, grow. cbn [build_tree]. rewrite Hv. cbn [bind].
  destruct (Nat.ltb_spec (length X) (min_samples_split P)); [lia|]. destruct (Nat.ltb_spec (max_depth P) 0); [lia|].
  rewrite <- (combine_fst X y Hl) at 1. rewrite <- (combine_snd X y Hl) at 2.
  assert (HM' : matrix nf (map fst (combine X y))) by now rewrite combine_fst.
  rewrite (@best_split_UB R Rltb Rmid Rltb_order R Rgtb dbl_min (reg_gain SquaredError) nf (combine X y) f m HM'); [reflexivity|..].
  - rewrite combine_length. lia.
  - intros. now apply reg_gain_cases.
  - assumption.
  - destruct (column_spec HM Hf) as (c & C1 & C2 & C3).
    rewrite (candidate_column Rltb Rmid (combine X y) f c m) by now rewrite combine_fst.
    assert (Hci : nth_error c i = Some m /\ nth_error c j = Some m).
    { assert (G : forall k q, nth_error X k = Some q -> nth_error q f = Some m -> nth_error c k = Some m).
      { intros k q Q1 Q2. assert (Q3 : nth_error (map (fun r => nth_error r f) X) k = Some (Some m)) by (rewrite nth_error_map, Q1; simpl; now rewrite Q2).
        rewrite C2, nth_error_map in Q3. destruct (nth_error c k); simpl in Q3; congruence. }
      split; eapply G; eassumption. }
    assert (Hcm : forall u, In u c -> (u <= m)%R).
    { intros u Hu. apply (in_map Some) in Hu. rewrite <- C2 in Hu. apply in_map_iff in Hu. destruct Hu as (q & Q1 & Q2). eapply Hmax; eassumption. }
    apply tied_candidate with (i := i) (j := j); tauto.
  - unfold gain_at, reg_gain.
    assert (Hr : right_targets Rltb (combine X y) f m = []).
    { unfold right_targets. rewrite filter_none; [reflexivity|]. intros (q & u) Hq. cbn [fst]. unfold goes_left.
      pose proof (in_combine_l _ _ _ _ Hq) as Hq'. specialize (HM q Hq').
      destruct (nth_error q f) as [w|] eqn:Ew; [|apply nth_error_None in Ew; lia].
      rewrite negb_involutive. apply Rltb_false. eapply Hmax; eassumption. }
    rewrite Hr. destruct (@var_vec_ok (map snd (combine X y))) as (a & ->).
    { rewrite combine_snd by assumption. destruct y; [destruct X; simpl in *; [lia|discriminate]|discriminate]. }
    destruct (@var_vec_ok (left_targets Rltb (combine X y) f m)) as (b & ->); [|reflexivity].
    assert (Hi : exists u, nth_error (combine X y) i = Some (r, u)).
    { assert (i < length X) by (apply nth_error_Some; congruence).
      destruct (nth_error (combine X y) i) as [[q u]|] eqn:Eq; [|apply nth_error_None in Eq; rewrite combine_length in Eq; lia].
      exists u. assert (Q : nth_error (map fst (combine X y)) i = Some q) by (rewrite nth_error_map, Eq; reflexivity).
      rewrite combine_fst in Q by assumption. congruence. }
    destruct Hi as (u & Hi). apply nth_error_In in Hi. intros Hnil.
    assert (Hin : In u (left_targets Rltb (combine X y) f m)).
    { unfold left_targets. apply in_map_iff. exists (r, u). split; [reflexivity|]. apply filter_In. split; [assumption|].
      cbn [fst]. unfold goes_left. rewrite R2. apply negb_true_iff, Rltb_irrefl. }
    rewrite Hnil in Hin. contradiction.
Qed.
Print Assumptions C26_tied_maximum_refuted.

(** The criterion "absolute_error" is undefined on every data set it is asked to split. *)
Theorem C26_absolute_error_refuted :
  forall ms P nf X y, matrix nf X -> length y = length X -> 3 <= length X -> min_samples_split P <= length X ->
    (exists v, reg_value ms y = Ok (v, false)) -> 0 < nf ->
    regressor_fit AbsoluteError ms P nf X y = UB.
Proof.
  intros ms P nf X y HM Hl Hn Hsp (v & Hv) Hf.
  unfold regressor_fit, grow. cbn [build_tree]. rewrite Hv. cbn [bind].
  destruct (Nat.ltb_spec (length X) (min_samples_split P)); [lia|]. destruct (Nat.ltb_spec (max_depth P) 0); [lia|].
  rewrite <- (combine_fst X y Hl) at 1. rewrite <- (combine_snd X y Hl) at 2.
  assert (HM' : matrix nf (map fst (combine X y))) by now rewrite combine_fst.
  destruct (column_spec HM Hf) as (c & C1 & C2 & C3).
  destruct (threshold_spec Rmid Rltb_order c) as (ts & _ & _ & HT); [lia|].
  assert (exists t, candidate Rltb Rmid (combine X y) 0 t) as (t & Ht).
  { assert (Hs : StronglySorted (fun u v => Rltb v u = false) (Sorting.isort Rltb c)) by apply (sort_sorted Rltb_order).
    pose proof (Sorting.isort_length Rltb c) as Hlen.
    destruct (nth_error (Sorting.isort Rltb c) 0) as [a|] eqn:Ea; [|apply nth_error_None in Ea; lia].
    destruct (nth_error (Sorting.isort Rltb c) 1) as [b|] eqn:Eb; [|apply nth_error_None in Eb; lia].
    exists (Rmid a b). rewrite (candidate_column Rltb Rmid (combine X y) 0 c _) by now rewrite combine_fst.
    exists (Sorting.isort Rltb c), 0, a, b. repeat split; auto. symmetry. apply Sorting.isort_perm. }
  rewrite (@best_split_UB R Rltb Rmid Rltb_order R Rgtb dbl_min (reg_gain AbsoluteError) nf (combine X y) 0 t HM'); [reflexivity|..].
  - rewrite combine_length. lia.
  - intros. now apply reg_gain_cases.
  - assumption.
  - assumption.
  - unfold gain_at, reg_gain. rewrite combine_snd by assumption. destruct (Nat.eqb_spec (length y) 1); [lia|reflexivity].
Qed.
Print Assumptions C26_absolute_error_refuted.

(** A data set meeting the hypotheses: three rows with different feature values; and one with a tied
    maximum. *)
Example C26_case :
  (exists t, regressor_fit SquaredError (1/1000) (Params 3 0 4 0%R) 1 [[1%R];[2%R];[3%R]] [5%R;7%R;9%R] = Ok t) /\
  regressor_fit SquaredError (-1)%R (Params 3 0 4 0%R) 1 [[1%R];[2%R];[2%R]] [5%R;7%R;9%R] = UB.
Proof.
  split.
  - apply C26_defined; [intros r [<- | [<- | [<- | []]]]; reflexivity|reflexivity|discriminate|simpl; lia|].
    intros [|f] Hf; [|lia]. simpl. repeat constructor; simpl; intros H; repeat destruct H as [H|H]; try contradiction; injection H; lra.
  - apply C26_tied_maximum_refuted with (f := 0) (m := 2%R) (i := 1) (j := 2);
      [intros r [<- | [<- | [<- | []]]]; reflexivity|reflexivity|simpl; lia|simpl; lia| |lia|lia| |].
    + unfold reg_value. cbn [mean_vec bind]. eexists. f_equal. f_equal. apply negb_false_iff, Rltb_true.
      match goal with |- (_ < sqrt ?u)%R => pose proof (sqrt_pos u) end. lra.
    + exists [2%R], [2%R]. repeat split.
    + intros r v [<- | [<- | [<- | []]]] H; simpl in H; injection H as <-; lra.
Qed.

(** * C43: entropy and Gini index *)
Theorem C43_gini :
  forall (T : Type) (lt : T -> T -> bool) (eq_dec : forall a b : T, {a = b} + {a <> b}) (x ls : list T),
    total_order lt -> x <> [] -> labels_of x ls ->
    exists g, gini lt x [] = Ok g /\ g = gini_index eq_dec x ls /\
      (0 <= g <= 1 - 1 / INR (length ls))%R /\
      (g = 0%R <-> forall a b, In a x -> In b x -> a = b).
Proof.
  intros T lt eq_dec x ls HT Hx HL. exists (gini_index eq_dec x ls). split; [now apply gini_formula|]. split; [reflexivity|].
  split; [|now apply gini_zero]. unfold Rdiv. rewrite Rmult_1_l. now apply gini_bounds.
Qed.
Print Assumptions C43_gini.

Theorem C43_entropy :
  forall (T : Type) (lt : T -> T -> bool) (eq_dec : forall a b : T, {a = b} + {a <> b}) (x ls : list T),
    total_order lt -> x <> [] -> labels_of x ls ->
    exists e, entropy lt x [] = Ok e /\ e = shannon eq_dec x ls /\
      (0 <= e <= ln (INR (length ls)) / ln 2)%R /\
      (e = 0%R <-> forall a b, In a x -> In b x -> a = b).
Proof.
  intros T lt eq_dec x ls HT Hx HL. exists (shannon eq_dec x ls). split; [now apply entropy_formula|]. split; [reflexivity|].
  split; [now apply shannon_bounds|now apply shannon_zero].
Qed.
Print Assumptions C43_entropy.
Example C43_entropy_case := C43_entropy Z Z.ltb Z.eq_dec [3;5;3;9]%Z [3;5;9]%Z Zltb_order ltac:(discriminate)
  ltac:(split; [repeat constructor; simpl; lia|intros l; simpl; tauto]).

(** No labels: Gini 1, entropy 0.  A weight vector of another length is rejected. *)
Theorem C43_degenerate :
  forall (T : Type) (lt : T -> T -> bool) (x : list T) (w : list R),
    gini lt [] [] = Ok 1%R /\ entropy lt [] [] = Ok 0%R /\
    (w <> [] -> length w <> length x -> gini lt x w = Throw InvalidArgument /\ entropy lt x w = Throw InvalidArgument).
Proof.
  intros T lt x w. split; [|split].
  - unfold gini, class_probs. simpl. f_equal. ring.
  - reflexivity.
  - intros Hw Hl. unfold gini, entropy, class_probs. destruct w as [|a w]; [congruence|].
    assert (E : (length (a :: w) =? length x) = false) by now apply Nat.eqb_neq. rewrite E. cbn. auto.
Qed.
Print Assumptions C43_degenerate.

Example C43_case : exists g, gini Z.ltb [3;5;3;9]%Z [] = Ok g /\ g = (5/8)%R.
Proof.
  destruct (C43_gini Z Z.ltb Z.eq_dec [3;5;3;9]%Z [3;5;9]%Z) as (g & E & Hg & _).
  - constructor; [intros a; apply Z.ltb_irrefl|intros a b c; rewrite !Z.ltb_lt; lia|intros a b; rewrite !Z.ltb_ge; lia].
  - discriminate.
  - split; [repeat constructor; simpl; lia|]. intros l. simpl. tauto.
  - exists g. split; [assumption|]. rewrite Hg. unfold gini_index, freq. simpl. lra.
Qed.

Example C26_mean_case : exists t v, regressor_fit SquaredError (1/1000) (Params 3 0 4 0%R) 1 [[1%R];[2%R];[3%R]] [5%R;7%R;9%R] = Ok t /\
  regressor_predict t [[4%R]] = Ok [v] /\ exists lo hi, In lo [5%R;7%R;9%R] /\ In hi [5%R;7%R;9%R] /\ (lo <= v <= hi)%R.
Proof.
  destruct C26_case as ((t & E) & _). exists t.
  assert (HM : matrix 1 [[1%R];[2%R];[3%R]]) by (intros r [<-|[<-|[<-|[]]]]; reflexivity).
  destruct (C26_total _ _ _ _ _ _ _ [4%R] HM (eq_refl : length [5%R;7%R;9%R] = length [[1%R];[2%R];[3%R]]) E ltac:(cbn; lia) eq_refl) as (v & Ev).
  destruct (C26_mean _ _ _ _ _ _ _ _ _ HM (eq_refl : length [5%R;7%R;9%R] = length [[1%R];[2%R];[3%R]]) E Ev) as (_ & _ & _ & _ & _ & _ & _ & B). exists v. auto.
Qed.
