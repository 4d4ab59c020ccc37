(** C68: inputs with NaN, infinities, or so large that the arithmetic overflows, on IEEE doubles. *)
From Coq Require Import Reals.
From Flocq Require Import Core BinarySingleNaN.
From Verif Require Import Base KDTree_Model Tree_Model Round_Spec Double_Spec Double_Model Double_Proofs.
Local Open Scope nat_scope.

(** ** k-means: prediction *)
Lemma dist2_eq ord x c : ddist ord x c = dist2 ord x c.
Proof. unfold ddist, dnorm, dsq_norm, dist2, KDTree_Model.diff. now rewrite map_map. Qed.
(** A sample with at least one centroid at a computed distance below infinity gets the first of the nearest; any other sample gets label 0. *)
Theorem C68_predict : forall ord K C X labels, dpredict ord K C X = Ok labels ->
  length labels = length X /\
  forall i x j, nth_error X i = Some x -> nth_error labels i = Some j ->
    ((exists k c, k < K /\ nth_error C k = Some c /\ dlt (dist2 ord x c) inf = true) ->
       exists cj, j < K /\ nth_error C j = Some cj /\ dlt (dist2 ord x cj) inf = true /\
       forall k c, k < K -> nth_error C k = Some c -> dlt (dist2 ord x c) inf = true ->
         dle (dist2 ord x cj) (dist2 ord x c) = true /\ (k < j -> dlt (dist2 ord x cj) (dist2 ord x c) = true)) /\
    ((forall k c, k < K -> nth_error C k = Some c -> dlt (dist2 ord x c) inf = false) -> j = 0).
Proof.
  intros ord K C X labels E. unfold dpredict in E. split; [now apply mapM_len in E|]. intros i x j Hx Hj.
  assert (Ej : dclosest ord K C x = Ok j).
  { clear - E Hx Hj. revert i labels E Hx Hj. induction X as [|z X IH]; intros [|i] labels E Hx Hj; try discriminate; cbn [mapM] in E;
      destruct (dclosest ord K C z) as [w| | |] eqn:Ew; try discriminate; cbn [bind] in E; destruct (mapM _ X) as [ws| | |]; try discriminate; injection E as <-.
    - cbn in Hx, Hj. congruence.
    - cbn in Hx, Hj. eapply IH; eauto. }
  destruct (dclosest_inv ord K C x j Ej) as (_ & [(-> & H)|(cj & H1 & H2 & H3 & H4)]).
  - split; [|reflexivity]. intros (k & c & Hk & Hc & D). rewrite <- dist2_eq, (H k c Hk Hc) in D. discriminate.
  - split; [|intros H; specialize (H j cj H1 H2); rewrite <- dist2_eq in H; congruence]. intros _. exists cj. rewrite <- dist2_eq. split; [exact H1|]. split; [exact H2|]. split; [exact H3|].
    intros k c Hk Hc D. rewrite <- dist2_eq in D |- *. now apply H4.
Qed.
Print Assumptions C68_predict.
(** In particular a sample with a NaN gets label 0. *)
Theorem C68_predict_nan : forall ord K C X labels i x, fair ord -> dpredict ord K C X = Ok labels -> nth_error X i = Some x -> has_nan x -> nth_error labels i = Some 0.
Proof.
  intros ord K C X labels i x HO E Hx Hn. unfold dpredict in E. revert i labels E Hx. induction X as [|z X IH]; intros [|i] labels E Hx; try discriminate; cbn [mapM] in E;
    destruct (dclosest ord K C z) as [w| | |] eqn:Ew; try discriminate; cbn [bind] in E; destruct (mapM _ X) as [ws| | |]; try discriminate; injection E as <-; cbn in Hx |- *.
  - injection Hx as ->. f_equal. eapply dclosest_nan; eauto.
  - now apply IH.
Qed.
Print Assumptions C68_predict_nan.
Lemma fair_left : fair left_to_right.
Proof.
  intros n Hn. assert (G : forall n, entries_of (left_to_right (S n)) = seq 0 (S n)).
  { induction n0 as [|k IH]; [reflexivity|]. change (left_to_right (S (S k))) with (Add (left_to_right (S k)) (Entry (S k))). cbn [entries_of]. now rewrite IH, (seq_S (S k)). }
  destruct n; [lia|]. rewrite G. apply Permutation_refl.
Qed.
(** Overflow: two finite centroids and a finite sample; the second centroid is nearer, but both squared distances overflow, and the label is 0. *)
Theorem C68_predict_overflow_refuted : exists c0 c1 x, finite c0 /\ finite c1 /\ finite x /\ dlt (dabs (dsub x c1)) (dabs (dsub x c0)) = true /\
  forall ord, fair ord -> dpredict ord 2 [[c0]; [c1]] [[x]] = Ok [0].
Proof.
  exists zero, (dbl 3 599), (dbl 1 600). split; [reflexivity|]. split; [reflexivity|]. split; [reflexivity|]. split; [reflexivity|].
  intros ord HO. assert (E : ord 1 = Entry 0).
  { pose proof (Permutation_length (HO 1 ltac:(lia))) as L. destruct (ord 1) as [i|a b] eqn:E1.
    - specialize (HO 1 ltac:(lia)). rewrite E1 in HO. cbn in HO. apply Permutation_length_1 in HO. now subst.
    - exfalso. cbn [entries_of seq length] in L. rewrite app_length in L. assert (G : forall s, 1 <= length (entries_of s)) by (induction s; cbn; rewrite ?app_length; lia).
      pose proof (G a). pose proof (G b). lia. }
  unfold dpredict, dclosest. cbn [mapM foldM seq]. unfold dclosest_step, dnorm, dsq_norm. cbn [vget nth_error bind fst snd drow_sub length Nat.eqb dsum KDTree_Model.diff map combine].
  rewrite E. vm_compute. reflexivity.
Qed.
Print Assumptions C68_predict_overflow_refuted.

(** ** k-means: training *)
(** One NaN in column [c] of any sample: after any number of rounds the first centroid has NaN in that column, and the tolerance has no effect. *)
Theorem C68_train_nan : forall ord asserts nf K X i x c, fair ord -> nth_error X i = Some x -> c < nf -> nth c x zero = nan ->
  (forall tol n C0 C, 1 <= n -> dlloyd ord asserts nf K tol X n C0 = Ok C -> exists r, nth_error C 0 = Some r /\ nth c r zero = nan) /\
  (forall tol tol' n C0, dlloyd ord asserts nf K tol X n C0 = dlloyd ord asserts nf K tol' X n C0).
Proof.
  intros ord asserts nf K X i x c HO Hx Hc Hn. split.
  - intros tol n C0 C H1 E. destruct n as [|n]; [lia|]. eapply (dlloyd_nan ord HO nf K X i c x Hx Hc Hn); exact E.
  - intros. eapply (dlloyd_nan_tol ord HO nf K X i c x Hx Hc Hn).
Qed.
Print Assumptions C68_train_nan.
(** k-means++ with two or more clusters reads an uninitialised candidate. *)
Theorem C68_plusplus_nan : forall ord nf X i x first draws, fair ord -> table nf X -> nth_error X i = Some x -> has_nan x -> first < length X -> draws <> [] ->
  dplusplus ord X first draws = UB.
Proof.
  intros ord nf X i x first draws HO HT Hx Hn Hf Hd. destruct (In_nth _ _ zero Hn) as (c & Hc & E).
  assert (HL : length x = nf) by (unfold table in HT; rewrite Forall_forall in HT; apply HT; eapply nth_error_In, Hx). rewrite HL in Hc.
  eapply (dplusplus_nan ord HO nf X i c x Hx Hc E); assumption.
Qed.
Print Assumptions C68_plusplus_nan.
(** Computation inside a check, so that no double has to be written out. *)
Lemma ok_check {A} (o : outcome A) (f : A -> bool) : match o with Ok a => f a | _ => false end = true -> exists a, o = Ok a /\ f a = true.
Proof. destruct o as [a| | |]; try discriminate. eauto. Qed.
Definition same_lists (l l' : list nat) : bool := if list_eq_dec Nat.eq_dec l l' then true else false.
Lemma same_lists_eq l l' : same_lists l l' = true -> l = l'.
Proof. unfold same_lists. destruct (list_eq_dec Nat.eq_dec l l'); [auto|discriminate]. Qed.
Example C68_train_case : exists C labels, dlloyd left_to_right true 1 2 (dbl 1 (-10)) [[dbl 1 0]; [nan]; [dbl 3 0]; [dbl 4 0]] 2 [[dbl 1 0]; [dbl 3 0]] = Ok C /\
  dpredict left_to_right 2 C [[dbl 1 0]; [nan]; [dbl 3 0]] = Ok labels /\ labels = [1; 0; 1].
Proof.
  destruct (ok_check (dlloyd left_to_right true 1 2 (dbl 1 (-10)) [[dbl 1 0]; [nan]; [dbl 3 0]; [dbl 4 0]] 2 [[dbl 1 0]; [dbl 3 0]])
    (fun C => match dpredict left_to_right 2 C [[dbl 1 0]; [nan]; [dbl 3 0]] with Ok l => same_lists l [1; 0; 1] | _ => false end) ltac:(vm_compute; reflexivity)) as (C & E & H).
  apply ok_check in H. destruct H as (l & El & H). apply same_lists_eq in H. eauto.
Qed.

(** ** Decision trees: NaN goes right at every split, as +infinity does *)
Theorem C68_tree : forall I V (t : dtree double I V) x,
  (no_inf_split t -> dwalk t x = dwalk t (map (fun a => if is_nan a then inf else a) x)) /\
  (Forall is_number x -> number_splits t -> dwalk t x = walk dlt t x).
Proof. intros. split; [apply dwalk_nan|apply dwalk_numbers]. Qed.
Print Assumptions C68_tree.
Example C68_tree_case : let t := Node (Info 4 0 (Some (0, dbl 5 0, tt))) (Node (Info 3 1 None) Null Null) (Node (Info 1 2 None) Null Null) in
  no_inf_split t /\ number_splits t /\ dwalk t [nan] = Ok (Info 1 2 None) /\ dwalk t [dbl 4 0] = Ok (Info 3 1 None) /\ dwalk t [dbl 5 0] = Ok (Info 3 1 None).
Proof. cbn -[dle dbl]. split; [repeat split; discriminate|]. split; [repeat split|]. repeat split. Qed.

(** ** Nearest neighbours: the answer to a query with a NaN or an infinite coordinate is the first training row at infinite distance, k times *)
Definition kd_norm (ord : nat -> order) (euclidean : bool) : list double -> double := if euclidean then dnorm ord else dnorm1 ord.
Theorem C68_query_nan : forall ord euclidean pick leaf_size nf data nodes q k, fair ord -> dbuild leaf_size nf data = Ok nodes -> length q = nf -> 1 <= k ->
  has_nan q -> dquery_single (kd_norm ord euclidean) pick nodes q k = Ok (repeat (inf, 0) k).
Proof.
  intros ord eu pick leaf_size nf data nodes q k HO E Hq Hk Hn.
  assert (HR : rooted (fun _ => True) nf nodes) by (eapply build_rooted; [|exact E]; apply Forall_forall; intros r _; apply Forall_forall; auto).
  apply (dquery_far _ _ _ nf nodes q k HR Hq Hk). intros b Hb. apply (far_nan _ nf); auto. intros v Hv. destruct eu; [now apply dnorm_nan|now apply dnorm1_nan].
Qed.
Print Assumptions C68_query_nan.
Theorem C68_query_infinite : forall ord euclidean pick leaf_size nf data nodes q k s, fair ord -> dbuild leaf_size nf data = Ok nodes -> Forall (Forall finite) data ->
  length q = nf -> 1 <= k -> Forall is_number q -> In (B754_infinity s) q -> dquery_single (kd_norm ord euclidean) pick nodes q k = Ok (repeat (inf, 0) k).
Proof.
  intros ord eu pick leaf_size nf data nodes q k s HO E HD Hq Hk HN Hn.
  pose proof (build_rooted finite nf leaf_size data nodes HD E) as HR.
  apply (dquery_far _ _ _ nf nodes q k HR Hq Hk). intros b Hb. apply (far_inf _ nf q b s); auto. intros v s' Hv Hi. destruct eu; [eapply dnorm_inf|eapply dnorm1_inf]; eauto.
Qed.
Print Assumptions C68_query_infinite.
Definition six_rows : list (list double) := map (fun z => [dbl z 0]) [5; 1; 4; 2; 6; 3]%Z.
Example C68_query_case : exists nodes ans, dbuild 5 1 six_rows = Ok nodes /\ Forall (Forall finite) six_rows /\
  dquery_single (kd_norm left_to_right true) (fun _ => 0) nodes [dbl 7 0] 2 = Ok ans /\ map snd ans = [4; 0].
Proof.
  destruct (ok_check (dbuild 5 1 six_rows) (fun nodes => match dquery_single (kd_norm left_to_right true) (fun _ => 0) nodes [dbl 7 0] 2 with Ok l => same_lists (map snd l) [4; 0] | _ => false end)
    ltac:(vm_compute; reflexivity)) as (nodes & E & H).
  apply ok_check in H. destruct H as (l & El & H). apply same_lists_eq in H. exists nodes, l. repeat split; auto. repeat constructor.
Qed.
(** Overflow: a finite query; row 4 is nearer than row 0. *)
Definition six_large_rows : list (list double) := map (fun z => [dbl z 599]) [5; 1; 4; 2; 6; 3]%Z.
Theorem C68_query_overflow_refuted : exists nodes q x0 x4, dbuild 5 1 six_large_rows = Ok nodes /\ finite q /\
  nth_error six_large_rows 0 = Some [x0] /\ nth_error six_large_rows 4 = Some [x4] /\ dlt (dabs (dsub x4 q)) (dabs (dsub x0 q)) = true /\
  dquery_single (kd_norm left_to_right true) (fun _ => 0) nodes [q] 1 = Ok [(inf, 0)].
Proof.
  destruct (ok_check (dbuild 5 1 six_large_rows) (fun nodes => match dquery_single (kd_norm left_to_right true) (fun _ => 0) nodes [dbl 7 599] 1 with
    Ok [(B754_infinity false, 0)] => true | _ => false end) ltac:(vm_compute; reflexivity)) as (nodes & E & H).
  exists nodes, (dbl 7 599), (dbl 5 599), (dbl 6 599). split; [exact E|]. split; [reflexivity|]. split; [reflexivity|]. split; [reflexivity|]. split; [reflexivity|].
  apply ok_check in H. destruct H as (l & El & H). rewrite El. destruct l as [|([?|s| |? ? ? ?], n) [|? ?]]; try discriminate; try destruct s; try discriminate; destruct n; try discriminate. reflexivity.
Qed.
Print Assumptions C68_query_overflow_refuted.

(** ** Stochastic gradient descent *)
(** With a patience of at least 1: what is returned comes from an epoch whose loss was a number; if every loss is NaN or +infinity, or the tolerance is
    NaN, the optimiser throws. *)
Theorem C68_sgd : forall S (epoch : nat -> S -> outcome (S * double)) tol b patience max_iter s, 1 <= patience ->
  (forall s', doptimize epoch tol b patience max_iter s = Ok s' -> exists iter s0 loss, iter < max_iter /\ epoch iter s0 = Ok (s', loss) /\ is_number loss) /\
  ((forall iter s, exists s' loss, epoch iter s = Ok (s', loss) /\ (loss = nan \/ loss = inf)) -> doptimize epoch tol b patience max_iter s = Throw RuntimeError) /\
  (tol = nan -> (forall iter s, exists r, epoch iter s = Ok r) -> doptimize epoch tol b patience max_iter s = Throw RuntimeError).
Proof.
  intros S epoch tol b patience max_iter s Hp. unfold doptimize. split; [|split].
  - intros s' E. apply depochs_ok in E; [|exact Hp|lia]. destruct E as (it & s0 & loss & Hi & H). exists it, s0, loss. apply in_seq in Hi. split; [lia|exact H].
  - intros H. now apply depochs_diverged.
  - intros Ht H. now apply depochs_nan_tol.
Qed.
Print Assumptions C68_sgd.
(** Whatever the gradient, the rates and the clipping: with squared error and at least one full batch, returned weights have no NaN. *)
Theorem C68_sgd_weights : forall ord lambda gradient clip decay perm shuffle tol b patience max_iter X y w0 w, fair ord -> 1 <= b <= length X -> 1 <= patience ->
  dsgd ord gradient (dmse ord lambda) clip decay perm shuffle tol b patience max_iter X y w0 = Ok w -> ~ has_nan w.
Proof.
  intros ord lambda gradient clip decay perm shuffle tol b patience max_iter X y w0 w HO (Hb & HX) Hp E.
  refine (dsgd_nan ord HO gradient (dmse ord lambda) _ clip decay perm shuffle tol b patience Hb max_iter X y w0 w Hp HX E). intros. eapply dmse_nan; eassumption.
Qed.
Print Assumptions C68_sgd_weights.
(** But they can have an infinite loss: with one sample x = 1, y = 1, lambda = 1 and the rate 2^500, the second epoch overflows, counts as "no improvement", and its
    weight is returned as the optimum. *)
Definition one_sample_run (lambda rate : double) : outcome (list double) :=
  dsgd left_to_right (dmse_gradient left_to_right lambda) (dmse left_to_right lambda) (dclip nan) (fun _ => rate) (fun _ => []) false (dbl 1 (-10)) 1 1 10 [[dbl 1 0]] [dbl 1 0] [zero].
Definition one_sample_loss (lambda : double) (w : list double) : outcome double := dmse left_to_right lambda [[dbl 1 0]] [dbl 1 0] w.
Definition is_inf (o : outcome double) : bool := match o with Ok (B754_infinity false) => true | _ => false end.
Lemma is_inf_eq o : is_inf o = true -> o = Ok inf.
Proof. destruct o as [[?|s| |? ? ? ?]| | |]; try discriminate. destruct s; [discriminate|reflexivity]. Qed.
Lemma finite_inf_check (o : outcome (list double)) (f : list double -> outcome double) :
  match o with Ok w => forallb is_finite w && is_inf (f w) | _ => false end = true -> exists w, o = Ok w /\ Forall finite w /\ f w = Ok inf.
Proof.
  destruct o as [w| | |]; try discriminate. intros H. apply andb_prop in H. destruct H as (H1 & H2). exists w. split; [reflexivity|].
  split; [apply Forall_forall; now apply forallb_forall|now apply is_inf_eq].
Qed.
Lemma above_check (o : outcome (list double)) c : match o with Ok [w] => is_finite w && dlt c w | _ => false end = true -> exists w, o = Ok [w] /\ finite w /\ dlt c w = true.
Proof. destruct o as [[|w [|? ?]]| | |]; try discriminate. intros H. apply andb_prop in H. eauto. Qed.
Theorem C68_sgd_infinite_refuted : exists w, one_sample_run (dbl 1 0) (dbl 1 500) = Ok w /\ Forall finite w /\ one_sample_loss (dbl 1 0) w = Ok inf.
Proof. apply finite_inf_check. vm_compute. reflexivity. Qed.
Print Assumptions C68_sgd_infinite_refuted.
(** A run that returns: the rate 1/2 on the same sample. *)
Example C68_sgd_case : exists w, one_sample_run zero (dbl 1 (-1)) = Ok [w] /\ finite w /\ dlt (dbl 7 (-3)) w = true.
Proof. apply above_check. vm_compute. reflexivity. Qed.
