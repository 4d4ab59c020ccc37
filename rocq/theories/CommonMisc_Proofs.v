(** argmax, argsort, sort, unique, set utilities, shape utilities of common.hpp. *)
From Verif Require Import Base Sorting Common_Model Common_Spec RDR_Proofs RowSort_Proofs.
Set Implicit Arguments.

(** * argmax / argmin *)
Lemma arg_scan_spec better :
  (forall a b c, better a b = true -> better b c = true -> better a c = true) ->
  (forall a b c, better a b = false -> better b c = false -> better a c = false) ->
  forall l pre bi best,
  bi < length pre -> nth bi pre 0%Z = best ->
  (forall j, j < length pre -> better (nth j pre 0%Z) best = false) ->
  (forall j, j < bi -> better best (nth j pre 0%Z) = true) ->
  (forall a, better a a = false) ->
  let r := arg_scan better l (length pre) bi best in
  let m := pre ++ l in
  r < length m /\ (forall j, j < length m -> better (nth j m 0%Z) (nth r m 0%Z) = false) /\
  (forall j, j < r -> better (nth r m 0%Z) (nth j m 0%Z) = true).
Proof.
  intros Htr Hntr. induction l as [|x l IH]; intros pre bi best Hbi Hb Hall Hfst Hirr r m.
  - subst m. rewrite app_nil_r. simpl in r. subst r. rewrite Hb. auto.
  - assert (Em : m = (pre ++ [x]) ++ l) by (subst m; now rewrite <- app_assoc).
    rewrite Em. subst r. simpl. clear Em m.
    assert (El : S (length pre) = length (pre ++ [x])) by (rewrite app_length; simpl; lia).
    destruct (better x best) eqn:E.
    + rewrite El. apply IH; auto.
      * rewrite app_length. simpl. lia.
      * rewrite app_nth2, Nat.sub_diag by lia. reflexivity.
      * intros j Hj. rewrite app_length in Hj. simpl in Hj.
        destruct (Nat.eq_dec j (length pre)) as [->|Hne].
        -- rewrite app_nth2, Nat.sub_diag by lia. apply Hirr.
        -- rewrite app_nth1 by lia. destruct (better (nth j pre 0%Z) x) eqn:E2; [|reflexivity].
           rewrite <- (Hall j) by lia. symmetry. eapply Htr; eauto.
      * intros j Hj. rewrite app_nth1 by lia.
        destruct (better x (nth j pre 0%Z)) eqn:E2; [reflexivity|].
        rewrite <- E. symmetry. eapply Hntr; [exact E2|]. apply Hall. lia.
    + rewrite El. apply IH; auto.
      * rewrite app_length. simpl. lia.
      * rewrite app_nth1 by lia. assumption.
      * intros j Hj. rewrite app_length in Hj. simpl in Hj.
        destruct (Nat.eq_dec j (length pre)) as [->|Hne].
        -- rewrite app_nth2, Nat.sub_diag by lia. assumption.
        -- rewrite app_nth1 by lia. apply Hall. lia.
      * intros j Hj. rewrite app_nth1 by lia. now apply Hfst.
Qed.

Lemma arg_coeff_spec better :
  (forall a b c, better a b = true -> better b c = true -> better a c = true) ->
  (forall a b c, better a b = false -> better b c = false -> better a c = false) ->
  (forall a, better a a = false) ->
  forall l, l <> [] -> exists i, arg_coeff better l = Ok i /\ i < length l /\
  (forall j, j < length l -> better (nth j l 0%Z) (nth i l 0%Z) = false) /\
  (forall j, j < i -> better (nth i l 0%Z) (nth j l 0%Z) = true).
Proof.
  intros Htr Hntr Hirr [|x l] Hl; [congruence|]. simpl arg_coeff. eexists. split; [reflexivity|].
  apply (@arg_scan_spec better Htr Hntr l [x] 0 x); simpl; auto; try lia.
  intros j Hj. replace j with 0 by lia. apply Hirr.
Qed.

Lemma arg_coeff_max l : l <> [] ->
  exists i, arg_coeff (fun x best => best <? x)%Z l = Ok i /\ first_max l i.
Proof.
  intros Hl. destruct (@arg_coeff_spec (fun x best => best <? x)%Z) with (l := l)
    as (i & E & Hi & H1 & H2); auto.
  - intros a b c. rewrite !Z.ltb_lt. lia.
  - intros a b c. rewrite !Z.ltb_ge. lia.
  - intros a. apply Z.ltb_irrefl.
  - exists i. split; [assumption|]. split; [assumption|]. split.
    + intros j Hj. apply H1 in Hj. apply Z.ltb_ge in Hj. lia.
    + intros j Hj. apply H2 in Hj. apply Z.ltb_lt in Hj. lia.
Qed.

Lemma arg_coeff_min l : l <> [] ->
  exists i, arg_coeff (fun x best => x <? best)%Z l = Ok i /\ first_min l i.
Proof.
  intros Hl. destruct (@arg_coeff_spec (fun x best => x <? best)%Z) with (l := l)
    as (i & E & Hi & H1 & H2); auto.
  - intros a b c. rewrite !Z.ltb_lt. lia.
  - intros a b c. rewrite !Z.ltb_ge. lia.
  - intros a. apply Z.ltb_irrefl.
  - exists i. split; [assumption|]. split; [assumption|]. split.
    + intros j Hj. apply H1 in Hj. apply Z.ltb_ge in Hj. lia.
    + intros j Hj. apply H2 in Hj. apply Z.ltb_lt in Hj. lia.
Qed.

Lemma mapM_exists {A B} (f : A -> outcome B) (P : A -> B -> Prop) l :
  (forall a, In a l -> exists b, f a = Ok b /\ P a b) ->
  exists bs, mapM f l = Ok bs /\ Forall2 P l bs.
Proof.
  induction l as [|a l IH]; intros H; simpl.
  - exists []. auto.
  - destruct (H a) as (b & E & Hb); [now left|]. rewrite E. simpl.
    destruct IH as (bs & E2 & Hbs); [intros x Hx; apply H; now right|].
    rewrite E2. simpl. exists (b :: bs). auto.
Qed.

Lemma concat_nonempty (m : mat) : mat_ok m -> 0 < mcols m -> mrows m <> [] -> flatten_mat m <> [].
Proof.
  unfold mat_ok, flatten_mat. intros Hok Hc Hr. destruct (mrows m) as [|r rs]; [congruence|].
  inversion Hok as [|? ? Hlen _]; subst. destruct r; simpl in *; [lia|discriminate].
Qed.

Section ArgExt.
  Variable better : Z -> Z -> bool.
  Variable best_of : list Z -> nat -> Prop.
  Hypothesis Hcoeff : forall l, l <> [] -> exists i, arg_coeff better l = Ok i /\ best_of l i.

  Lemma argext_rows m : mat_ok m -> 0 < mcols m ->
    exists is_, argext better m 1 = Ok is_ /\ Forall2 best_of (mrows m) is_.
  Proof.
    intros Hok Hc. unfold argext. simpl. apply mapM_exists. intros r Hr. apply Hcoeff.
    unfold mat_ok in Hok. rewrite Forall_forall in Hok. specialize (Hok r Hr).
    destruct r; simpl in *; [lia|discriminate].
  Qed.

  Lemma argext_cols m : mrows m <> [] ->
    exists is_, argext better m 0 = Ok is_ /\
      Forall2 (fun j i => best_of (column j (mrows m)) i) (seq 0 (mcols m)) is_.
  Proof.
    intros Hr. unfold argext. simpl. unfold cols.
    destruct (@mapM_exists _ _ (arg_coeff better) best_of (map (col m) (seq 0 (mcols m))))
      as (is_ & E & HF).
    - intros l Hl. apply in_map_iff in Hl. destruct Hl as (j & <- & _). apply Hcoeff.
      unfold col. destruct (mrows m); [congruence|discriminate].
    - exists is_. split; [assumption|]. clear E. revert is_ HF.
      induction (seq 0 (mcols m)) as [|j js IH]; simpl; intros is_ HF; inversion HF; subst; auto.
  Qed.

  Lemma argext_all m : mat_ok m -> 0 < mcols m -> mrows m <> [] ->
    exists i, argext better m (-1) = Ok [i] /\ best_of (concat (mrows m)) i.
  Proof.
    intros Hok Hc Hr. unfold argext. simpl.
    destruct (Hcoeff (concat_nonempty Hok Hc Hr)) as (i & E & Hi).
    rewrite E. simpl. exists i. split; [reflexivity|exact Hi].
  Qed.

  Lemma argext_bad m axis : (axis <> 0)%Z -> (axis <> 1)%Z -> (axis <> -1)%Z ->
    argext better m axis = Throw InvalidArgument.
  Proof.
    intros H0 H1 H2. unfold argext. apply Z.eqb_neq in H0, H1, H2. now rewrite H0, H1, H2.
  Qed.
End ArgExt.

(** * argsort *)
Lemma lin_spaced_big n : 3 <= n -> lin_spaced_0_n n = seq 0 n.
Proof.
  intros H. destruct n as [|[|n]]; [lia|lia|]. cbn [lin_spaced_0_n].
  rewrite <- (map_id (seq 0 (S (S n)))) at 2. apply map_ext. intros i.
  replace (S (S n) / S n) with 1; [lia|].
  apply (Nat.div_unique (S (S n)) (S n) 1 1); lia.
Qed.

Lemma sort_idx_spec (reverse : bool) line idx :
  Permutation idx (seq 0 (length line)) ->
  exists idx', sort_idx (if reverse then (fun a b => b <? a)%Z else Z.ltb) line idx = Ok idx' /\
               sorting_indices reverse line idx'.
Proof.
  intros HP. unfold sort_idx. destruct (Nat.leb_spec (length idx) 1) as [Hle|Hgt].
  - exists idx. split; [reflexivity|]. split; [assumption|].
    destruct idx as [|a [|b idx]]; simpl in Hle; try lia; repeat constructor.
  - replace (forallb (fun i => i <? length line) idx) with true.
    + eexists. split; [reflexivity|]. split.
      * rewrite <- isort_perm. assumption.
      * eapply StronglySorted_impl; [|apply isort_sorted].
        -- unfold le. intros a b Hab. destruct reverse; apply Z.ltb_ge in Hab; lia.
        -- intros a b. destruct reverse; rewrite Z.ltb_lt, Z.ltb_ge; lia.
        -- unfold le. intros a b c. destruct reverse; rewrite !Z.ltb_ge; lia.
    + symmetry. apply forallb_forall. intros i Hi. apply (Permutation_in _ HP) in Hi.
      apply in_seq in Hi. apply Nat.ltb_lt. lia.
Qed.

Lemma argsort_lines_spec (reverse : bool) n lines : Forall (fun l => length l = n) lines ->
  forall idx, Permutation idx (seq 0 n) ->
  exists res, argsort_lines (if reverse then (fun a b => b <? a)%Z else Z.ltb) lines idx = Ok res /\
              Forall2 (sorting_indices reverse) lines res.
Proof.
  induction 1 as [|l lines Hl HF IH]; intros idx HP; simpl.
  - exists []. auto.
  - destruct (@sort_idx_spec reverse l idx) as (idx' & E & Hs); [now rewrite Hl|].
    rewrite E. simpl. destruct (IH idx') as (res & E2 & Hr).
    { rewrite <- Hl. apply Hs. }
    rewrite E2. simpl. exists (idx' :: res). auto.
Qed.

Lemma argsort_rows m reverse : mat_ok m -> 3 <= mcols m ->
  exists res, argsort m 1 reverse = Ok res /\ Forall2 (sorting_indices reverse) (mrows m) res.
Proof.
  intros Hok Hc. unfold argsort. simpl. rewrite lin_spaced_big by assumption.
  apply argsort_lines_spec with (n := mcols m); [exact Hok|reflexivity].
Qed.

Lemma argsort_cols m reverse : 3 <= length (mrows m) ->
  exists res, argsort m 0 reverse = Ok res /\
    Forall2 (fun j idx => sorting_indices reverse (column j (mrows m)) idx) (seq 0 (mcols m)) res.
Proof.
  intros Hr. unfold argsort. simpl. rewrite lin_spaced_big by assumption.
  destruct (@argsort_lines_spec reverse (length (mrows m)) (cols m)) with (idx := seq 0 (length (mrows m)))
    as (res & E & HF); [|reflexivity|].
  - apply Forall_forall. intros l Hl. unfold cols in Hl. apply in_map_iff in Hl.
    destruct Hl as (j & <- & _). unfold col. now rewrite map_length.
  - exists res. split; [exact E|]. clear E. unfold cols in HF. revert res HF.
    induction (seq 0 (mcols m)) as [|j js IH]; simpl; intros res HF; inversion HF; subst; auto.
Qed.

Lemma argsort_two m reverse : mat_ok m -> mcols m = 2 -> mrows m <> [] -> argsort m 1 reverse = UB.
Proof.
  intros Hok Hc Hr. unfold argsort. simpl. rewrite Hc. unfold mat_ok in Hok.
  destruct (mrows m) as [|r rs]; [congruence|]. inversion Hok as [|? ? Hl _]; subst.
  cbn. rewrite Hl, Hc. reflexivity.
Qed.

Lemma argsort_one m reverse : mat_ok m -> mcols m = 1 ->
  argsort m 1 reverse = Ok (map (fun _ => [1]) (mrows m)).
Proof.
  intros Hok Hc. unfold argsort. simpl. rewrite Hc. cbn [lin_spaced_0_n].
  induction (mrows m) as [|r rs IH]; simpl; [reflexivity|]. cbn. unfold sort_idx in IH. simpl in IH.
  rewrite IH. reflexivity.
Qed.

(** * sort *)
Lemma zsort_version reverse l :
  sorted_version reverse l ((if reverse then zsort_desc else zsort) l).
Proof.
  destruct reverse; split.
  - apply zsort_desc_perm.
  - apply zsort_desc_sorted.
  - apply zsort_perm.
  - apply zsort_sorted.
Qed.

Lemma Forall2_map_r {A B} (P : A -> B -> Prop) f l : (forall a, P a (f a)) -> Forall2 P l (map f l).
Proof. intros H. induction l; simpl; constructor; auto. Qed.

Lemma sort_mat_rows m reverse :
  exists res, sort_mat m 1 reverse = Ok res /\ Forall2 (sorted_version reverse) (mrows m) res.
Proof.
  unfold sort_mat. simpl. eexists. split; [reflexivity|]. apply Forall2_map_r. apply zsort_version.
Qed.

Lemma sort_mat_cols m reverse :
  exists res, sort_mat m 0 reverse = Ok res /\
    Forall2 (fun j out => sorted_version reverse (column j (mrows m)) out) (seq 0 (mcols m)) res.
Proof.
  unfold sort_mat. simpl. eexists. split; [reflexivity|]. unfold cols. rewrite map_map.
  apply Forall2_map_r. intros j. exact (zsort_version reverse (column j (mrows m))).
Qed.

(* the 2-d vector overload *)
Lemma sort2d_rows x reverse : x <> [] -> hd [] x <> [] ->
  exists res, sort2d x 1 reverse = Ok res /\ Forall2 (sorted_version reverse) x res.
Proof.
  intros Hx Hr. destruct x as [|[|a r0] x]; simpl in Hr; try congruence.
  exists (map (if reverse then zsort_desc else zsort) ((a :: r0) :: x)). split; [reflexivity|].
  apply Forall2_map_r. apply zsort_version.
Qed.

Lemma sort_rows_by_col reverse i x :
  sorted_version reverse (column i x) (column i (sort_rows_by reverse i x)) /\
  Permutation x (sort_rows_by reverse i x).
Proof.
  unfold sort_rows_by. split; [|apply isort_perm]. split.
  - unfold column. apply Permutation_map, isort_perm.
  - assert (Hs : StronglySorted (le (fun v1 v2 : list Z => if reverse then (nth i v2 0 <? nth i v1 0)%Z
                else (nth i v1 0 <? nth i v2 0)%Z))
              (isort (fun v1 v2 : list Z => if reverse then (nth i v2 0 <? nth i v1 0)%Z
                else (nth i v1 0 <? nth i v2 0)%Z) x)).
    { apply isort_sorted.
      - intros a b. destruct reverse; rewrite Z.ltb_lt, Z.ltb_ge; lia.
      - unfold le. intros a b c. destruct reverse; rewrite !Z.ltb_ge; lia. }
    induction Hs as [|a l Hs IH Hall]; simpl; [constructor|].
    constructor; [assumption|]. apply Forall_forall. intros z Hz.
    apply in_map_iff in Hz. destruct Hz as (b & <- & Hb).
    rewrite Forall_forall in Hall. specialize (Hall b Hb). unfold le in Hall.
    destruct reverse; apply Z.ltb_ge in Hall; lia.
Qed.

Lemma column_length j x : length (column j x) = length x.
Proof. apply map_length. Qed.

Lemma column_set i j (r c : list (list Z)) :
  length r = length c -> Forall (fun l => i < length l) r ->
  column j (map (fun p => set_nth (fst p) i (nth i (snd p) 0%Z)) (combine r c)) =
  if Nat.eq_dec j i then column i c else column j r.
Proof.
  intros Hlen HF. revert c Hlen. induction HF as [|l r Hl HF IH]; intros [|lc c] Hlen; simpl in *; try lia.
  - destruct (Nat.eq_dec j i); reflexivity.
  - rewrite IH by lia. rewrite nth_set_nth by assumption.
    destruct (Nat.eq_dec j i); reflexivity.
Qed.

Lemma sort2d_cols_spec reverse : forall is_ (copy result : list (list Z)),
  length result = length copy -> Forall (fun l => Forall (fun i => i < length l) is_) result ->
  NoDup is_ ->
  let r := sort2d_cols reverse is_ copy result in
  length r = length result /\ map (@length Z) r = map (@length Z) result /\
  (forall j, ~ In j is_ -> column j r = column j result) /\
  (forall j, In j is_ -> sorted_version reverse (column j copy) (column j r)).
Proof.
  induction is_ as [|i is_ IH]; intros copy result Hlen HF Hnd; cbn [sort2d_cols].
  - repeat split; auto; contradiction.
  - destruct (sort_rows_by_col reverse i copy) as (Hsv & HP).
    set (copy' := sort_rows_by reverse i copy) in *.
    assert (Hlc : length copy' = length copy) by (symmetry; now apply Permutation_length).
    set (result' := map (fun p => set_nth (fst p) i (nth i (snd p) 0%Z)) (combine result copy')).
    assert (Hlr : length result' = length result).
    { unfold result'. rewrite map_length, combine_length. lia. }
    assert (Hml : map (@length Z) result' = map (@length Z) result).
    { unfold result'. rewrite map_map. transitivity (map (fun p => length (fst p)) (combine result copy')).
      - apply map_ext. intros p. now rewrite set_nth_length.
      - rewrite <- map_map. f_equal.
        assert (forall (a b : list (list Z)), length a = length b -> map fst (combine a b) = a) as Hc.
        { induction a as [|u a IHa]; intros [|v b] E; simpl in *; try lia; auto. f_equal. apply IHa. lia. }
        apply Hc. lia. }
    inversion Hnd as [|? ? Hni Hnd']; subst.
    assert (Hi : Forall (fun l => i < length l) result).
    { eapply Forall_impl; [|exact HF]. intros l Hl. now inversion Hl. }
    assert (HF' : Forall (fun l => Forall (fun i0 => i0 < length l) is_) result').
    { apply Forall_forall. intros l Hl.
      assert (Hin : In (length l) (map (@length Z) result)) by (rewrite <- Hml; now apply in_map).
      apply in_map_iff in Hin. destruct Hin as (l0 & E0 & Hl0). rewrite <- E0.
      rewrite Forall_forall in HF. specialize (HF l0 Hl0). now inversion HF. }
    destruct (IH copy' result') as (H1 & H2 & H3 & H4); auto; [congruence|].
    split; [congruence|]. split; [congruence|].
    assert (Hcol : forall j, column j result' = if Nat.eq_dec j i then column i copy' else column j result).
    { intros j. apply column_set; [congruence|assumption]. }
    split.
    + intros j Hj. rewrite H3 by (intros H; apply Hj; now right).
      rewrite Hcol. destruct (Nat.eq_dec j i) as [->|]; [|reflexivity].
      exfalso. apply Hj. now left.
    + intros j [<-|Hj].
      * rewrite H3 by assumption. rewrite Hcol.
        destruct (Nat.eq_dec i i) as [_|]; [|congruence]. exact Hsv.
      * destruct (H4 j Hj) as (Hp & Hs). split; [|assumption].
        rewrite <- Hp. unfold column. now apply Permutation_map.
Qed.

Lemma sort2d_columns x k reverse : x <> [] -> 0 < k -> Forall (fun r => length r = k) x ->
  exists res, sort2d x 0 reverse = Ok res /\ Forall (fun r => length r = k) res /\
    length res = length x /\
    forall j, j < k -> sorted_version reverse (column j x) (column j res).
Proof.
  intros Hx Hk HF.
  destruct (@sort2d_cols_spec reverse (seq 0 k) x x eq_refl) as (H1 & H2 & H3 & H4).
  - eapply Forall_impl; [|exact HF]. intros l Hl. cbv beta in Hl. apply Forall_forall. intros i Hi.
    apply in_seq in Hi. rewrite Hl. lia.
  - apply seq_NoDup.
  - exists (sort2d_cols reverse (seq 0 k) x x). split.
    + destruct x as [|r0 x']; [congruence|]. inversion HF as [|? ? Hr0 HF']; subst.
      destruct r0 as [|a r0]; [simpl in Hk; lia|].
      unfold sort2d. replace ((0 =? 0)%Z) with true by reflexivity.
      rewrite (proj2 (forallb_forall (fun r => length (a :: r0) <=? length r) ((a :: r0) :: x'))).
      * reflexivity.
      * intros r Hr. rewrite Forall_forall in HF. rewrite (HF r Hr). apply Nat.leb_refl.
    + split; [|split].
      * apply Forall_forall. intros r Hr.
        assert (Hin : In (length r) (map (@length Z) x)) by (rewrite <- H2; now apply in_map).
        apply in_map_iff in Hin. destruct Hin as (r1 & E & Hr1). rewrite Forall_forall in HF.
        rewrite <- E. now apply HF.
      * assumption.
      * intros j Hj. apply H4. apply in_seq. lia.
Qed.

(** * unique *)
Lemma Zcmp_eq a b : Z.compare a b = Eq <-> a = b.
Proof. apply Z.compare_eq_iff. Qed.
Lemma Zcmp_trans a b c : Z.compare a b = Lt -> Z.compare b c = Lt -> Z.compare a c = Lt.
Proof. rewrite !Z.compare_lt_iff. lia. Qed.
Lemma Zcmp_antisym a b : Z.compare a b = CompOpp (Z.compare b a).
Proof. apply Z.compare_antisym. Qed.

Lemma unique_scan_spec : forall l pre seen vs ps,
  om_sorted Z.compare seen -> (forall v, om_find Z.compare v seen <> None <-> In v pre) ->
  unique_scan l (length pre) seen = (vs, ps) ->
  NoDup vs /\ (forall v, In v vs <-> In v l /\ ~ In v pre) /\
  Forall2 (first_position (pre ++ l)) vs ps /\
  (StronglySorted Z.le l -> StronglySorted Z.le vs) /\
  Forall (fun p => length pre <= p) ps /\ StronglySorted lt ps.
Proof.
  induction l as [|x l IH]; intros pre seen vs ps Hs Hk E; simpl in E.
  - injection E as <- <-. repeat split; try constructor; simpl; try tauto.

  - assert (El : S (length pre) = length (pre ++ [x])) by (rewrite app_length; simpl; lia).
    assert (Eapp : pre ++ x :: l = (pre ++ [x]) ++ l) by (now rewrite <- app_assoc).
    destruct (om_find Z.compare x seen) eqn:Ef.
    + rewrite El in E.
      assert (Hx : In x pre) by (apply Hk; congruence).
      apply IH in E as (H1 & H2 & H4 & H5 & H6 & H7); auto.
      * rewrite Eapp. split; [assumption|]. split.
        -- intros v. rewrite H2, in_app_iff. simpl. split.
           ++ intros (Ha & Hb). split; [now right|tauto].
           ++ intros ([<-|Ha] & Hb); [contradiction|]. split; [assumption|].
              intros [?|[<-|[]]]; contradiction.
        -- split; [assumption|]. split; [intros HS; apply H5; now inversion HS|].
           split; [|assumption]. eapply Forall_impl; [|exact H6]. intros p. rewrite app_length. simpl. lia.
      * intros v. rewrite Hk, in_app_iff. simpl. split; [tauto|]. intros [?|[<-|[]]]; assumption.
    + destruct (unique_scan l (S (length pre)) (om_set Z.compare x (length pre) seen)) as (vs' & ps') eqn:E2.
      injection E as <- <-. rewrite El in E2.
      assert (Hx : ~ In x pre) by (intros H; apply Hk in H; congruence).
      apply IH in E2 as (H1 & H2 & H4 & H5 & H6 & H7).
      * rewrite Eapp. split; [constructor; [|assumption]|].
        { rewrite H2, in_app_iff. simpl. tauto. }
        split.
        -- intros v. simpl. rewrite H2, in_app_iff. simpl. split.
           ++ intros [<-|(Ha & Hb)]; [tauto|]. split; [now right|tauto].
           ++ intros ([<-|Ha] & Hb); [now left|].
              destruct (Z.eq_dec x v); [now left|right]. split; [assumption|].
              intros [?|[?|[]]]; contradiction.
        -- split; [constructor; [|assumption]|].
           { split.
             - rewrite nth_error_app1 by lia. rewrite nth_error_app2, Nat.sub_diag by lia. reflexivity.
             - intros q Hq. rewrite nth_error_app1 by lia. rewrite nth_error_app1 by lia.
               intros Hc. apply Hx. eapply nth_error_In; eassumption. }
           split.
           { intros HS. inversion HS as [|? ? HS' Hall]; subst. constructor; [now apply H5|].
             rewrite Forall_forall in Hall |- *. intros v Hv. apply Hall. now apply H2. }
           split.
           { constructor; [lia|]. eapply Forall_impl; [|exact H6]. intros p. rewrite app_length. simpl. lia. }
           { constructor; [assumption|]. eapply Forall_impl; [|exact H6]. intros p.
             rewrite app_length. simpl. lia. }
      * apply om_set_sorted; auto using Zcmp_eq, Zcmp_antisym.
        intros a b c. apply Zcmp_trans.
      * intros v. rewrite om_set_find; auto using Zcmp_eq, Zcmp_antisym.
        rewrite in_app_iff. simpl. destruct (Z.compare_spec v x) as [Hv|Hv|Hv].
        -- subst. split; [intros _; right; now left|congruence].
        -- rewrite Hk. split; [tauto|]. intros [?|[->|[]]]; [assumption|lia].
        -- rewrite Hk. split; [tauto|]. intros [?|[->|[]]]; [assumption|lia].
Qed.

Lemma StronglySorted_le_lt l : StronglySorted Z.le l -> NoDup l -> StronglySorted Z.lt l.
Proof.
  induction 1 as [|a l Hs IH Hall]; intros Hnd; constructor; inversion Hnd as [|? ? Hn Hnd']; subst.
  - now apply IH.
  - rewrite Forall_forall in Hall |- *. intros x Hx. specialize (Hall x Hx).
    assert (a <> x) by (intros ->; contradiction). lia.
Qed.

Lemma unique_spec x vs ps : unique x = (vs, ps) ->
  StronglySorted Z.lt vs /\ (forall v, In v vs <-> In v x) /\
  Forall2 (first_position (zsort x)) vs ps /\ StronglySorted lt ps.
Proof.
  unfold unique. intros E.
  apply (@unique_scan_spec (zsort x) [] [] vs ps) in E as (H1 & H2 & H4 & H5 & _ & H7).
  - split; [apply StronglySorted_le_lt; auto using zsort_sorted|]. split; [|split; assumption].
    intros v. rewrite H2. simpl. rewrite (isort_In Z.ltb v x). tauto.
  - constructor.
  - intros v. simpl. split; [congruence|contradiction].
Qed.

(** * Set utilities *)
Lemma contains_spec v1 v2 : contains v1 v2 = true <-> incl v1 v2.
Proof.
  unfold contains, incl. rewrite forallb_forall. split; intros H i Hi; specialize (H i Hi).
  - apply existsb_exists in H. destruct H as (j & Hj & E). apply Z.eqb_eq in E. now subst.
  - apply existsb_exists. exists i. split; [assumption|apply Z.eqb_refl].
Qed.

Lemma std_unique_spec l : StronglySorted Z.le l ->
  StronglySorted Z.lt (std_unique l) /\ (forall v, In v (std_unique l) <-> In v l).
Proof.
  induction 1 as [|a l Hs IH Hall].
  - split; [constructor|]. simpl. tauto.
  - simpl. destruct l as [|b l'].
    + split; [repeat constructor|]. simpl. tauto.
    + destruct IH as (IH1 & IH2). destruct (Z.eqb_spec a b) as [->|Hne].
      * split; [assumption|]. intros v. rewrite IH2. simpl. tauto.
      * split.
        -- constructor; [assumption|]. apply Forall_forall. intros v Hv. apply IH2 in Hv.
           inversion Hall as [|? ? Hab _]; subst. inversion Hs as [|? ? _ Hall']; subst.
           destruct Hv as [<-|Hv]; [lia|]. rewrite Forall_forall in Hall'. specialize (Hall' v Hv). lia.
        -- intros v. simpl. simpl in IH2. rewrite IH2. tauto.
Qed.

Lemma set_difference_cons a l1 b l2 :
  set_difference (a :: l1) (b :: l2) =
  if (a <? b)%Z then a :: set_difference l1 (b :: l2)
  else if (b <? a)%Z then set_difference (a :: l1) l2 else set_difference l1 l2.
Proof. reflexivity. Qed.

Lemma set_difference_spec : forall l1 l2, StronglySorted Z.lt l1 -> StronglySorted Z.le l2 ->
  StronglySorted Z.lt (set_difference l1 l2) /\
  (forall v, In v (set_difference l1 l2) <-> In v l1 /\ ~ In v l2).
Proof.
  induction l1 as [|a l1 IH1]; intros l2 H1 H2.
  - split; [destruct l2; constructor|]. intros v. destruct l2; simpl; tauto.
  - revert H2. induction l2 as [|b l2 IH2]; intros H2.
    + change (set_difference (a :: l1) []) with (a :: l1). split; [assumption|]. intros v. simpl. tauto.
    + rewrite set_difference_cons.
      inversion H1 as [|? ? H1' F1]; subst. inversion H2 as [|? ? H2' F2]; subst.
      rewrite Forall_forall in F1, F2.
      destruct (Z.ltb_spec a b) as [Hlt|Hge].
      * destruct (IH1 (b :: l2)) as (S1 & M1); auto. split.
        -- constructor; [assumption|]. apply Forall_forall. intros v Hv. apply F1. now apply M1.
        -- intros v. simpl. rewrite M1. simpl. split.
           ++ intros [<-|(Hv & Hn)]; [|tauto]. split; [now left|].
              intros [->|Hin]; [lia|]. specialize (F2 a Hin). lia.
           ++ tauto.
      * destruct (Z.ltb_spec b a) as [Hlt|Hge2].
        -- destruct (IH2 H2') as (S2 & M2). split; [assumption|]. intros v. rewrite M2. simpl. split.
           ++ intros (Hv & Hn). split; [assumption|]. intros [->|Hin]; [|contradiction].
              destruct Hv as [->|Hv]; [lia|]. specialize (F1 v Hv). lia.
           ++ tauto.
        -- assert (a = b) by lia. subst b. destruct (IH1 l2) as (S1 & M1); auto.
           split; [assumption|]. intros v. rewrite M1. simpl. split.
           ++ intros (Hv & Hn). split; [now right|]. intros [->|Hin]; [|contradiction].
              specialize (F1 v Hv). lia.
           ++ intros ([->|Hv] & Hn); [tauto|]. tauto.
Qed.

Lemma difference_spec v1 v2 sorted :
  (sorted = true \/ StronglySorted Z.le v1 /\ StronglySorted Z.le v2) ->
  StronglySorted Z.lt (difference v1 v2 sorted) /\
  (forall v, In v (difference v1 v2 sorted) <-> In v v1 /\ ~ In v v2).
Proof.
  intros H. unfold difference.
  set (c1 := if sorted then zsort v1 else v1). set (c2 := if sorted then zsort v2 else v2).
  assert (Hc : StronglySorted Z.le c1 /\ StronglySorted Z.le c2 /\
               (forall v, In v c1 <-> In v v1) /\ (forall v, In v c2 <-> In v v2)).
  { subst c1 c2. destruct sorted.
    - repeat split; try apply zsort_sorted; try apply isort_In;
        intros Hv; eapply isort_In; eassumption.
    - destruct H as [H|[H1 H2]]; [discriminate|]. repeat split; auto. }
  destruct Hc as (S1 & S2 & M1 & M2).
  destruct (std_unique_spec S1) as (S3 & M3).
  destruct (@set_difference_spec (std_unique c1) c2 S3 S2) as (S4 & M4).
  split; [assumption|]. intros v. rewrite M4, M3, M1, M2. tauto.
Qed.

Lemma merge_perm {A} (v1 v2 : list A) : Permutation (merge v1 v2) (v1 ++ v2).
Proof.
  revert v2. induction v1 as [|a v1 IH]; intros [|b v2]; simpl; auto.
  - now rewrite app_nil_r.
  - constructor. rewrite IH. now apply Permutation_cons_app.
Qed.

Lemma merge_nth {A} (v1 v2 : list A) i : i < length v1 -> i < length v2 ->
  nth_error (merge v1 v2) (2 * i) = nth_error v1 i /\
  nth_error (merge v1 v2) (2 * i + 1) = nth_error v2 i.
Proof.
  revert v2 i. induction v1 as [|a v1 IH]; intros [|b v2] [|i] H1 H2; simpl in *; try lia; auto.
  replace (i + S (i + 0)) with (S (2 * i)) by lia.
  replace (i + S (i + 0) + 1) with (S (2 * i + 1)) by lia.
  replace (S (2 * i) + 1) with (S (2 * i + 1)) by lia. simpl nth_error. apply IH; lia.
Qed.

Lemma merge_rest {A} (v1 v2 : list A) :
  skipn (2 * Nat.min (length v1) (length v2)) (merge v1 v2) =
  skipn (length v2) v1 ++ skipn (length v1) v2.
Proof.
  revert v2. induction v1 as [|a v1 IH]; intros [|b v2]; simpl; auto.
  - now rewrite app_nil_r.
  - replace (Nat.min (length v1) (length v2) + S (Nat.min (length v1) (length v2) + 0))
      with (S (2 * Nat.min (length v1) (length v2))) by lia.
    simpl skipn. apply IH.
Qed.

Lemma where_from_spec l : forall k, StronglySorted lt (where_from l k) /\
  (forall i, In i (where_from l k) <-> k <= i /\ nth_error l (i - k) = Some true).
Proof.
  induction l as [|b l IH]; intros k; simpl.
  - split; [constructor|]. intros i. split; [contradiction|]. intros (_ & H). destruct (i - k); discriminate.
  - destruct (IH (S k)) as (HS & HM).
    assert (Hstep : forall i, k <= i -> i <> k -> nth_error (b :: l) (i - k) = nth_error l (i - S k)).
    { intros i Hi Hne. replace (i - k) with (S (i - S k)) by lia. reflexivity. }
    destruct b; split; auto.
    + constructor; [assumption|]. apply Forall_forall. intros i Hi. apply HM in Hi. lia.
    + intros i. simpl. rewrite HM. split.
      * intros [<-|(Hi & E)]; [rewrite Nat.sub_diag; simpl; auto|].
        split; [lia|]. rewrite Hstep by lia. assumption.
      * intros (Hi & E). destruct (Nat.eq_dec k i); [now left|right]. split; [lia|].
        rewrite <- Hstep by lia. assumption.
    + intros i. rewrite HM. split.
      * intros (Hi & E). split; [lia|]. rewrite Hstep by lia. assumption.
      * intros (Hi & E). destruct (Nat.eq_dec k i) as [->|].
        { rewrite Nat.sub_diag in E. discriminate. }
        split; [lia|]. rewrite <- Hstep by lia. assumption.
Qed.

Lemma where_spec l : StronglySorted lt (where_ l) /\
  (forall i, In i (where_ l) <-> nth_error l i = Some true).
Proof.
  destruct (where_from_spec l 0) as (H1 & H2). split; [assumption|]. intros i. unfold where_.
  rewrite H2, Nat.sub_0_r. intuition lia.
Qed.

Lemma clip_spec l mx mn : (mn <= mx)%Z ->
  Forall2 (fun x y => (mn <= y <= mx)%Z /\ ((mn <= x <= mx)%Z -> y = x) /\
                      (forall z, (mn <= z <= mx)%Z -> (Z.abs (x - y) <= Z.abs (x - z))%Z)) l (clip l mx mn).
Proof.
  intros H. unfold clip. apply Forall2_map_r. intros x. split; [lia|]. split; [lia|]. intros z Hz. lia.
Qed.

(** * Shapes *)
Lemma flatten_vec_concat v : flatten_vec v = concat v.
Proof.
  unfold flatten_vec. assert (H : forall acc, fold_left (fun dest src => dest ++ src) v acc = acc ++ concat v).
  { induction v as [|l v IH]; intros acc; simpl; [now rewrite app_nil_r|]. rewrite IH. now rewrite app_assoc. }
  apply H.
Qed.

Lemma nth_combine {A B} (l1 : list A) (l2 : list B) i d1 d2 : length l1 = length l2 ->
  nth i (combine l1 l2) (d1, d2) = (nth i l1 d1, nth i l2 d2).
Proof. apply combine_nth. Qed.

Lemma hstack_spec x1 x2 m : hstack x1 x2 = Ok m -> mat_ok x1 -> mat_ok x2 ->
  length (mrows x1) = length (mrows x2) /\ mat_ok m /\ mcols m = mcols x1 + mcols x2 /\
  length (mrows m) = length (mrows x1) /\
  forall i, nth i (mrows m) [] = nth i (mrows x1) [] ++ nth i (mrows x2) [].
Proof.
  unfold hstack. destruct (Nat.eqb_spec (length (mrows x1)) (length (mrows x2))) as [E|E]; [|discriminate].
  intros [= <-] H1 H2. unfold mat_ok. simpl. split; [assumption|]. split; [|split; [reflexivity|split]].
  - apply Forall_forall. intros r Hr. apply in_map_iff in Hr. destruct Hr as ((a & b) & <- & Hin).
    unfold mat_ok in H1, H2. rewrite Forall_forall in H1, H2. simpl. rewrite app_length.
    rewrite (H1 a) by (eapply in_combine_l; eassumption).
    rewrite (H2 b) by (eapply in_combine_r; eassumption). reflexivity.
  - rewrite map_length, combine_length. lia.
  - intros i. change (@nil Z) with ((fun p : list Z * list Z => fst p ++ snd p) ([], [])) at 1.
    rewrite map_nth, nth_combine by assumption. reflexivity.
Qed.

Lemma vstack_spec x1 x2 m : vstack x1 x2 = Ok m -> mat_ok x1 -> mat_ok x2 ->
  mcols x1 = mcols x2 /\ mat_ok m /\ mcols m = mcols x1 /\ mrows m = mrows x1 ++ mrows x2.
Proof.
  unfold vstack. destruct (Nat.eqb_spec (mcols x1) (mcols x2)) as [E|E]; [|discriminate].
  intros [= <-] H1 H2. simpl. repeat split; auto. unfold mat_ok in *. simpl.
  apply Forall_app. split; [assumption|]. rewrite E. assumption.
Qed.

Lemma hstack_vstack_throw x1 x2 :
  (length (mrows x1) <> length (mrows x2) -> hstack x1 x2 = Throw InvalidArgument) /\
  (mcols x1 <> mcols x2 -> vstack x1 x2 = Throw InvalidArgument) /\
  (length (mrows x1) = length (mrows x2) -> exists m, hstack x1 x2 = Ok m) /\
  (mcols x1 = mcols x2 -> exists m, vstack x1 x2 = Ok m).
Proof.
  unfold hstack, vstack. split; [|split; [|split]]; intros H.
  - apply Nat.eqb_neq in H. now rewrite H.
  - apply Nat.eqb_neq in H. now rewrite H.
  - apply Nat.eqb_eq in H. rewrite H. eauto.
  - apply Nat.eqb_eq in H. rewrite H. eauto.
Qed.

Lemma nth_error_concat_repeat {A} (l : list A) (n q r : nat) :
  r < length l -> q < n -> nth_error (concat (repeat l n)) (q * length l + r) = nth_error l r.
Proof.
  intros Hr. revert q. induction n as [|n IH]; intros q Hq; [lia|]. simpl.
  destruct q as [|q].
  - simpl. now rewrite nth_error_app1 by assumption.
  - rewrite nth_error_app2 by (simpl; lia).
    replace (S q * length l + r - length l) with (q * length l + r) by (simpl; lia). apply IH. lia.
Qed.

Lemma concat_repeat_length {A} (l : list A) n : length (concat (repeat l n)) = n * length l.
Proof. induction n as [|n IH]; simpl; [reflexivity|]. rewrite app_length, IH. lia. Qed.

Lemma repeat_rows m n : let r := repeat_mat m n 0 in
  mcols r = mcols m /\ length (mrows r) = n * length (mrows m) /\
  forall q i, q < n -> i < length (mrows m) ->
    nth_error (mrows r) (q * length (mrows m) + i) = nth_error (mrows m) i.
Proof.
  simpl. split; [reflexivity|]. split; [apply concat_repeat_length|].
  intros q i Hq Hi. now apply nth_error_concat_repeat.
Qed.

Lemma repeat_cols m n : mat_ok m -> let r := repeat_mat m n 1 in
  mat_ok r /\ mcols r = mcols m * n /\ length (mrows r) = length (mrows m) /\
  forall i q j, i < length (mrows m) -> q < n -> j < mcols m ->
    nth_error (nth i (mrows r) []) (q * mcols m + j) = nth_error (nth i (mrows m) []) j.
Proof.
  intros Hok. simpl. unfold mat_ok in *. simpl. split; [|split; [reflexivity|split]].
  - rewrite Forall_forall in Hok |- *. intros r Hr. apply in_map_iff in Hr. destruct Hr as (r0 & <- & Hin).
    rewrite concat_repeat_length, (Hok r0 Hin). lia.
  - apply map_length.
  - intros i q j Hi Hq Hj. rewrite Forall_forall in Hok.
    assert (Hlen : length (nth i (mrows m) []) = mcols m) by (apply Hok, nth_In; assumption).
    rewrite (nth_indep _ [] (concat (repeat [] n))) by (now rewrite map_length).
    rewrite (map_nth (fun r => concat (repeat r n))).
    rewrite <- Hlen at 1. apply nth_error_concat_repeat; [now rewrite Hlen|assumption].
Qed.

Lemma nth_error_concat {A} k : forall (v : list (list A)) i j, Forall (fun r => length r = k) v -> j < k ->
  nth_error (concat v) (i * k + j) = match nth_error v i with Some r => nth_error r j | None => None end.
Proof.
  induction v as [|r v IH]; intros i j HF Hj; simpl.
  - destruct i, (_ + _); reflexivity.
  - inversion HF as [|? ? Hr HF']; subst. destruct i as [|i]; simpl.
    + now rewrite nth_error_app1 by assumption.
    + rewrite nth_error_app2 by lia.
      replace (length r + i * length r + j - length r) with (i * length r + j) by lia.
      apply IH; assumption.
Qed.

Lemma vec2mat_spec v m : vec2mat v = Ok m ->
  mat_ok m /\ mrows m = v /\ flatten_mat m = flatten_vec v.
Proof.
  destruct v as [|r0 v]; simpl; [discriminate|].
  destruct (length r0 =? 0); [discriminate|].
  destruct (forallb (fun r => length r =? length r0) v) eqn:E; simpl; rewrite ?Nat.eqb_refl; simpl; [|discriminate].
  intros [= <-]. unfold mat_ok. simpl. split; [|split].
  - constructor; [reflexivity|]. rewrite forallb_forall in E. apply Forall_forall. intros r Hr.
    now apply Nat.eqb_eq, E.
  - reflexivity.
  - now rewrite flatten_vec_concat.
Qed.

Lemma vec2mat_Ok v k : v <> [] -> 0 < k -> Forall (fun r => length r = k) v -> vec2mat v = Ok (Mat k v).
Proof.
  intros Hv Hk HF. destruct v as [|r0 v]; [congruence|]. inversion HF as [|? ? Hr0 HF']; subst.
  simpl. rewrite (proj2 (Nat.eqb_neq (length r0) 0)) by lia. rewrite Nat.eqb_refl. simpl.
  replace (forallb (fun r => length r =? length r0) v) with true; [reflexivity|].
  symmetry. apply forallb_forall. intros r Hr. rewrite Forall_forall in HF'. apply Nat.eqb_eq. auto.
Qed.

Lemma vec2mat_ragged r0 v : r0 <> [] -> Exists (fun r => length r <> length r0) v ->
  vec2mat (r0 :: v) = Throw InvalidArgument.
Proof.
  intros Hr0 HE. unfold vec2mat. destruct r0 as [|a r0]; [congruence|].
  replace (length (a :: r0) =? 0) with false by reflexivity. cbn [forallb].
  rewrite Nat.eqb_refl. cbn [andb].
  replace (forallb (fun r => length r =? length (a :: r0)) v) with false; [reflexivity|].
  symmetry. apply Bool.not_true_iff_false. rewrite forallb_forall. intros H.
  apply Exists_exists in HE. destruct HE as (r & Hin & Hne). apply Hne. now apply Nat.eqb_eq, H.
Qed.

(** * slice *)
Lemma wsub_ok a b : b <= a -> (Z.of_nat a < 2 ^ 64)%Z -> wsub a b = Z.of_nat (a - b).
Proof. intros H1 H2. unfold wsub. rewrite Z.mod_small; lia. Qed.

Lemma slice2d_spec x r0 r1 c0 c1 :
  (Z.of_nat (length x) < 2 ^ 64)%Z -> (Z.of_nat c1 < 2 ^ 64)%Z ->
  r0 <= r1 < length x -> c0 <= c1 -> Forall (fun r => c1 < length r) x ->
  c1 - c0 < length x ->
  slice2d x r0 r1 c0 c1 =
    Ok (map (fun i => firstn (S c1 - c0) (skipn c0 (nth i x []))) (seq r0 (S r1 - r0))).
Proof.
  intros Hb Hb2 Hr Hc HF Hg. unfold slice2d.
  rewrite (proj2 (Nat.ltb_ge r1 r0)) by lia. simpl orb.
  rewrite !wsub_ok by lia.
  rewrite (proj2 (Z.ltb_ge _ _)) by lia. rewrite (proj2 (Z.ltb_ge _ _)) by lia.
  apply mapM_Ok. intros i Hi. apply in_seq in Hi. rewrite (vget_Ok x []) by lia.
  simpl bind. unfold range_copy. rewrite Forall_forall in HF.
  assert (c1 < length (nth i x [])) by (apply HF, nth_In; lia).
  rewrite (proj2 (Nat.leb_le c0 (S c1))) by lia. rewrite (proj2 (Nat.leb_le (S c1) _)) by lia. reflexivity.
Qed.

Lemma slice2d_wide x r0 r1 c0 c1 :
  (Z.of_nat (length x) < 2 ^ 64)%Z -> (Z.of_nat c1 < 2 ^ 64)%Z ->
  0 < length x -> c0 <= c1 -> length x <= c1 - c0 ->
  slice2d x r0 r1 c0 c1 = Throw InvalidArgument.
Proof.
  intros Hb Hb2 Hl Hc Hg. unfold slice2d. destruct ((_ <? _) || _); [reflexivity|].
  rewrite !wsub_ok by lia. rewrite (proj2 (Z.ltb_lt _ _)) by lia. reflexivity.
Qed.

Lemma slice1d_never x s e r : slice1d x s e <> Ok r.
Proof.
  unfold slice1d. destruct (_ <? _)%Z; [discriminate|]. unfold range_copy.
  rewrite (proj2 (Nat.leb_gt (length x + e + 1) (length x))) by lia.
  rewrite Bool.andb_false_r. discriminate.
Qed.

Lemma slice1d_ub x s e : (Z.of_nat (length x) < 2 ^ 64)%Z -> s <= e < length x -> slice1d x s e = UB.
Proof.
  intros Hb H. unfold slice1d. rewrite !wsub_ok by lia. rewrite (proj2 (Z.ltb_ge _ _)) by lia.
  unfold range_copy. rewrite (proj2 (Nat.leb_gt (length x + e + 1) (length x))) by lia.
  now rewrite Bool.andb_false_r.
Qed.

(** * max_element, fmin *)
Lemma max_by_second_spec {K} : forall (l : list (K * Z)) pre b post,
  (forall e, In e pre -> (snd e < snd b)%Z) -> (forall e, In e post -> (snd e <= snd b)%Z) ->
  exists pre' post', pre ++ b :: post ++ l = pre' ++ max_by_second b l :: post' /\
    (forall e, In e pre' -> (snd e < snd (max_by_second b l))%Z) /\
    (forall e, In e post' -> (snd e <= snd (max_by_second b l))%Z).
Proof.
  induction l as [|e l IH]; intros pre b post H1 H2; simpl.
  - exists pre, post. rewrite app_nil_r. auto.
  - destruct (Z.ltb_spec (snd b) (snd e)) as [Hlt|Hge].
    + destruct (IH (pre ++ b :: post) e []) as (pre' & post' & E & Ha & Hb).
      * intros x Hx. apply in_app_iff in Hx. destruct Hx as [Hx|[<-|Hx]]; [apply H1 in Hx; lia|lia|].
        apply H2 in Hx. lia.
      * intros x [].
      * exists pre', post'. split; [|auto]. rewrite <- E. rewrite <- app_assoc. reflexivity.
    + destruct (IH pre b (post ++ [e])) as (pre' & post' & E & Ha & Hb); auto.
      * intros x Hx. apply in_app_iff in Hx. destruct Hx as [Hx|[<-|[]]]; [now apply H2|lia].
      * exists pre', post'. split; [|auto]. rewrite <- E. rewrite <- app_assoc. reflexivity.
Qed.

Lemma max_element_spec {K} (l : list (K * Z)) : l <> [] ->
  exists e pre post, max_element l = Ok e /\ l = pre ++ e :: post /\
    (forall e', In e' pre -> (snd e' < snd e)%Z) /\ (forall e', In e' post -> (snd e' <= snd e)%Z).
Proof.
  intros Hl. destruct l as [|e0 l]; [congruence|].
  destruct (@max_by_second_spec K l [] e0 []) as (pre & post & E & H1 & H2); try (intros e []).
  exists (max_by_second e0 l), pre, post. simpl in *. auto.
Qed.
