(** L-BFGS: directions of descent, decrease, and termination. *)
From Coq Require Import Reals Lra.
From Verif Require Import Base Common_Model RDR_Proofs KDReal_Proofs Vec Impurity_Spec Loss_Model Lbfgs_Model LineSearch_Spec LineSearch_Proofs OptimSteps_Proofs
  Shuffle_Proofs Lbfgs_Spec Lbfgs_Proofs Properties_LineSearch LbfgsRun_Proofs.
Local Open Scope R_scope.
Set Implicit Arguments.

Lemma opp_vscale v : map Ropp v = vscale (-1) v.
Proof. unfold vscale. apply map_ext. intro. ring. Qed.
Lemma step_back (x d : list R) t : length d = length x -> vsub (vadd x (vscale t d)) x = vscale t d.
Proof. revert d. induction x as [|a x IH]; intros [|b d] L; cbn in *; try discriminate; auto. unfold vsub, vadd in *. cbn. f_equal; [ring|]. apply IH. lia. Qed.
Lemma sqn_scale t v : sqn (vscale t v) = t * t * sqn v.
Proof. unfold sqn. rewrite dot_vscale_l, dot_vscale_r. ring. Qed.

(** A direction of descent. *)
Lemma dot_zero_sqn v u : sqn u = 0 -> dot v u = 0.
Proof.
  revert v. induction u as [|a u IH]; intros v H; [apply dot_nil_r|]. destruct v as [|b v]; [apply dot_nil_l|].
  change (sqn (a :: u)) with (a * a + sqn u) in H. pose proof (sqn_nonneg u). pose proof (Rle_0_sqr a). unfold Rsqr in *. assert (a = 0) by nra. subst a.
  change (dot (b :: v) (0 :: u)) with (b * 0 + dot v u). rewrite IH by lra. ring.
Qed.
Lemma direction_descends n gamma ps g : 0 < gamma -> (forall p, In p ps -> pair_ok n p /\ 0 < dot (snd p) (fst p)) -> length g = n ->
  dot (inverse_hessian gamma ps (map Ropp g)) g <= 0 /\ (sqn g <> 0 -> dot (inverse_hessian gamma ps (map Ropp g)) g < 0).
Proof.
  intros Hg HP Lg. assert (L : length (map Ropp g) = n) by (now rewrite map_length).
  destruct (@inverse_pos n gamma ps Hg HP (map Ropp g) L) as (A & B).
  assert (E : dot (map Ropp g) (inverse_hessian gamma ps (map Ropp g)) = - dot (inverse_hessian gamma ps (map Ropp g)) g).
  { rewrite (dot_comm (map Ropp g)). rewrite opp_vscale at 2. rewrite dot_vscale_r. ring. }
  rewrite E in A, B. split; [lra|]. intro N. assert (0 < - dot (inverse_hessian gamma ps (map Ropp g)) g); [|lra]. apply B. rewrite opp_vscale, sqn_scale. lra.
Qed.
Lemma scaling_pos ps : (forall p, In p ps -> 0 < dot (snd p) (fst p)) -> 0 < scaling ps.
Proof.
  destruct ps as [|[s y] ps]; intro H; cbn [scaling]; [lra|]. specialize (H _ (or_introl eq_refl)). cbn [fst snd] in H.
  apply Rmult_lt_0_compat; auto. apply Rinv_0_lt_compat. pose proof (sqn_nonneg y) as Q. unfold sqn in Q. destruct Q as [Q|Q]; auto.
  rewrite (dot_comm y s) in H. rewrite dot_zero_sqn in H by (unfold sqn; lra). lra.
Qed.
Lemma firstn_in {A} k (l : list A) x : In x (firstn k l) -> In x l.
Proof. intro H. rewrite <- (firstn_skipn k l). apply in_or_app. now left. Qed.

Section Descent.
  Variable evaluate : list R -> outcome R.
  Variable gradient : list R -> outcome (list R).
  Variable P : ls_params.
  Variable m : nat.
  Variable x0 : list R.
  Let run := accepted_points evaluate gradient P m x0.

  Lemma run_head p pts : run (p :: pts) -> evaluate (p_x p) = Ok (p_f p) /\ gradient (p_x p) = Ok (p_g p).
  Proof. intro H. inversion H as [f0 g0 E1 E2 Q|q qs step x' f' g' R1 R2 R3 (A1 & A2 & A3 & A4) R5 Q]; subst; unfold p_x, p_f, p_g; auto. Qed.
  Lemma run_tail p q pts : run (p :: q :: pts) -> run (q :: pts).
  Proof. intro H. inversion H. auto. Qed.
  Lemma run_suffix a b : run (a ++ b) -> b <> [] -> run b.
  Proof. induction a as [|p a IH]; auto. intros H N. cbn [app] in H. apply IH; auto. destruct (a ++ b) as [|q pts] eqn:E; [|eapply run_tail; eauto]. apply app_eq_nil in E. tauto. Qed.
  Lemma run_last pts : run pts -> exists p, last pts p = p /\ In p pts /\ p_x p = x0 /\ forall d, last pts d = p.
  Proof.
    induction 1 as [f0 g0 E1 E2|p pts step x' f' g' R IH].
    - exists (x0, f0, g0). cbn. auto.
    - destruct IH as (p0 & A & B & C & D). exists p0. split; [|split; [now right|split; auto]]; intros; change (last ((x', f', g') :: p :: pts)) with (last (p :: pts)); auto.
  Qed.

  (** The objective never increases. *)
  Lemma run_step_monotone p q pts : 0 <= ftol P -> run (p :: q :: pts) -> p_f p <= p_f q.
  Proof.
    intros HF H. inversion H as [|q' qs step x' f' g' R1 R2 R3 R4 (R5 & _) Q]; subst. unfold p_f at 1. cbn [fst snd].
    assert (0 <= step * (ftol P * - dot (lbfgs_direction m (q :: pts)) (p_g q))) by (apply Rmult_le_pos; [lra|]; apply Rmult_le_pos; lra). lra.
  Qed.
  Lemma run_monotone p pts q : 0 <= ftol P -> run (p :: pts) -> In q (p :: pts) -> p_f p <= p_f q.
  Proof.
    intros HF. revert p. induction pts as [|p' pts IH]; intros p H [<-|Hq]; try lra; [destruct Hq|].
    pose proof (run_step_monotone HF H). specialize (IH p' (run_tail H) Hq). lra.
  Qed.

  (** Sizes, when the gradient has the size of the point. *)
  Hypothesis Hgrad : forall x g, length x = length x0 -> gradient x = Ok g -> length g = length x0.
  Lemma run_sized pts : run pts -> forall p, In p pts -> length (p_x p) = length x0 /\ length (p_g p) = length x0.
  Proof.
    induction 1 as [f0 g0 E1 E2|p pts step x' f' g' R IH S1 S2 (A1 & A2 & A3 & A4) S5]; intros q Hq.
    - destruct Hq as [<-|[]]. unfold p_x, p_g. cbn. eauto.
    - destruct Hq as [<-|Hq]; auto. unfold p_x, p_g. cbn [fst snd]. destruct (IH p) as (L1 & L2); [now left|].
      assert (length x' = length x0) by (rewrite A2, vadd_length; rewrite ?vscale_length; congruence). eauto.
  Qed.
  Lemma run_pairs pts : run pts -> forall c, In c (corrections pts) -> pair_ok (length x0) c.
  Proof. intros R. apply corrections_ok. intros q Hq. eapply run_sized; eauto. Qed.
  Lemma run_direction_length p pts : run (p :: pts) -> length (lbfgs_direction m (p :: pts)) = length x0.
  Proof.
    intro R. unfold lbfgs_direction. apply inverse_length.
    - intros c Hc. apply firstn_in in Hc. eapply run_pairs; eauto.
    - rewrite map_length. eapply run_sized; eauto. now left.
  Qed.

  (** Along descent the next curvature product is positive. *)
  Hypothesis Hcurv : forall p pts step x' f' g', run (p :: pts) -> dot (lbfgs_direction m (p :: pts)) (p_g p) < 0 -> 0 < step ->
    at_step evaluate gradient (p_x p) (lbfgs_direction m (p :: pts)) step x' f' g' ->
    acceptable P (lbfgs_direction m (p :: pts)) (p_f p) (dot (lbfgs_direction m (p :: pts)) (p_g p)) step f' g' ->
    0 < dot (vsub g' (p_g p)) (vsub x' (p_x p)).

  Lemma head_descends p pts : run (p :: pts) -> (forall c, In c (corrections (p :: pts)) -> 0 < dot (snd c) (fst c)) -> sqn (p_g p) <> 0 ->
    dot (lbfgs_direction m (p :: pts)) (p_g p) < 0.
  Proof.
    intros R HC N. unfold lbfgs_direction. eapply (@direction_descends (length x0)); auto.
    - apply scaling_pos. intros c Hc. apply HC. eapply firstn_in; eauto.
    - intros c Hc. apply firstn_in in Hc. split; [eapply run_pairs; eauto|auto].
    - eapply run_sized; eauto. now left.
  Qed.
  Lemma run_curvature pts : run pts -> (forall p, In p (tl pts) -> sqn (p_g p) <> 0) -> forall c, In c (corrections pts) -> 0 < dot (snd c) (fst c).
  Proof.
    induction 1 as [f0 g0 E1 E2|p pts step x' f' g' R IH S1 S2 S3 S4]; intros HN c Hc; [destruct Hc|].
    assert (IH' : forall c, In c (corrections (p :: pts)) -> 0 < dot (snd c) (fst c)).
    { apply IH. intros q Hq. apply HN. cbn [tl] in *. now right. }
    cbn [corrections] in Hc. destruct Hc as [<-|Hc]; [|auto]. cbn [fst snd]. unfold p_x at 1, p_g at 1. cbn [fst snd].
    eapply Hcurv; eauto. apply head_descends; auto. apply HN. now left.
  Qed.
  Lemma run_descends p pts : run (p :: pts) -> (forall q, In q (p :: pts) -> sqn (p_g q) <> 0) -> dot (lbfgs_direction m (p :: pts)) (p_g p) < 0.
  Proof. intros R HN. apply head_descends; auto; [|apply HN; now left]. apply run_curvature; auto. intros q Hq. apply HN. now right. Qed.
End Descent.

Lemma wolfe_curvature evaluate gradient P x (d g : list R) step f x' f' g' : condition P <> Armijo -> wolfe P < 1 -> dot d g < 0 -> 0 < step -> length g = length x -> length g' = length x ->
  at_step evaluate gradient x d step x' f' g' -> acceptable P d f (dot d g) step f' g' -> 0 < dot (vsub g' g) (vsub x' x).
Proof.
  intros HC HW HS Hst L1 L2 (A1 & -> & _) (_ & A). rewrite step_back by auto. rewrite dot_vscale_r, dot_vsub_l by congruence. apply Rmult_lt_0_compat; auto.
  rewrite (dot_comm g' d), (dot_comm g d). destruct (condition P); [contradiction|nra|nra].
Qed.

Section Total.
  Variable evaluate : list R -> outcome R.
  Variable gradient : list R -> outcome (list R).
  Variable policy : ls_policy.
  Variable P : ls_params.
  Variables m past max_iter : nat.
  Variables tol delta : R.
  Variable garbage : nat -> R.
  Variable x0 : list R.
  Hypothesis Hm : (0 < m)%nat.
  Hypothesis Hp : (0 < past)%nat.
  Hypothesis Hdec : 0 < dec_factor P.
  Hypothesis Hinc : 0 < inc_factor P.
  Hypothesis HPol : policy <> OtherPolicy.
  Hypothesis Htotal : forall z, length z = length x0 -> exists f h, evaluate z = Ok f /\ gradient z = Ok h /\ length h = length x0.
  Let run := accepted_points evaluate gradient P m x0.
  Let go_on := fun pts => ~ settled past max_iter tol delta garbage pts.

  Lemma Hgrad : forall x g, length x = length x0 -> gradient x = Ok g -> length g = length x0.
  Proof. intros x g L E. destruct (Htotal _ L) as (f & h & _ & E2 & L2). congruence. Qed.

  Lemma turn_defined p rest st : inv evaluate gradient P m past max_iter tol delta garbage x0 p rest st ->
    exists r, lbfgs_turn (line_search policy evaluate gradient P) m past max_iter tol delta st = Ok r.
  Proof.
    intros [Irun Ix If Ig Id Istep Ik Iend (M1 & M2 & M3) Iring Isz Ix0 (Ipfx & _) Igo]. unfold lbfgs_turn. rewrite Ix, If, Ig, Id, Istep, Ik.
    destruct (run_sized Hgrad Irun) with (p := p) as (L1 & L2); [now left|].
    destruct (C40_defined policy evaluate gradient P (p_x p) (p_f p) (p_g p) (lbfgs_direction m (p :: rest)) (first_trial (p :: rest)) (p_x p) HPol) as (res & EL).
    { rewrite L1. apply (run_direction_length Hgrad Irun). }
    { congruence. }
    { rewrite L1. exact Htotal. }
    rewrite EL. cbn [bind]. destruct (ls_code res) as [c|] eqn:Ec; [|eauto].
    destruct (C40_success _ _ _ _ _ _ _ _ _ _ _ _ Hdec Hinc EL Ec) as (S1 & S2 & S3 & S4 & _). pose proof S3 as (A1 & A2 & A3 & A4).
    destruct (converged tol (ls_x res) (ls_g res)); [eauto|].
    assert (LX : length (ls_x res) = length x0) by (rewrite A2, vadd_length; rewrite ?vscale_length; congruence). pose proof (Hgrad LX A4) as LG.
    assert (exists t, objective_test past delta (length (p :: rest)) (ls_fx res) (lb_pfx st) = Ok t) as (t & Et).
    { unfold objective_test. destruct (past <=? length (p :: rest))%nat; [|eauto]. unfold modM. destruct (Nat.eqb_spec past 0); [lia|]. cbn [bind].
      unfold vget. destruct (nth_error (lb_pfx st) (length (p :: rest) mod past)) eqn:E; cbn [bind]; [destruct (Rltb _ _); eauto|].
      apply nth_error_None in E. pose proof (Nat.mod_upper_bound (length (p :: rest)) past ltac:(lia)). lia. }
    rewrite Et. cbn [bind]. destruct t as [pfx'|]; [|eauto]. destruct (negb (max_iter =? 0)%nat && (max_iter <? length (p :: rest) + 1)%nat)%bool; [eauto|].
    rewrite sub_Ok by congruence. cbn [bind]. unfold set_colM. rewrite M1, M2, M3. destruct (Nat.ltb_spec (lb_end st) m); [|lia]. cbn [bind].
    rewrite sub_Ok by congruence. cbn [bind]. rewrite dotM_Ok by (rewrite !vsub_length; congruence). cbn [bind]. rewrite dotM_Ok by auto. cbn [bind].
    unfold modM at 1. destruct (Nat.eqb_spec m 0); [lia|]. cbn [bind].
    set (q := (ls_x res, ls_fx res, ls_g res) : point). set (ps := firstn m (corrections (q :: p :: rest))).
    assert (Rq : run (q :: p :: rest)) by (eapply accepted_next; eauto).
    assert (Pps : ps = (vsub (ls_x res) (p_x p), vsub (ls_g res) (p_g p)) :: firstn (pred m) (corrections (p :: rest))).
    { unfold ps. destruct m as [|m']; [lia|]. auto. }
    assert (Hbound : (if (m <=? length (p :: rest))%nat then m else length (p :: rest)) = length ps).
    { unfold ps. rewrite firstn_length, corrections_length. cbn [length pred]. destruct (Nat.leb_spec m (S (length rest))); lia. }
    rewrite Hbound. rewrite (@new_direction_spec m (length x0) Hm) with (ps := ps); auto; [cbn [bind]; eauto|..].
    - apply Nat.mod_upper_bound. lia.
    - unfold ps. rewrite firstn_length. lia.
    - rewrite Pps. apply ring_push; auto; try lia.
      + replace (firstn (pred m) (corrections (p :: rest))) with (firstn (pred m) (firstn m (corrections (p :: rest)))) by (rewrite firstn_firstn; f_equal; lia). now apply ring_firstn.
      + rewrite firstn_length. lia.
    - intros c' Hc. apply firstn_in in Hc. eapply run_pairs; eauto. exact Hgrad.
  Qed.

  Lemma loop_total N : (forall pts, run pts -> (forall a b, pts = a ++ b -> b <> [] -> go_on b) -> (length pts <= N)%nat) ->
    forall fuel p rest st, inv evaluate gradient P m past max_iter tol delta garbage x0 p rest st -> (N < fuel + length (p :: rest))%nat ->
    exists x, lbfgs_loop (line_search policy evaluate gradient P) m past max_iter tol delta fuel st = Ok x.
  Proof.
    intros HN. induction fuel as [|fuel IH]; intros p rest st I Hf.
    - assert (length (p :: rest) <= N)%nat; [|lia]. apply HN; [apply I|]. apply (i_go I).
    - cbn [lbfgs_loop]. destruct (turn_defined I) as (r & E). rewrite E. cbn [bind]. destruct r as [x|st']; [eauto|].
      apply (@turn_spec evaluate gradient policy P m past max_iter tol delta garbage x0 Hm Hp Hdec Hinc p rest) in E; auto. destruct E as (q & I'). apply (IH q (p :: rest)); auto. cbn [length] in *. lia.
  Qed.

  Lemma limit_bound pts : max_iter <> O -> run pts -> (forall a b, pts = a ++ b -> b <> [] -> go_on b) -> (length pts <= max_iter)%nat.
  Proof.
    intros N R G. destruct pts as [|p [|q pts]]; [inversion R|cbn; lia|]. destruct (Nat.le_gt_cases (length (p :: q :: pts)) max_iter); auto. exfalso.
    apply (G [] (p :: q :: pts)); auto; [discriminate|]. right. split; [cbn; lia|]. right. split; auto. cbn [length pred] in *. lia.
  Qed.

  (** Without a limit: the objective drops by delta every [past] steps. *)
  Lemma drop_by_delta pts p q : 0 <= ftol P -> 0 <= delta -> run (p :: pts) -> go_on (p :: pts) -> let k := length pts in (k = past \/ 2 * past <= k)%nat ->
    nth_error (p :: pts) past = Some q -> p_f p <= p_f q - delta.
  Proof.
    intros HF HD R G k Hk Eq.
    assert (NS : ~ small_change delta (p_f q) (p_f p)).
    { intro S. apply G. right. cbn [length]. fold k. split; [lia|]. left. exists p, pts, (p_f q). split; auto. split; auto. unfold reference_value. cbn [length pred]. fold k.
      split; [lia|]. replace ((k =? past) || (2 * past <=? k))%bool with true; [eauto|]. symmetry. apply Bool.orb_true_iff. rewrite Nat.eqb_eq, Nat.leb_le. auto. }
    unfold small_change in NS. apply Rnot_lt_le in NS. set (M := Rmax (Rabs (p_f p)) 1) in NS. assert (HM : 1 <= M) by apply Rmax_r.
    assert (delta * M <= Rabs (p_f q - p_f p)). { apply Rmult_le_compat_r with (r := M) in NS; [|lra]. replace (Rabs (p_f q - p_f p) / M * M) with (Rabs (p_f q - p_f p)) in NS by (field; lra). lra. }
    assert (p_f p <= p_f q) by (eapply run_monotone; eauto; eapply nth_error_In; eauto). rewrite Rabs_right in H by lra. nra.
  Qed.
  Lemma nth_skip {A} (a b : list A) : nth_error (a ++ b) (length a) = nth_error b 0.
  Proof. rewrite nth_error_app2 by lia. now rewrite Nat.sub_diag. Qed.
  Lemma drop_total J : 0 <= ftol P -> 0 <= delta -> forall p pts f0, run (p :: pts) -> (forall a b, p :: pts = a ++ b -> b <> [] -> go_on b) -> evaluate x0 = Ok f0 ->
    length pts = (J * past)%nat -> p_f p <= f0 - INR J * delta.
  Proof.
    intros HF HD. induction J as [|J IH]; intros p pts f0 R G E0 L.
    - destruct pts; [|discriminate]. inversion R as [f g E1 E2 Q|]; subst. unfold p_f. cbn. replace (f) with f0 by congruence. lra.
    - destruct (nth_error (p :: pts) past) as [q|] eqn:Eq. 2: { apply nth_error_None in Eq. cbn [length] in Eq. lia. }
      assert (D : p_f p <= p_f q - delta). { eapply drop_by_delta; eauto; [apply (G []); auto; discriminate|]. rewrite L. destruct J; cbn; lia. }
      apply nth_error_split in Eq as (a & b & E & La).
      assert (Rq : run (q :: b)). { apply (@run_suffix evaluate gradient P m x0 a (q :: b)); [fold run; congruence|discriminate]. }
      assert (p_f q <= f0 - INR J * delta). { eapply IH; eauto.
        - intros a' b' E' Nb. apply (G (a ++ a')); auto. rewrite <- app_assoc, <- E'. auto.
        - assert (length (p :: pts) = length (a ++ q :: b)) as LL by congruence. rewrite app_length in LL. cbn [length] in LL. rewrite La in LL. cbn [Nat.mul] in L. lia. }
      rewrite S_INR. lra.
  Qed.
  Lemma decrease_bound f0 B : 0 <= ftol P -> 0 < delta -> evaluate x0 = Ok f0 -> (forall z f, length z = length x0 -> evaluate z = Ok f -> B <= f) ->
    exists N, forall pts, run pts -> (forall a b, pts = a ++ b -> b <> [] -> go_on b) -> (length pts <= N)%nat.
  Proof.
    intros HF HD E0 HB. destruct (archimed ((f0 - B) / delta)) as (U & _).
    assert (exists J, (f0 - B) / delta < INR J) as (J & HJ).
    { exists (Z.to_nat (Z.max 0 (up ((f0 - B) / delta)))). rewrite INR_IZR_INZ, Z2Nat.id by lia. eapply Rlt_le_trans; [exact U|]. apply IZR_le. lia. }
    exists (J * past)%nat. intros pts R G. destruct (Nat.le_gt_cases (length pts) (J * past)) as [|L]; auto. exfalso.
    destruct (nth_error pts (length pts - 1 - J * past)) as [q|] eqn:Eq. 2: { apply nth_error_None in Eq. lia. }
    apply nth_error_split in Eq as (a & b & E & La).
    assert (Rq : run (q :: b)). { apply (@run_suffix evaluate gradient P m x0 a (q :: b)); [fold run; congruence|discriminate]. }
    assert (D : p_f q <= f0 - INR J * delta).
    { apply drop_total with (pts := b); auto; try lra.
      - intros a' b' E' Nb. apply (G (a ++ a')); auto. rewrite <- app_assoc, <- E'. auto.
      - rewrite E, app_length in La. cbn [length] in La. rewrite E, app_length in L. cbn [length] in L. lia. }
    assert (B <= p_f q). { destruct (run_head Rq) as (Q1 & _). apply (HB (p_x q)); auto. eapply (run_sized Hgrad Rq). now left. }
    apply Rmult_lt_compat_r with (r := delta) in HJ; auto. replace ((f0 - B) / delta * delta) with (f0 - B) in HJ by (field; lra). lra.
  Qed.
End Total.
