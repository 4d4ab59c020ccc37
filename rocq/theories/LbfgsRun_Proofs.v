(** The run of L-BFGS. *)
From Coq Require Import Reals Lra.
From Verif Require Import Base Common_Model RDR_Proofs KDReal_Proofs Vec Impurity_Spec Loss_Model Lbfgs_Model LineSearch_Spec LineSearch_Proofs OptimSteps_Proofs
  Shuffle_Proofs Impurity_Proofs Lbfgs_Spec Lbfgs_Proofs Properties_LineSearch.
Local Open Scope R_scope.
Set Implicit Arguments.

Lemma norm2_sqn v : norm2 v = sqrt (sqn v).
Proof.
  unfold norm2. f_equal. rewrite Rsum_total. unfold sqn, dot. f_equal. induction v as [|a v IH]; cbn; [auto|]. f_equal. exact IH.
Qed.
Lemma converged_spec tol x f g : converged tol x g = true <-> small_gradient tol (x, f, g).
Proof.
  unfold converged, small_gradient, p_x, p_g. cbn [fst snd]. rewrite !norm2_sqn.
  replace (if Rltb (sqrt (sqn x)) 1 then 1 else sqrt (sqn x)) with (Rmax 1 (sqrt (sqn x))).
  - unfold Rleb. destruct (Rltb tol _) eqn:E; cbn; split; intro H; try discriminate; auto; [apply Rltb_true in E; lra|apply Rltb_false in E; lra].
  - destruct (Rltb (sqrt (sqn x)) 1) eqn:E; [apply Rltb_true in E; apply Rmax_left; lra|apply Rltb_false in E; apply Rmax_right; lra].
Qed.
Lemma vscale_one v : vscale 1 v = v.
Proof. unfold vscale. rewrite (map_ext (Rmult 1) (fun x => x)) by (intro; ring). apply map_id. Qed.

Lemma corrections_length pts : length (corrections pts) = pred (length pts).
Proof. induction pts as [|a [|b pts] IH]; auto. cbn [corrections length pred] in *. now rewrite IH. Qed.

Section Run.
  Variable evaluate : list R -> outcome R.
  Variable gradient : list R -> outcome (list R).
  Variable policy : ls_policy.
  Variable P : ls_params.
  Variables m past max_iter : nat.
  Variables tol delta : R.
  Variable garbage : nat -> R.
  Variable x0 : list R.
  Hypothesis Hm : (0 < m)%nat.
  Hypothesis Hp : (0 < past)%nat.
  Hypothesis Hdec : 0 < dec_factor P.
  Hypothesis Hinc : 0 < inc_factor P.
  Let n := length x0.
  Let run := accepted_points evaluate gradient P m x0.
  Let go_on := fun pts => ~ settled past max_iter tol delta garbage pts.

  Definition sized (p : point) : Prop := length (p_x p) = n /\ length (p_g p) = n.
  Definition pfx_ok (pts : list point) (pfx : list R) : Prop :=
    length pfx = past /\
    (forall j p, (j < length pts)%nat -> nth_error pts (length pts - 1 - j) = Some p -> (j = 0 \/ past <= j)%nat -> (length pts <= j + past)%nat ->
       nth_error pfx (j mod past) = Some (p_f p)) /\
    (forall i, (0 < i < past)%nat -> (length pts <= past + i)%nat -> nth_error pfx i = Some (garbage i)).

  Lemma objective_spec pts pfx (q : point) t : (1 <= length pts)%nat -> pfx_ok pts pfx -> objective_test past delta (length pts) (p_f q) pfx = Ok t ->
    match t with
    | None => objective_settled past delta garbage (q :: pts)
    | Some pfx' => ~ objective_settled past delta garbage (q :: pts) /\ pfx_ok (q :: pts) pfx'
    end.
  Proof.
    intros L1 (L & A & B). unfold objective_test. set (k := length pts) in *.
    assert (KM : (past <= k)%nat -> exists old, nth_error pfx (k mod past) = Some old /\ forall old', reference_value past garbage (q :: pts) old' <-> old' = old).
    { assert (NE : forall i, past = S i -> nth_error (q :: pts) past = nth_error pts i) by (intros i ->; auto).
      intro Hk. unfold reference_value. cbn [length pred]. fold k.
      destruct (Nat.eqb_spec k past) as [E|E]; [|destruct (Nat.leb_spec (2 * past) k) as [E2|E2]]; cbn [orb].
      - destruct (nth_error pts (k - 1 - 0)) as [p|] eqn:Ep. 2: { apply nth_error_None in Ep. fold k in Ep. lia. }
        exists (p_f p). assert (k mod past = 0 mod past)%nat as -> by (rewrite E, Nat.mod_same, Nat.mod_0_l; lia). split; [apply A; auto; fold k; lia|].
        rewrite (NE (k - 1 - 0)%nat) by lia. intro old'. rewrite Ep. split; [intros (_ & p' & E1 & ->); congruence|]. intros ->. split; [lia|]. eauto.
      - destruct (nth_error pts (k - 1 - (k - past))) as [p|] eqn:Ep. 2: { apply nth_error_None in Ep. fold k in Ep. lia. }
        exists (p_f p). assert (k mod past = (k - past) mod past)%nat as ->. { replace k with (k - past + 1 * past)%nat at 1 by lia. rewrite Nat.mod_add by lia. auto. }
        split; [apply A; auto; fold k; lia|]. rewrite (NE (k - 1 - (k - past))%nat) by lia. intro old'. rewrite Ep. split; [intros (_ & p' & E1 & ->); congruence|].
        intros ->. split; [lia|]. eauto.
      - exists (garbage (k - past)). assert (k mod past = k - past)%nat as ->. { replace k with (k - past + 1 * past)%nat at 1 by lia. rewrite Nat.mod_add, Nat.mod_small by lia. auto. }
        split; [apply B; lia|]. intro old'. split; [intros (_ & ->); auto|]. intros ->. split; [lia|auto]. }
    assert (nth_head : nth_error (q :: pts) (length (q :: pts) - 1 - k) = Some q).
    { cbn [length]. fold k. replace (S k - 1 - k)%nat with 0%nat by lia. auto. }
    assert (nth_tail : forall j, (j < k)%nat -> nth_error (q :: pts) (length (q :: pts) - 1 - j) = nth_error pts (k - 1 - j)).
    { intros j Hj. cbn [length]. fold k. replace (S k - 1 - j)%nat with (S (k - 1 - j)) by lia. auto. }
    destruct (Nat.leb_spec past k) as [Hk|Hk].
    - destruct (KM Hk) as (old & E1 & E2). unfold modM. destruct (Nat.eqb_spec past 0); [lia|]. cbn [bind]. unfold vget. rewrite E1. cbn [bind].
      assert (I : objective_settled past delta garbage (q :: pts) <-> small_change delta old (p_f q)).
      { unfold objective_settled. split.
        - intros (p & rest & old' & Q & Q1 & Q2). injection Q as <- <-. apply E2 in Q1. subst. exact Q2.
        - intro Q. exists q, pts, old. split; auto. split; auto. now apply E2. }
      destruct (Rltb (Rabs (old - p_f q) / Rmax (Rabs (p_f q)) 1) delta) eqn:Er; intro Et; injection Et as <-.
      + apply I. now apply Rltb_true in Er.
      + split. { rewrite I. apply Rltb_false in Er. unfold small_change. lra. }
        split; [rewrite set_nth_length; auto|]. assert (KL : (k mod past < past)%nat) by (apply Nat.mod_upper_bound; lia). split.
        * intros j p Hj Ep Hj1 Hj2. cbn [length] in Hj, Hj2. fold k in Hj, Hj2. destruct (Nat.eq_dec j k) as [->|Nj].
          -- rewrite nth_head in Ep. injection Ep as <-. rewrite set_nth_same by lia. auto.
          -- rewrite nth_tail in Ep by lia. rewrite set_nth_other; [apply A; auto; fold k; lia|].
             intro Q. assert (Hd : (k - j < past)%nat) by lia. assert (Hd0 : (0 < k - j)%nat) by lia.
             assert (Q2 : ((k - j) mod past = 0)%nat).
             { pose proof (Nat.div_mod k past ltac:(lia)) as D1. pose proof (Nat.div_mod j past ltac:(lia)) as D2. (rewrite <- Q in D1 || rewrite Q in D1).
               assert (k - j = past * (k / past - j / past))%nat as ->. { rewrite Nat.mul_sub_distr_l. lia. } rewrite Nat.mul_comm. apply Nat.mod_mul. lia. }
             rewrite Nat.mod_small in Q2 by lia. lia.
        * intros i Hi Hi2. cbn [length] in Hi2. fold k in Hi2. rewrite set_nth_other; [apply B; auto; fold k; lia|].
          intro Q. assert (k mod past = k - past)%nat as Z. { replace k with (k - past + 1 * past)%nat at 1 by lia. rewrite Nat.mod_add, Nat.mod_small by lia. auto. } lia.
    - intro Et. injection Et as <-. split.
      + intros (p & rest & old & Q & (Q1 & _) & _). cbn [length pred] in Q1. fold k in Q1. lia.
      + split; auto. split.
        * intros j p Hj Ep Hj1 Hj2. cbn [length] in Hj, Hj2. fold k in Hj, Hj2. destruct (Nat.eq_dec j k) as [->|Nj]; [lia|]. rewrite nth_tail in Ep by lia. apply A; auto; fold k; lia.
        * intros i Hi Hi2. cbn [length] in Hi2. fold k in Hi2. apply B; auto. fold k. lia.
  Qed.

  Record inv (p : point) (rest : list point) (st : lbfgs_state) : Prop := Inv {
    i_run : run (p :: rest);
    i_x : lb_x st = p_x p; i_fx : lb_fx st = p_f p; i_g : lb_g st = p_g p;
    i_d : lb_d st = lbfgs_direction m (p :: rest);
    i_step : lb_step st = first_trial (p :: rest);
    i_k : lb_k st = length (p :: rest);
    i_end : (lb_end st < m)%nat;
    i_mem : length (lb_s st) = m /\ length (lb_y st) = m /\ length (lb_ys st) = m;
    i_ring : ring m (lb_s st) (lb_y st) (lb_ys st) (lb_end st) (firstn m (corrections (p :: rest)));
    i_sized : rest <> [] -> forall q, In q (p :: rest) -> sized q;
    i_x0 : length (p_x p) = n;
    i_pfx : pfx_ok (p :: rest) (lb_pfx st);
    i_go : forall a b, p :: rest = a ++ b -> b <> [] -> go_on b }.

  Lemma corrections_ok pts : (forall q, In q pts -> sized q) -> forall c, In c (corrections pts) -> pair_ok n c.
  Proof.
    induction pts as [|a [|b pts] IH]; intros H c Hc; [destruct Hc..|]. cbn [corrections] in Hc. destruct Hc as [<-|Hc]; [|apply IH; auto; intros q Hq; apply H; now right].
    destruct (H a) as (A1 & A2); [now left|]. destruct (H b) as (B1 & B2); [right; now left|]. split; cbn [fst snd]; rewrite vsub_length; congruence.
  Qed.

  Lemma turn_spec p rest st r : policy <> OtherPolicy -> inv p rest st ->
    lbfgs_turn (line_search policy evaluate gradient P) m past max_iter tol delta st = Ok r ->
    match r with
    | inl x => (x = p_x p /\ search_fails policy evaluate gradient P m (p :: rest)) \/
        (exists q, run (q :: p :: rest) /\ x = p_x q /\ settled past max_iter tol delta garbage (q :: p :: rest))
    | inr st' => exists q, inv q (p :: rest) st'
    end.
  Proof.
    intros HPol [Irun Ix If Ig Id Istep Ik Iend (M1 & M2 & M3) Iring Isz Ix0 Ipfx Igo]. unfold lbfgs_turn. rewrite Ix, If, Ig, Id, Istep, Ik.
    destruct (line_search policy evaluate gradient P (p_x p) (p_f p) (p_g p) (lbfgs_direction m (p :: rest)) (first_trial (p :: rest)) (p_x p)) as [res| | |] eqn:EL; try discriminate. cbn [bind].
    destruct (ls_code res) as [c|] eqn:Ec.
    2: { intro H. injection H as <-. left. split; auto. exists p, rest, res. auto. }
    destruct (C40_success _ _ _ _ _ _ _ _ _ _ _ _ Hdec Hinc EL Ec) as (S1 & S2 & S3 & S4 & _).
    set (q := (ls_x res, ls_fx res, ls_g res) : point).
    assert (Rq : run (q :: p :: rest)) by (eapply accepted_next; eauto).
    destruct (converged tol (ls_x res) (ls_g res)) eqn:Ecv.
    { intro H. injection H as <-. right. exists q. split; auto. split; auto. left. exists q, (p :: rest). split; auto. now apply converged_spec. }
    assert (NG : ~ gradient_settled tol (q :: p :: rest)).
    { intros (p' & rest' & Q1 & Q2). injection Q1 as <- <-. apply (converged_spec tol (ls_x res) (ls_fx res)) in Q2. congruence. }
    destruct (objective_test past delta (length (p :: rest)) (ls_fx res) (lb_pfx st)) as [t| | |] eqn:Et; try discriminate. cbn [bind].
    change (ls_fx res) with (p_f q) in Et. apply objective_spec in Et; auto; [|cbn; lia]. destruct t as [pfx'|].
    2: { intro H. injection H as <-. right. exists q. split; auto. split; auto. right. split; [cbn; lia|]. now left. }
    destruct Et as (NO & Opfx).
    destruct (negb (max_iter =? 0)%nat && (max_iter <? length (p :: rest) + 1)%nat)%bool eqn:El.
    { intro H. injection H as <-. apply andb_prop in El as (El1 & El2). apply Nat.ltb_lt in El2. destruct (Nat.eqb_spec max_iter 0); [discriminate|].
      right. exists q. split; auto. split; auto. right. split; [cbn; lia|]. right. split; auto. cbn [length pred] in *. lia. }
    assert (NL : ~ limit_reached max_iter (q :: p :: rest)).
    { intros (Q1 & Q2). cbn [length pred] in Q2. destruct (Nat.eqb_spec max_iter 0); [contradiction|]. cbn [negb andb] in El. apply Nat.ltb_ge in El. cbn [length] in El. lia. }
    destruct (sub (ls_x res) (p_x p)) as [s| | |] eqn:Es; try discriminate. cbn [bind]. apply sub_inv in Es as (Es1 & Es2).
    unfold set_colM. rewrite M1, M2, M3. destruct (Nat.ltb_spec (lb_end st) m); [|lia]. cbn [bind].
    destruct (sub (ls_g res) (p_g p)) as [y| | |] eqn:Ey; try discriminate. cbn [bind]. apply sub_inv in Ey as (Ey1 & Ey2).
    destruct (dotM y s) as [ys| | |] eqn:Eys; try discriminate. cbn [bind]. apply dotM_inv in Eys as (Eys1 & Eys2).
    destruct (dotM y y) as [yy| | |] eqn:Eyy; try discriminate. cbn [bind]. apply dotM_inv in Eyy as (_ & Eyy2).
    unfold modM at 1. destruct (Nat.eqb_spec m 0); [lia|]. cbn [bind].
    (* sizes *)
    assert (Lq : length (ls_x res) = n) by congruence.
    assert (Ls : length s = n). { rewrite Es2, vsub_length; congruence. }
    assert (Lgq : length (ls_g res) = n). { transitivity (length y); [|congruence]. rewrite Ey2, vsub_length; auto. }
    assert (Lgp : length (p_g p) = n) by congruence.
    assert (SZ : forall q', In q' (q :: p :: rest) -> sized q').
    { intros q' [<-|Hq]; [split; auto|]. destruct rest as [|p' rest']; [|apply Isz; auto; discriminate]. destruct Hq as [<-|[]]. split; auto. }
    set (ps := firstn m (corrections (q :: p :: rest))).
    assert (Cps : corrections (q :: p :: rest) = (s, y) :: corrections (p :: rest)).
    { cbn [corrections]. f_equal. unfold q, p_x at 1, p_g at 1. cbn [fst snd]. congruence. }
    assert (Pps : ps = (s, y) :: firstn (pred m) (corrections (p :: rest))).
    { unfold ps. rewrite Cps. destruct m as [|m']; [lia|]. auto. }
    assert (Rps : ring m (set_nth (lb_s st) (lb_end st) s) (set_nth (lb_y st) (lb_end st) y) (set_nth (lb_ys st) (lb_end st) ys) ((lb_end st + 1) mod m) ps).
    { rewrite Pps, Eys2. apply ring_push; auto; try lia.
      - replace (firstn (pred m) (corrections (p :: rest))) with (firstn (pred m) (firstn m (corrections (p :: rest)))) by (rewrite firstn_firstn; f_equal; lia). now apply ring_firstn.
      - rewrite firstn_length. lia. }
    assert (Hbound : (if (m <=? length (p :: rest))%nat then m else length (p :: rest)) = length ps).
    { unfold ps. rewrite firstn_length, corrections_length. cbn [length pred]. destruct (Nat.leb_spec m (S (length rest))); lia. }
    rewrite Hbound. rewrite (@new_direction_spec m n Hm) with (ps := ps); auto.
    2: { apply Nat.mod_upper_bound. lia. }
    2: { unfold ps. rewrite firstn_length. lia. }
    2: { intros c' Hc. eapply corrections_ok; [exact SZ|]. unfold ps in Hc. rewrite <- (firstn_skipn m (corrections _)). apply in_or_app. now left. }
    cbn [bind]. intro HH. injection HH as <-. exists q. constructor; cbn [lb_x lb_fx lb_g lb_d lb_step lb_k lb_end lb_s lb_y lb_ys lb_pfx]; auto.
    - unfold lbfgs_direction. fold ps. unfold q at 1, p_g. cbn [snd]. f_equal. rewrite Pps. cbn [scaling]. rewrite Eys2, Eyy2. reflexivity.
    - cbn [length]. lia.
    - apply Nat.mod_upper_bound. lia.
    - rewrite !set_nth_length. auto.
    - intros a b E Nb. destruct a as [|a0 a]; cbn in E.
      + subst b. intros [G|(_ & [O|L])]; contradiction.
      + injection E as _ E. eapply Igo; eauto.
  Qed.

  Lemma loop_spec fuel p rest st x : policy <> OtherPolicy -> inv p rest st ->
    lbfgs_loop (line_search policy evaluate gradient P) m past max_iter tol delta fuel st = Ok x ->
    exists q pts, run (q :: pts) /\ x = p_x q /\ (forall a b, pts = a ++ b -> b <> [] -> go_on b) /\
      ((settled past max_iter tol delta garbage (q :: pts) /\ pts <> []) \/ (go_on (q :: pts) /\ search_fails policy evaluate gradient P m (q :: pts))).
  Proof.
    intros HPol. revert p rest st. induction fuel as [|fuel IH]; intros p rest st I H; [discriminate|]. cbn [lbfgs_loop] in H.
    destruct (lbfgs_turn (line_search policy evaluate gradient P) m past max_iter tol delta st) as [r| | |] eqn:E; try discriminate. cbn [bind] in H.
    apply (@turn_spec p rest) in E; auto. destruct r as [x'|st'].
    - injection H as <-. destruct E as [(E1 & E2)|(q & E1 & E2 & E3)].
      + exists p, rest. split; [apply I|]. split; auto. split.
        * intros a b Eab. apply (i_go I (p :: a)). now rewrite Eab.
        * right. split; auto. apply (i_go I []); auto. discriminate.
      + exists q, (p :: rest). split; auto. split; auto. split; [intros a b Eab; now apply (i_go I a)|]. left. split; auto. discriminate.
    - destruct E as (q & E). eapply IH; eauto.
  Qed.

  Lemma start_inv f0 g0 s0 y0 ys0 pfx0 : evaluate x0 = Ok f0 -> gradient x0 = Ok g0 -> converged tol x0 g0 = false ->
    length s0 = m -> length y0 = m -> length ys0 = m -> length pfx0 = past -> (forall i, (i < past)%nat -> nth_error pfx0 i = Some (garbage i)) ->
    inv (x0, f0, g0) [] (LbfgsState x0 f0 g0 (map Ropp g0) (1 / norm2 (map Ropp g0)) 1 0 s0 y0 ys0 (set_nth pfx0 0 f0)).
  Proof.
    intros E1 E2 C L1 L2 L3 L4 HG. constructor; cbn [lb_x lb_fx lb_g lb_d lb_step lb_k lb_end lb_s lb_y lb_ys lb_pfx]; auto.
    - now constructor.
    - unfold lbfgs_direction. cbn [corrections firstn]. rewrite firstn_nil. cbn. now rewrite vscale_one.
    - cbn [first_trial]. now rewrite norm2_sqn.
    - cbn [corrections]. rewrite firstn_nil. exact Logic.I.
    - intros H. contradiction.
    - split; [rewrite set_nth_length; auto|]. split.
      + intros j p Hj Ep Hj1 Hj2. cbn [length] in *. assert (j = 0)%nat as -> by lia. cbn in Ep. injection Ep as <-. rewrite Nat.mod_0_l by lia. rewrite set_nth_same by lia. auto.
      + intros i Hi _. rewrite set_nth_other by lia. apply HG. lia.
    - intros a b E Nb. destruct a as [|a0 [|]]; cbn in E; [|injection E as _ <-; contradiction|discriminate]. subst b.
      intros [(p & rest & Q1 & Q2)|(Q & _)]; [|cbn in Q; lia]. injection Q1 as <- <-. apply converged_spec in Q2. congruence.
  Qed.
End Run.
