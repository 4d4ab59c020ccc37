(** C41: L-BFGS. *)
From Coq Require Import Reals Lra.
From Verif Require Import Base Common_Model RDR_Proofs KDReal_Proofs Vec Loss_Model Lbfgs_Model LineSearch_Spec LineSearch_Proofs OptimSteps_Proofs
  Shuffle_Proofs Lbfgs_Spec Lbfgs_Proofs Properties_LineSearch LbfgsRun_Proofs LbfgsTotal_Proofs.
Local Open Scope R_scope.

(** The freshly allocated memory: m columns, and a vector of max(1, past) old values with any contents. *)
Definition allocated (m past : nat) (mem0 : list (list R) * list (list R) * list R) (pfx0 : list R) : Prop :=
  let '(s0, y0, ys0) := mem0 in length s0 = m /\ length y0 = m /\ length ys0 = m /\ length pfx0 = Nat.max 1 past.

(** Every run that returns visits points each of which satisfies the line search condition along minus the inverse BFGS
    matrix of the last m correction pairs times the gradient; it goes on as long as no test is met, and returns the last
    point, because a test is met there or because the line search from there fails. *)
Theorem C41_run :
  forall policy P evaluate gradient m past max_iter tol delta fuel mem0 pfx0 x0 x,
    (0 < m)%nat -> (0 < past)%nat -> 0 < dec_factor P -> 0 < inc_factor P -> allocated m past mem0 pfx0 ->
    lbfgs_optimize policy P evaluate gradient m past max_iter tol delta fuel mem0 pfx0 x0 = Ok (Some x) ->
    let settled := settled past max_iter tol delta (fun i => nth i pfx0 0) in
    exists p pts,
      accepted_points evaluate gradient P m x0 (p :: pts) /\ x = p_x p /\
      (forall a b, pts = a ++ b -> b <> [] -> ~ settled b) /\
      ((settled (p :: pts) /\ pts <> []) \/ (~ settled (p :: pts) /\ search_fails policy evaluate gradient P m (p :: pts))).
Proof.
  intros policy P evaluate gradient m past max_iter tol delta fuel [[s0 y0] ys0] pfx0 x0 x Hm Hp H1 H2 (L1 & L2 & L3 & L4) E settled.
  assert (NP : policy <> OtherPolicy) by (intros ->; discriminate).
  assert (E' : lbfgs evaluate gradient (line_search policy evaluate gradient P) m past max_iter tol delta fuel (s0, y0, ys0) pfx0 x0 = Ok (Some x)) by (destruct policy; auto; congruence).
  unfold lbfgs in E'. destruct (evaluate x0) as [f0| | |] eqn:E0; try discriminate. cbn [bind] in E'. destruct (gradient x0) as [g0| | |] eqn:G0; try discriminate. cbn [bind] in E'.
  unfold set_colM in E' at 1. destruct (Nat.ltb_spec 0 (length pfx0)) as [L|L]; [|discriminate]. cbn [bind] in E'. destruct (converged tol x0 g0) eqn:C; [discriminate|].
  destruct (lbfgs_loop _ _ _ _ _ _ _ _) as [x'| | |] eqn:EL; try discriminate. cbn [bind] in E'. injection E' as ->.
  eapply loop_spec in EL; eauto. apply start_inv; auto; [lia|]. intros i Hi. apply nth_error_nth'. lia.
Qed.
Print Assumptions C41_run.

(** The inverse BFGS matrix: symmetric; it maps the last gradient change to the last step; and if all the
    curvature products are positive it is positive definite and the direction descends. *)
Theorem C41_symmetric :
  forall n gamma pairs u v, (forall s y, In (s, y) pairs -> length s = n /\ length y = n) -> length u = n -> length v = n ->
    dot u (inverse_hessian gamma pairs v) = dot (inverse_hessian gamma pairs u) v.
Proof. intros n gamma pairs u v H Lu Lv. apply (@inverse_sym n); auto. intros [s y] Hp. exact (H _ _ Hp). Qed.
Theorem C41_secant :
  forall n gamma s y pairs, (forall s' y', In (s', y') ((s, y) :: pairs) -> length s' = n /\ length y' = n) -> dot y s <> 0 ->
    inverse_hessian gamma ((s, y) :: pairs) y = s.
Proof. intros n gamma s y pairs H N. apply (@inverse_secant n); auto; [apply (H s y); now left|]. intros [s' y'] Hp. apply (H s' y'). now right. Qed.
Theorem C41_positive_definite :
  forall n gamma pairs v, 0 < gamma -> (forall s y, In (s, y) pairs -> length s = n /\ length y = n /\ 0 < dot y s) -> length v = n -> sqn v <> 0 ->
    0 < dot v (inverse_hessian gamma pairs v).
Proof. intros n gamma pairs v Hg H Lv N. apply (@inverse_pos n); auto. intros [s y] Hp. destruct (H _ _ Hp) as (A & B & C). split; auto. split; auto. Qed.
Theorem C41_descent :
  forall m p pts, let n := length (p_g p) in
    (forall s y, In (s, y) (firstn m (corrections (p :: pts))) -> length s = n /\ length y = n /\ 0 < dot y s) -> sqn (p_g p) <> 0 ->
    dot (lbfgs_direction m (p :: pts)) (p_g p) < 0.
Proof.
  intros m p pts n H N. apply (@direction_descends n); auto.
  - apply scaling_pos. intros [s y] Hp. now apply H.
  - intros [s y] Hp. destruct (H _ _ Hp) as (A & B & C). split; auto. split; auto.
Qed.
Print Assumptions C41_descent.

(** With a curvature condition (and 0 < wolfe < 1) that is always so: every direction of a run descends, so the line
    search never fails for lack of descent.  The same with the Armijo condition when the gradient is strictly monotone
    (strictly convex objectives). *)
Theorem C41_wolfe_descends :
  forall P evaluate gradient m x0 p pts,
    (forall x g, length x = length x0 -> gradient x = Ok g -> length g = length x0) ->
    condition P <> Armijo -> wolfe P < 1 ->
    accepted_points evaluate gradient P m x0 (p :: pts) -> (forall q, In q (p :: pts) -> sqn (p_g q) <> 0) ->
    dot (lbfgs_direction m (p :: pts)) (p_g p) < 0 /\ forall s y, In (s, y) (corrections (p :: pts)) -> 0 < dot y s.
Proof.
  intros P evaluate gradient m x0 p pts HG HC HW R N.
  assert (Hcurv : forall p pts step x' f' g', accepted_points evaluate gradient P m x0 (p :: pts) -> dot (lbfgs_direction m (p :: pts)) (p_g p) < 0 -> 0 < step ->
    at_step evaluate gradient (p_x p) (lbfgs_direction m (p :: pts)) step x' f' g' ->
    acceptable P (lbfgs_direction m (p :: pts)) (p_f p) (dot (lbfgs_direction m (p :: pts)) (p_g p)) step f' g' ->
    0 < dot (vsub g' (p_g p)) (vsub x' (p_x p))).
  { intros p' pts' step x' f' g' R' D Hs A B. destruct (run_sized HG R') with (p := p') as (L1 & L2); [now left|]. eapply wolfe_curvature; eauto; [congruence|].
    destruct A as (A1 & A2 & A3 & A4). rewrite L1. apply (HG x'); auto. rewrite A2, vadd_length; rewrite ?vscale_length; congruence. }
  split; [eapply run_descends; eauto|]. intros s y Hs. apply (run_curvature HG Hcurv R) in Hs; auto. intros q Hq. apply N. now right.
Qed.
Print Assumptions C41_wolfe_descends.
Theorem C41_convex_descends :
  forall P evaluate gradient m x0 p pts,
    (forall x g, length x = length x0 -> gradient x = Ok g -> length g = length x0) ->
    (forall x x' g g', length x = length x0 -> length x' = length x0 -> gradient x = Ok g -> gradient x' = Ok g' -> sqn (vsub x' x) <> 0 ->
       0 < dot (vsub g' g) (vsub x' x)) ->
    accepted_points evaluate gradient P m x0 (p :: pts) -> (forall q, In q (p :: pts) -> sqn (p_g q) <> 0) ->
    dot (lbfgs_direction m (p :: pts)) (p_g p) < 0 /\ forall s y, In (s, y) (corrections (p :: pts)) -> 0 < dot y s.
Proof.
  intros P evaluate gradient m x0 p pts HG HM R N.
  assert (Hcurv : forall p pts step x' f' g', accepted_points evaluate gradient P m x0 (p :: pts) -> dot (lbfgs_direction m (p :: pts)) (p_g p) < 0 -> 0 < step ->
    at_step evaluate gradient (p_x p) (lbfgs_direction m (p :: pts)) step x' f' g' ->
    acceptable P (lbfgs_direction m (p :: pts)) (p_f p) (dot (lbfgs_direction m (p :: pts)) (p_g p)) step f' g' ->
    0 < dot (vsub g' (p_g p)) (vsub x' (p_x p))).
  { intros p' pts' step x' f' g' R' D Hs A B. destruct (run_sized HG R') with (p := p') as (L1 & L2); [now left|]. destruct (run_head R') as (_ & Gp).
    destruct A as (A1 & A2 & A3 & A4). apply HM; auto; [rewrite A2, vadd_length; rewrite ?vscale_length; congruence|].
    rewrite A2, step_back, sqn_scale by auto. intro Z. apply Rmult_integral in Z as [Z|Z]; [nra|]. apply (dot_zero_sqn (p_g p')) in Z. rewrite dot_comm in Z. lra. }
  split; [eapply run_descends; eauto|]. intros s y Hs. apply (run_curvature HG Hcurv R) in Hs; auto. intros q Hq. apply N. now right.
Qed.
Print Assumptions C41_convex_descends.

(** Accepted iterations never increase the objective; the point returned is no worse than the initial one. *)
Theorem C41_monotone :
  forall P evaluate gradient m x0 p q pts, 0 <= ftol P -> accepted_points evaluate gradient P m x0 (p :: q :: pts) -> p_f p <= p_f q.
Proof. intros. eapply run_step_monotone; eauto. Qed.
Theorem C41_no_worse :
  forall policy P evaluate gradient m past max_iter tol delta fuel mem0 pfx0 x0 x,
    (0 < m)%nat -> (0 < past)%nat -> 0 < dec_factor P -> 0 < inc_factor P -> 0 <= ftol P -> allocated m past mem0 pfx0 ->
    lbfgs_optimize policy P evaluate gradient m past max_iter tol delta fuel mem0 pfx0 x0 = Ok (Some x) ->
    exists f0 f, evaluate x0 = Ok f0 /\ evaluate x = Ok f /\ f <= f0.
Proof.
  intros policy P evaluate gradient m past max_iter tol delta fuel mem0 pfx0 x0 x Hm Hp H1 H2 HF HA E.
  destruct (C41_run _ _ _ _ _ _ _ _ _ _ _ _ _ _ Hm Hp H1 H2 HA E) as (p & pts & R & -> & _). destruct (run_last R) as (q & _ & Hq & Q & Q2).
  exists (p_f q), (p_f p). split; [|split; [apply (run_head R)|eapply run_monotone; eauto]]. rewrite <- Q.
  apply in_split in Hq as (a & b & E'). eapply (@run_head evaluate gradient P m x0 q b). apply (@run_suffix evaluate gradient P m x0 a (q :: b)); [congruence|discriminate].
Qed.
Print Assumptions C41_no_worse.

(** For an objective that is defined everywhere the run is defined and ends: within max_iter turns when there is such a
    limit, and without one when the objective is bounded below. *)
Theorem C41_limit_terminates :
  forall policy P evaluate gradient m past max_iter tol delta fuel mem0 pfx0 x0,
    (0 < m)%nat -> (0 < past)%nat -> 0 < dec_factor P -> 0 < inc_factor P -> allocated m past mem0 pfx0 -> policy <> OtherPolicy ->
    (forall z, length z = length x0 -> exists f h, evaluate z = Ok f /\ gradient z = Ok h /\ length h = length x0) ->
    max_iter <> O -> (max_iter <= fuel)%nat ->
    exists r, lbfgs_optimize policy P evaluate gradient m past max_iter tol delta fuel mem0 pfx0 x0 = Ok r.
Proof.
  intros policy P evaluate gradient m past max_iter tol delta fuel [[s0 y0] ys0] pfx0 x0 Hm Hp H1 H2 (L1 & L2 & L3 & L4) NP HT HX HF.
  assert (exists r, lbfgs evaluate gradient (line_search policy evaluate gradient P) m past max_iter tol delta fuel (s0, y0, ys0) pfx0 x0 = Ok r) as (r & E); [|exists r; destruct policy; auto; congruence].
  destruct (HT x0 eq_refl) as (f0 & g0 & E0 & G0 & LG). unfold lbfgs. rewrite E0. cbn [bind]. rewrite G0. cbn [bind]. unfold set_colM at 1. destruct (Nat.ltb_spec 0 (length pfx0)); [|lia]. cbn [bind].
  destruct (converged tol x0 g0) eqn:C; [eauto|].
  destruct (@loop_total evaluate gradient policy P m past max_iter tol delta (fun i => nth i pfx0 0) x0 Hm Hp H1 H2 NP HT max_iter) with
    (fuel := fuel) (p := (x0, f0, g0)) (rest := @nil point) (st := LbfgsState x0 f0 g0 (map Ropp g0) (1 / norm2 (map Ropp g0)) 1 0 s0 y0 ys0 (set_nth pfx0 0 f0)) as (x & EL).
  - intros pts R G. exact (limit_bound Hm Hp HX R G).
  - apply start_inv; auto; [lia|]. intros i Hi. apply nth_error_nth'. lia.
  - cbn [length]. lia.
  - rewrite EL. cbn [bind]. eauto.
Qed.
Print Assumptions C41_limit_terminates.
Theorem C41_unlimited_terminates :
  forall policy P evaluate gradient m past tol delta mem0 pfx0 x0 bound,
    (0 < m)%nat -> (0 < past)%nat -> 0 < dec_factor P -> 0 < inc_factor P -> 0 <= ftol P -> 0 < delta -> allocated m past mem0 pfx0 -> policy <> OtherPolicy ->
    (forall z, length z = length x0 -> exists f h, evaluate z = Ok f /\ gradient z = Ok h /\ length h = length x0) ->
    (forall z f, length z = length x0 -> evaluate z = Ok f -> bound <= f) ->
    exists turns, forall fuel, (turns <= fuel)%nat -> exists r, lbfgs_optimize policy P evaluate gradient m past 0 tol delta fuel mem0 pfx0 x0 = Ok r.
Proof.
  intros policy P evaluate gradient m past tol delta [[s0 y0] ys0] pfx0 x0 B Hm Hp H1 H2 HF HD (L1 & L2 & L3 & L4) NP HT HB.
  destruct (HT x0 eq_refl) as (f0 & g0 & E0 & G0 & LG).
  destruct (@decrease_bound evaluate gradient P m past 0 tol delta (fun i => nth i pfx0 0) x0 Hm Hp HT f0 B HF HD E0 HB) as (N & HN). exists N. intros fuel Hf.
  assert (exists r, lbfgs evaluate gradient (line_search policy evaluate gradient P) m past 0 tol delta fuel (s0, y0, ys0) pfx0 x0 = Ok r) as (r & E); [|exists r; destruct policy; auto; congruence].
  unfold lbfgs. rewrite E0. cbn [bind]. rewrite G0. cbn [bind]. unfold set_colM at 1. destruct (Nat.ltb_spec 0 (length pfx0)); [|lia]. cbn [bind].
  destruct (converged tol x0 g0) eqn:C; [eauto|].
  destruct (@loop_total evaluate gradient policy P m past 0 tol delta (fun i => nth i pfx0 0) x0 Hm Hp H1 H2 NP HT N HN) with
    (fuel := fuel) (p := (x0, f0, g0)) (rest := @nil point) (st := LbfgsState x0 f0 g0 (map Ropp g0) (1 / norm2 (map Ropp g0)) 1 0 s0 y0 ys0 (set_nth pfx0 0 f0)) as (x & EL).
  - apply start_inv; auto; [lia|]. intros i Hi. apply nth_error_nth'. lia.
  - cbn [length]. lia.
  - rewrite EL. cbn [bind]. eauto.
Qed.
Print Assumptions C41_unlimited_terminates.
Theorem C41_policy :
  forall P evaluate gradient m past max_iter tol delta fuel mem0 pfx0 x0,
    lbfgs_optimize OtherPolicy P evaluate gradient m past max_iter tol delta fuel mem0 pfx0 x0 = Throw InvalidArgument.
Proof. reflexivity. Qed.

(** A run starting at a point whose gradient is small sets no result. *)
Theorem C41_stationary_start_refuted :
  forall policy P evaluate gradient m past max_iter tol delta fuel mem0 pfx0 x0 f0 g0,
    policy <> OtherPolicy -> evaluate x0 = Ok f0 -> gradient x0 = Ok g0 -> allocated m past mem0 pfx0 -> small_gradient tol (x0, f0, g0) ->
    lbfgs_optimize policy P evaluate gradient m past max_iter tol delta fuel mem0 pfx0 x0 = Ok None.
Proof.
  intros policy P evaluate gradient m past max_iter tol delta fuel [[s0 y0] ys0] pfx0 x0 f0 g0 NP E0 G0 (_ & _ & _ & L4) S.
  assert (E : lbfgs evaluate gradient (line_search policy evaluate gradient P) m past max_iter tol delta fuel (s0, y0, ys0) pfx0 x0 = Ok None); [|destruct policy; auto; congruence].
  unfold lbfgs. rewrite E0. cbn [bind]. rewrite G0. cbn [bind]. unfold set_colM. destruct (Nat.ltb_spec 0 (length pfx0)); [|lia]. cbn [bind].
  apply converged_spec in S. now rewrite S.
Qed.
Print Assumptions C41_stationary_start_refuted.

(** * A concrete run
    The convex function x^2/2 for x <= 1, x + (x-1)^2/4 - 1/2 above, from 3, remembering one pair: 3, 2, -1, 1/5, 0. *)
Definition bowl (x : list R) : outcome R :=
  match x with [a] => Ok (if Rltb 1 a then a + (a - 1) * (a - 1) / 4 - 1 / 2 else a * a / 2) | _ => UB end.
Definition bowl_grad (x : list R) : outcome (list R) :=
  match x with [a] => Ok [if Rltb 1 a then 1 + (a - 1) / 2 else a] | _ => UB end.
Definition armijo_params : ls_params := LsParams (1/2) (21/10) (1/10000) (9/10) (10^20) (/ 10^20) 40 Armijo.

Lemma search_first evaluate gradient P x fx g d step xp x' f' g' v : 0 < step -> length d = length g -> dot d g <= 0 -> length xp = length d ->
  x' = vadd xp (vscale step d) -> evaluate x' = Ok f' -> gradient x' = Ok g' -> judge P fx (dot d g) f' g' d step = Ok v -> v = Accept ->
  line_search Backtracking evaluate gradient P x fx g d step xp = Ok (LsResult (Some 1%nat) x' f' g' step [step]).
Proof.
  intros H0 L D L2 -> E G J ->. unfold line_search, backtracking, search. rewrite (proj2 (Rltb_true _ _)) by auto. cbn [negb]. rewrite dotM_Ok by auto. cbn [bind].
  rewrite (proj2 (Rltb_false _ _)) by auto. cbn [search_loop]. rewrite add_Ok by (rewrite vscale_length; auto). cbn [bind]. rewrite E. cbn [bind]. rewrite G. cbn [bind]. rewrite J. reflexivity.
Qed.
Lemma norm_one a : norm2 [a] = Rabs a.
Proof. rewrite norm2_sqn. change (sqn [a]) with (a * a + 0). rewrite Rplus_0_r. fold (Rsqr a). apply sqrt_Rsqr_abs. Qed.

Section Turn.
  Variables past : nat.
  Variables tol delta : R.
  Variables a fa ga d step b fb gb : R.
  Variables (s0 y0 : list R) (ys0 : R) (k : nat) (pfx pfx' : list R).
  Hypothesis Hstep : 0 < step.
  Hypothesis Hb : b = a + step * d.
  Hypothesis Efb : bowl [b] = Ok fb.
  Hypothesis Egb : bowl_grad [b] = Ok [gb].
  Hypothesis Hslope : d * ga <= 0.
  Hypothesis Hdec : fb <= fa + step * (1/10000 * (d * ga)).
  Let st := LbfgsState [a] fa [ga] [d] step k 0 [s0] [y0] [ys0] pfx.
  Let turn := lbfgs_turn (line_search Backtracking bowl bowl_grad armijo_params) 1 past 0 tol delta st.

  Lemma turn_search : line_search Backtracking bowl bowl_grad armijo_params [a] fa [ga] [d] step [a] = Ok (LsResult (Some 1%nat) [b] fb [gb] step [step]).
  Proof.
    assert (D : dot [d] [ga] = d * ga) by (change (dot [d] [ga]) with (d * ga + 0); ring).
    apply (search_first bowl bowl_grad armijo_params [a] fa [ga] [d] step [a] [b] fb [gb] Accept); rewrite ?D; auto.
    { change (vadd [a] (vscale step [d])) with [a + step * d]. now rewrite Hb. }
    unfold judge. cbn [ftol condition armijo_params]. rewrite (proj2 (Rltb_false _ _)) by auto. reflexivity.
  Qed.
  Lemma turn_stops_gradient : Rabs gb / (if Rltb (Rabs b) 1 then 1 else Rabs b) <= tol -> turn = Ok (inl [b]).
  Proof.
    intro H. unfold turn, lbfgs_turn, st. cbn [lb_x lb_fx lb_g lb_d lb_step]. rewrite turn_search. cbn [bind ls_code ls_x ls_g ls_fx].
    unfold converged. rewrite !norm_one. unfold Rleb. rewrite (proj2 (Rltb_false _ _)) by auto. reflexivity.
  Qed.
  Lemma turn_stops_objective : tol < Rabs gb / (if Rltb (Rabs b) 1 then 1 else Rabs b) -> objective_test past delta k fb pfx = Ok None -> turn = Ok (inl [b]).
  Proof.
    intros H T. unfold turn, lbfgs_turn, st. cbn [lb_x lb_fx lb_g lb_d lb_step lb_k lb_pfx]. rewrite turn_search. cbn [bind ls_code ls_x ls_g ls_fx].
    unfold converged. rewrite !norm_one. unfold Rleb. rewrite (proj2 (Rltb_true _ _)) by auto. cbn [negb]. rewrite T. reflexivity.
  Qed.
  Lemma turn_goes_on d' : tol < Rabs gb / (if Rltb (Rabs b) 1 then 1 else Rabs b) -> objective_test past delta k fb pfx = Ok (Some pfx') -> (1 <= k)%nat ->
    b - a <> 0 -> gb - ga <> 0 -> d' = - gb * (b - a) / (gb - ga) ->
    turn = Ok (inr (LbfgsState [b] fb [gb] [d'] 1 (k + 1) 0 [[b - a]] [[gb - ga]] [(gb - ga) * (b - a) + 0] pfx')).
  Proof.
    intros H T Hk N1 N2 ->. unfold turn, lbfgs_turn, st. cbn [lb_x lb_fx lb_g lb_d lb_step lb_k lb_pfx lb_s lb_y lb_ys lb_end]. rewrite turn_search. cbn [bind ls_code ls_x ls_g ls_fx].
    unfold converged. rewrite !norm_one. unfold Rleb. rewrite (proj2 (Rltb_true _ _)) by auto. cbn [negb]. rewrite T. cbn [bind Nat.eqb negb andb].
    rewrite !sub_Ok by auto. change (vsub [b] [a]) with [b - a]. change (vsub [gb] [ga]) with [gb - ga]. unfold set_colM. cbn [bind length Nat.ltb Nat.leb].
    rewrite !dotM_Ok by auto. cbn [bind]. change (modM (0 + 1) 1) with (Ok 0%nat). cbn [bind]. change (set_nth [s0] 0 [b - a]) with [[b - a]]. change (set_nth [y0] 0 [gb - ga]) with [[gb - ga]].
    change (set_nth [ys0] 0 (dot [gb - ga] [b - a])) with [dot [gb - ga] [b - a]].
    destruct k as [|k']; [lia|]. cbn [Nat.leb]. change 1%nat with (length [([b - a], [gb - ga])]) at 2.
    rewrite (@new_direction_spec 1 1) with (ps := [([b - a], [gb - ga])]); auto.
    2: { cbn [ring]. split; [reflexivity|]. split; [reflexivity|]. split; [reflexivity|exact I]. }
    2: { intros p [<-|[]]. split; reflexivity. }
    cbn [bind]. replace (inverse_hessian _ _ _) with [- gb * (b - a) / (gb - ga)]; [reflexivity|].
    cbn [inverse_hessian fold_right fst snd map]. unfold bfgs_update. cbn. f_equal. field. auto.
  Qed.
End Turn.

Ltac bowl_at := unfold bowl, bowl_grad; first [rewrite (proj2 (Rltb_true _ _)) by lra | rewrite (proj2 (Rltb_false _ _)) by lra]; 
  match goal with |- Ok [?a] = Ok [?b] => replace a with b by lra; reflexivity | |- Ok ?a = Ok ?b => replace a with b by lra; reflexivity end.

(** The result depends on the contents of memory that was never written: with past = 2 the third iteration compares the
    objective to such a value. *)
Theorem C41_uninitialised_refuted :
  forall fuel mem0, allocated 1 2 mem0 [0; 0] ->
    lbfgs_optimize Backtracking armijo_params bowl bowl_grad 1 2 0 (1/100000) (1/1000000) (S (S (S (S fuel)))) mem0 [0; 1/50] [3] = Ok (Some [1/5]) /\
    lbfgs_optimize Backtracking armijo_params bowl bowl_grad 1 2 0 (1/100000) (1/1000000) (S (S (S (S fuel)))) mem0 [0; 0] [3] = Ok (Some [0]).
Proof.
  intros fuel [[s0 y0] ys0] (L1 & L2 & L3 & _). destruct s0 as [|s0 [|]]; try discriminate. destruct y0 as [|y0 [|]]; try discriminate. destruct ys0 as [|ys0 [|]]; try discriminate.
  assert (Start : forall garbage, lbfgs_optimize Backtracking armijo_params bowl bowl_grad 1 2 0 (1/100000) (1/1000000) (S (S (S (S fuel)))) ([s0], [y0], [ys0]) [0; garbage] [3] =
    let! x := lbfgs_loop (line_search Backtracking bowl bowl_grad armijo_params) 1 2 0 (1/100000) (1/1000000) (S (S fuel))
      (LbfgsState [-1] (1/2) [-1] [6/5] 1 3 0 [[-3]] [[-5/2]] [15/2] [1/2; garbage]) in Ok (Some x)).
  { intro garbage. cbn [lbfgs_optimize]. unfold lbfgs. assert (bowl [3] = Ok (7/2)) as -> by bowl_at. cbn [bind]. assert (bowl_grad [3] = Ok [2]) as -> by bowl_at. cbn [bind].
    change (set_colM [0; garbage] 0 (7/2)) with (Ok [7/2; garbage]). cbn [bind].
    assert (converged (1/100000) [3] [2] = false) as ->. { unfold converged. rewrite !norm_one. rewrite !Rabs_right by lra. rewrite (proj2 (Rltb_false _ _)) by lra. unfold Rleb. rewrite (proj2 (Rltb_true _ _)) by lra. reflexivity. }
    cbn [map]. replace (Ropp 2) with (-2) by lra. rewrite norm_one. rewrite (Rabs_left (-2)) by lra. replace (1 / - -2) with (1/2) by (field; lra).
    cbn [lbfgs_loop]. rewrite (@turn_goes_on 2 (1/100000) (1/1000000) 3 (7/2) 2 (-2) (1/2) 2 (7/4) (3/2) s0 y0 ys0 1 [7/2; garbage] [7/2; garbage]) with (d' := -3); try lra; try lia; try reflexivity; try bowl_at.
    2: { rewrite !Rabs_right by lra. rewrite (proj2 (Rltb_false _ _)) by lra. lra. }
    cbn [bind]. rewrite (@turn_goes_on 2 (1/100000) (1/1000000) 2 (7/4) (3/2) (-3) 1 (-1) (1/2) (-1) [2 - 3] [3/2 - 2] ((3/2 - 2) * (2 - 3) + 0) (1 + 1) [7/2; garbage] [1/2; garbage]) with (d' := 6/5); try lra; try lia; try bowl_at.
    2: { rewrite !Rabs_left by lra. replace (- -1) with 1 by lra. rewrite (proj2 (Rltb_false _ _)) by lra. lra. }
    2: { unfold objective_test. cbn [Nat.leb Nat.add]. change (modM 2 2) with (Ok 0%nat). cbn [bind vget nth_error]. rewrite (Rabs_right (7/2 - 1/2)), (Rabs_right (1/2)), Rmax_right by lra. rewrite (proj2 (Rltb_false _ _)) by lra. reflexivity. }
    cbn [bind]. change (1 + 1 + 1)%nat with 3%nat. replace (-1 - 2) with (-3) by lra. replace (-1 - 3/2) with (-5/2) by lra. replace (-5/2 * -3 + 0) with (15/2) by lra. reflexivity. }
  rewrite !Start. clear Start. cbn [lbfgs_loop]. split.
  - rewrite (@turn_stops_objective 2 (1/100000) (1/1000000) (-1) (1/2) (-1) (6/5) 1 (1/5) (1/50) (1/5)); try lra; try bowl_at; [reflexivity|..].
    + rewrite !Rabs_right by lra. rewrite (proj2 (Rltb_true _ _)) by lra. lra.
    + unfold objective_test. cbn [Nat.leb]. change (modM 3 2) with (Ok 1%nat). cbn [bind vget nth_error]. rewrite Rminus_diag_eq, Rabs_R0 by auto. rewrite (proj2 (Rltb_true _ _)); [reflexivity|]. unfold Rdiv. lra.
  - rewrite (@turn_goes_on 2 (1/100000) (1/1000000) (-1) (1/2) (-1) (6/5) 1 (1/5) (1/50) (1/5) [-3] [-5/2] (15/2) 3 [1/2; 0] [1/2; 1/50]) with (d' := -1/5); try lra; try lia; try bowl_at.
    2: { rewrite !Rabs_right by lra. rewrite (proj2 (Rltb_true _ _)) by lra. lra. }
    2: { unfold objective_test. cbn [Nat.leb]. change (modM 3 2) with (Ok 1%nat). cbn [bind vget nth_error]. rewrite (Rabs_left (0 - 1/50)), (Rabs_right (1/50)), Rmax_right by lra. rewrite (proj2 (Rltb_false _ _)) by lra. reflexivity. }
    cbn [bind]. rewrite (@turn_stops_gradient 2 (1/100000) (1/1000000) (1/5) (1/50) (1/5) (-1/5) 1 0 0 0); try lra; try bowl_at; [reflexivity|].
    rewrite !Rabs_R0. rewrite (proj2 (Rltb_true _ _)) by lra. lra.
Qed.
Print Assumptions C41_uninitialised_refuted.

(** past = 0 divides by zero at the first iteration that is not yet converged, mem_size = 0 writes to a column that
    does not exist. *)
Theorem C41_zero_past_refuted :
  forall fuel mem0, allocated 1 0 mem0 [0] ->
    lbfgs_optimize Backtracking armijo_params bowl bowl_grad 1 0 0 (1/100000) (1/1000000) (S fuel) mem0 [0] [3] = UB.
Proof.
  intros fuel [[s0 y0] ys0] (L1 & L2 & L3 & _). destruct s0 as [|s0 [|]]; try discriminate. destruct y0 as [|y0 [|]]; try discriminate. destruct ys0 as [|ys0 [|]]; try discriminate.
  cbn [lbfgs_optimize]. unfold lbfgs. assert (bowl [3] = Ok (7/2)) as -> by bowl_at. cbn [bind]. assert (bowl_grad [3] = Ok [2]) as -> by bowl_at. cbn [bind].
  change (set_colM [0] 0 (7/2)) with (Ok [7/2]). cbn [bind].
  assert (converged (1/100000) [3] [2] = false) as ->. { unfold converged. rewrite !norm_one. rewrite !Rabs_right by lra. rewrite (proj2 (Rltb_false _ _)) by lra. unfold Rleb. rewrite (proj2 (Rltb_true _ _)) by lra. reflexivity. }
  cbn [map]. replace (Ropp 2) with (-2) by lra. rewrite norm_one. rewrite (Rabs_left (-2)) by lra. replace (1 / - -2) with (1/2) by (field; lra). cbn [lbfgs_loop]. unfold lbfgs_turn. cbn [lb_x lb_fx lb_g lb_d lb_step].
  rewrite (@turn_search 3 (7/2) 2 (-2) (1/2) 2 (7/4) (3/2)); try lra; try bowl_at. cbn [bind ls_code ls_x ls_g ls_fx].
  assert (converged (1/100000) [2] [3/2] = false) as ->. { unfold converged. rewrite !norm_one. rewrite !Rabs_right by lra. rewrite (proj2 (Rltb_false _ _)) by lra. unfold Rleb. rewrite (proj2 (Rltb_true _ _)) by lra. reflexivity. }
  reflexivity.
Qed.
Theorem C41_zero_memory_refuted :
  forall fuel mem0, allocated 0 2 mem0 [0; 0] ->
    lbfgs_optimize Backtracking armijo_params bowl bowl_grad 0 2 0 (1/100000) (1/1000000) (S fuel) mem0 [0; 0] [3] = UB.
Proof.
  intros fuel [[s0 y0] ys0] (L1 & L2 & L3 & _). destruct s0; try discriminate. destruct y0; try discriminate. destruct ys0; try discriminate.
  cbn [lbfgs_optimize]. unfold lbfgs. assert (bowl [3] = Ok (7/2)) as -> by bowl_at. cbn [bind]. assert (bowl_grad [3] = Ok [2]) as -> by bowl_at. cbn [bind].
  change (set_colM [0; 0] 0 (7/2)) with (Ok [7/2; 0]). cbn [bind].
  assert (converged (1/100000) [3] [2] = false) as ->. { unfold converged. rewrite !norm_one. rewrite !Rabs_right by lra. rewrite (proj2 (Rltb_false _ _)) by lra. unfold Rleb. rewrite (proj2 (Rltb_true _ _)) by lra. reflexivity. }
  cbn [map]. replace (Ropp 2) with (-2) by lra. rewrite norm_one. rewrite (Rabs_left (-2)) by lra. replace (1 / - -2) with (1/2) by (field; lra). cbn [lbfgs_loop]. unfold lbfgs_turn. cbn [lb_x lb_fx lb_g lb_d lb_step].
  rewrite (@turn_search 3 (7/2) 2 (-2) (1/2) 2 (7/4) (3/2)); try lra; try bowl_at. cbn [bind ls_code ls_x ls_g ls_fx].
  assert (converged (1/100000) [2] [3/2] = false) as ->. { unfold converged. rewrite !norm_one. rewrite !Rabs_right by lra. rewrite (proj2 (Rltb_false _ _)) by lra. unfold Rleb. rewrite (proj2 (Rltb_true _ _)) by lra. reflexivity. }
  reflexivity.
Qed.
Print Assumptions C41_zero_memory_refuted.

(** The hypotheses are met by that function. *)
Example C41_case :
  (exists turns, forall fuel, (turns <= fuel)%nat -> exists r, lbfgs_optimize Backtracking armijo_params bowl bowl_grad 8 3 0 (1/100000) (1/1000000) fuel
     (repeat [] 8, repeat [] 8, repeat 0 8) [0; 0; 0] [3] = Ok r) /\
  (exists p pts, accepted_points bowl bowl_grad armijo_params 1 [3] (p :: pts) /\ p_x p = [0]) /\
  inverse_hessian 1 [([-3], [-5/2]); ([-1], [-1/2])] [-5/2] = [-3].
Proof.
  assert (HT : forall z, length z = length [3] -> exists f h, bowl z = Ok f /\ bowl_grad z = Ok h /\ length h = length [3]).
  { intros [|a [|b z]] Hz; try discriminate. unfold bowl, bowl_grad. do 2 eexists. split; [reflexivity|]. split; reflexivity. }
  split; [|split].
  - apply (C41_unlimited_terminates Backtracking armijo_params bowl bowl_grad 8 3 (1/100000) (1/1000000)) with (bound := 0); cbn [dec_factor inc_factor ftol armijo_params]; try lra; try lia; auto; try discriminate.
    + split; [|split; [|split]]; reflexivity.
    + intros [|a [|b z]] f Hz E; try discriminate. cbn in E. injection E as <-. destruct (Rltb 1 a) eqn:Q; [apply Rltb_true in Q; nra|nra].
  - destruct (C41_uninitialised_refuted 0 ([[]], [[]], [0])) as (_ & E); [split; [|split; [|split]]; reflexivity|].
    destruct (C41_run Backtracking armijo_params bowl bowl_grad 1 2 0 (1/100000) (1/1000000) 4 ([[]], [[]], [0]) [0; 0] [3] [0]) as (p & pts & R & X & _); cbn [dec_factor inc_factor armijo_params]; try lra; try lia; auto.
    + split; [|split; [|split]]; reflexivity.
    + exists p, pts. auto.
  - apply (C41_secant 1).
    + intros s' y' [Q|[Q|[]]]; injection Q as <- <-; auto.
    + change (dot [-5/2] [-3]) with (-5/2 * -3 + 0). lra.
Qed.
Example C41_positive_definite_case := C41_positive_definite 2 1 [([1; 0], [2; 1]); ([1; 1], [1; 3])] [1; 2] ltac:(lra)
  ltac:(intros s y [Q|[Q|[]]]; injection Q as <- <-; split; [reflexivity|split; [reflexivity|cbn; lra]|reflexivity|split; [reflexivity|cbn; lra]]) eq_refl ltac:(cbn; lra).
Example C41_symmetric_case := C41_symmetric 2 1 [([1; 0], [2; 1]); ([1; 1], [1; 3])] [1; 2] [3; 4] ltac:(intros s y [Q|[Q|[]]]; injection Q as <- <-; auto) eq_refl eq_refl.

(** The function of the refutations, x^2 / 2 up to 1 and steeper beyond: from 3 the first step of length 1 meets the Wolfe conditions. *)
Lemma bowl_from_3 P : P = armijo_params \/ P = default_params -> accepted_points bowl bowl_grad P 8 [3] [([1], 1 / 2, [1]); ([3], 7 / 2, [2])].
Proof.
  intros HP. assert (E3 : Rltb 1 3 = true) by (apply Rltb_true; lra). assert (E1 : Rltb 1 1 = false) by (apply Rltb_false; lra).
  apply accepted_next with (step := 1).
  - apply accepted_start; unfold bowl, bowl_grad; rewrite E3.
    + replace (3 + (3 - 1) * (3 - 1) / 4 - 1 / 2) with (7 / 2) by lra. reflexivity.
    + replace (1 + (3 - 1) / 2) with 2 by lra. reflexivity.
  - match goal with |- context [lbfgs_direction ?m ?l] => replace (lbfgs_direction m l) with [-2] by (cbn; f_equal; lra) end. cbn. lra.
  - lra.
  - match goal with |- context [lbfgs_direction ?m ?l] => replace (lbfgs_direction m l) with [-2] by (cbn; f_equal; lra) end. split; [reflexivity|]. split; [cbn; f_equal; lra|]. unfold bowl, bowl_grad. rewrite E1. split; [replace (1 * 1 / 2) with (1 / 2) by lra; reflexivity|reflexivity].
  - match goal with |- context [lbfgs_direction ?m ?l] => replace (lbfgs_direction m l) with [-2] by (cbn; f_equal; lra) end. unfold acceptable. destruct HP as [-> | ->]; cbn; (split; [lra|]); [exact I|lra].
Qed.
Lemma bowl_total : forall z, length z = length [3] -> exists f h, bowl z = Ok f /\ bowl_grad z = Ok h /\ length h = length [3].
Proof. intros [|a [|b z]] Hz; try discriminate. unfold bowl, bowl_grad. do 2 eexists. split; [reflexivity|]. split; reflexivity. Qed.
Lemma bowl_grad_length : forall x g, length x = length [3] -> bowl_grad x = Ok g -> length g = length [3].
Proof. intros [|a [|b x]] g Hx E; try discriminate. injection E as <-. reflexivity. Qed.
Lemma bowl_steep : forall q, In q [([1], 1 / 2, [1]); ([3], 7 / 2, [2])] -> sqn (p_g q) <> 0.
Proof. intros q [<-|[<-|[]]]; cbn; lra. Qed.
Example C41_wolfe_descends_case := C41_wolfe_descends default_params bowl bowl_grad 8 [3] _ _ bowl_grad_length ltac:(discriminate) ltac:(cbn; lra)
  (bowl_from_3 default_params (or_intror eq_refl)) bowl_steep.
Example C41_convex_descends_case := C41_convex_descends armijo_params bowl bowl_grad 8 [3] _ _ bowl_grad_length
  ltac:(intros [|a [|]] [|b [|]] g g' L1 L2 E1 E2; try discriminate; injection E1 as <-; injection E2 as <-; cbn; intros N;
        destruct (Rltb 1 a) eqn:Qa, (Rltb 1 b) eqn:Qb; rewrite ?Rltb_true, ?Rltb_false in *; assert (b - a <> 0) by nra; nra)
  (bowl_from_3 armijo_params (or_introl eq_refl)) bowl_steep.
Example C41_monotone_case := C41_monotone armijo_params bowl bowl_grad 8 [3] _ _ _ ltac:(cbn; lra) (bowl_from_3 armijo_params (or_introl eq_refl)).
Example C41_descent_case := C41_descent 8 ([1], 1 / 2, [1]) [([3], 7 / 2, [2])]
  ltac:(intros s y [Q|[]]; injection Q as <- <-; split; [reflexivity|split; [reflexivity|cbn; lra]]) ltac:(cbn; lra).
Example C41_limit_terminates_case := C41_limit_terminates Backtracking armijo_params bowl bowl_grad 8 3 100 (1/100000) (1/1000000) 100
  (repeat [] 8, repeat [] 8, repeat 0 8) [0; 0; 0] [3] ltac:(lia) ltac:(lia) ltac:(cbn; lra) ltac:(cbn; lra) ltac:(repeat split) ltac:(discriminate) bowl_total ltac:(discriminate) ltac:(lia).
Example C41_no_worse_case : exists f0 f, bowl [3] = Ok f0 /\ bowl [0] = Ok f /\ f <= f0.
Proof.
  destruct (C41_uninitialised_refuted 0 ([[]], [[]], [0])) as (_ & E); [split; [|split; [|split]]; reflexivity|].
  refine (C41_no_worse _ _ _ _ _ _ _ _ _ _ _ _ _ _ _ _ _ _ _ _ E); cbn [dec_factor inc_factor ftol armijo_params]; try lra; try lia.
  split; [|split; [|split]]; reflexivity.
Qed.
