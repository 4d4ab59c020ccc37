(** C40: line searches. *)
From Coq Require Import Reals Lra.
From Verif Require Import Base Common_Model KDReal_Proofs Vec Loss_Model Lbfgs_Model LineSearch_Spec LineSearch_Proofs.
Local Open Scope R_scope.

(** Success, for either search: the point is the start plus the step along the direction, the value and the gradient
    returned are those of that point, the step is positive and meets the requested condition, the return value is the
    number of trials, and that is at most max_linesearch (or 1). *)
Theorem C40_success :
  forall policy evaluate gradient P x fx g d step xp r n,
    0 < dec_factor P -> 0 < inc_factor P ->
    line_search policy evaluate gradient P x fx g d step xp = Ok r -> ls_code r = Some n ->
    dot d g <= 0 /\ 0 < ls_step r /\
    at_step evaluate gradient xp d (ls_step r) (ls_x r) (ls_fx r) (ls_g r) /\
    acceptable P d fx (dot d g) (ls_step r) (ls_fx r) (ls_g r) /\
    n = length (ls_tried r) /\ (1 <= n <= Nat.max 1 (max_linesearch P))%nat.
Proof.
  intros policy evaluate gradient P x fx g d step xp r n H1 H2 E C.
  apply line_search_cases in E as [((E & _) & _)|(E1 & E2 & E3 & s & tried & I & T & A & B & D)]; [congruence|].
  rewrite C in D. destruct D as (D1 & D2). split; [auto|]. split; [auto|]. split; [auto|]. split; [auto|]. split; [auto|].
  rewrite T in *. rewrite app_length in *. cbn [length] in *. lia.
Qed.
Print Assumptions C40_success.

(** With ftol >= 0 success means that the objective did not increase; with the two-sided condition and wolfe >= 0 the
    slope shrank by the factor wolfe. *)
Theorem C40_decrease :
  forall policy evaluate gradient P x fx g d step xp r n,
    0 < dec_factor P -> 0 < inc_factor P -> 0 <= ftol P ->
    line_search policy evaluate gradient P x fx g d step xp = Ok r -> ls_code r = Some n ->
    ls_fx r <= fx /\ (0 < ftol P -> dot d g < 0 -> ls_fx r < fx) /\
    (condition P = OtherCondition -> Rabs (dot d (ls_g r)) <= wolfe P * Rabs (dot d g)).
Proof.
  intros policy evaluate gradient P x fx g d step xp r n H1 H2 HF E C.
  destruct (C40_success _ _ _ _ _ _ _ _ _ _ _ _ H1 H2 E C) as (S1 & S2 & _ & (S3 & S4) & _).
  assert (0 <= ls_step r * (ftol P * - dot d g)) by (apply Rmult_le_pos; [lra|]; apply Rmult_le_pos; lra).
  split; [lra|]. split.
  - intros F1 F2. assert (0 < ls_step r * (ftol P * - dot d g)) by (apply Rmult_lt_0_compat; [lra|]; apply Rmult_lt_0_compat; lra). lra.
  - intro Q. rewrite Q in S4. rewrite (Rabs_left1 (dot d g)) by auto. apply Rabs_le. lra.
Qed.
Print Assumptions C40_decrease.

(** Failure (return value -1): either nothing was tried because the step was not positive or the direction does not
    descend, and nothing changed; or the last trial was rejected and a limit was reached.  In the second case x, fx and
    g are left at the last, rejected trial. *)
Theorem C40_failure :
  forall policy evaluate gradient P x fx g d step xp r,
    line_search policy evaluate gradient P x fx g d step xp = Ok r -> ls_code r = None ->
    ((step <= 0 \/ 0 < dot d g) /\ ls_tried r = [] /\ ls_x r = x /\ ls_fx r = fx /\ ls_g r = g) \/
    (0 < step /\ dot d g <= 0 /\ (1 <= length (ls_tried r) <= Nat.max 1 (max_linesearch P))%nat /\
     at_step evaluate gradient xp d (ls_step r) (ls_x r) (ls_fx r) (ls_g r) /\
     ~ acceptable P d fx (dot d g) (ls_step r) (ls_fx r) (ls_g r) /\
     exhausted P (ls_step r) (length (ls_tried r))).
Proof.
  intros policy evaluate gradient P x fx g d step xp r E C.
  apply line_search_cases in E as [((_ & E1 & E2 & E3 & E4 & E5) & E)|(E1 & E2 & E3 & s & tried & I & T & A & B & D)]; [left; auto|right].
  rewrite C in D. destruct D as (D1 & D2). split; [auto|]. split; [auto|]. split; [rewrite T in *; rewrite app_length in *; cbn [length] in *; lia|].
  split; [auto|]. split; [|auto]. intro Acc. destruct D1 as [D1|D1]; [eapply acceptable_not_long; eauto|eapply acceptable_not_short; eauto].
Qed.
Print Assumptions C40_failure.

(** The search ends, and is defined when the objective is and the sizes agree. *)
Theorem C40_terminates :
  forall policy evaluate gradient P x fx g d step xp,
    (forall x, evaluate x <> Fuel) -> (forall x, gradient x <> Fuel) ->
    line_search policy evaluate gradient P x fx g d step xp <> Fuel.
Proof. intros. now apply line_search_no_fuel. Qed.
Print Assumptions C40_terminates.
Theorem C40_defined :
  forall policy evaluate gradient P x fx g d step xp,
    policy <> OtherPolicy -> length d = length xp -> length g = length xp ->
    (forall z, length z = length xp -> exists f h, evaluate z = Ok f /\ gradient z = Ok h /\ length h = length xp) ->
    exists r, line_search policy evaluate gradient P x fx g d step xp = Ok r.
Proof. intros policy evaluate gradient P x fx g d step xp H L1 L2 HF. destruct policy; [apply search_defined; auto..|congruence]. Qed.
Print Assumptions C40_defined.

(** The steps tried by backtracking. *)
Theorem C40_backtracking_steps :
  forall evaluate gradient P x fx g d step xp r,
    backtracking evaluate gradient P x fx g d step xp = Ok r -> ls_tried r <> [] ->
    backtracking_steps P (long_step evaluate gradient P xp d fx (dot d g)) (short_step evaluate gradient P xp d fx (dot d g)) step (ls_tried r).
Proof.
  intros evaluate gradient P x fx g d step xp r E N.
  apply backtracking_cases in E as [((_ & _ & _ & _ & _ & E) & _)|(_ & _ & _ & s & tried & (I & _) & T & _)]; [congruence|]. rewrite T. exact I.
Qed.
Print Assumptions C40_backtracking_steps.

(** The steps tried by bracketing: doubling, then bisection of an interval that only shrinks. *)
Theorem C40_bracketing_steps :
  forall evaluate gradient P x fx g d step xp r,
    bracketing evaluate gradient P x fx g d step xp = Ok r -> ls_tried r <> [] ->
    bracketing_steps (long_step evaluate gradient P xp d fx (dot d g)) (short_step evaluate gradient P xp d fx (dot d g)) step (ls_tried r) /\
    narrowing (long_step evaluate gradient P xp d fx (dot d g)) (short_step evaluate gradient P xp d fx (dot d g)) (ls_tried r).
Proof.
  intros evaluate gradient P x fx g d step xp r E N.
  apply bracketing_cases in E as [((_ & _ & _ & _ & _ & E) & _)|(_ & _ & _ & s & tried & (I1 & I2 & _) & T & _)]; [congruence|]. rewrite T. auto.
Qed.
Print Assumptions C40_bracketing_steps.

(** Backtracking with the Armijo condition succeeds: if every step up to step * dec^k decreases the objective enough,
    it returns within k + 1 trials, provided max_linesearch and min_step leave room for that. *)
Theorem C40_armijo_succeeds :
  forall evaluate gradient P x fx g d step xp k,
    condition P = Armijo -> 0 < dec_factor P < 1 -> 0 < step <= max_step P -> dot d g <= 0 ->
    length d = length xp -> length g = length xp ->
    (forall z, length z = length xp -> exists f h, evaluate z = Ok f /\ gradient z = Ok h /\ length h = length xp) ->
    (forall t f, 0 < t <= step * dec_factor P ^ k -> evaluate (vadd xp (vscale t d)) = Ok f -> f <= fx + t * (ftol P * dot d g)) ->
    (k < max_linesearch P)%nat -> min_step P <= step * dec_factor P ^ k ->
    exists r n, backtracking evaluate gradient P x fx g d step xp = Ok r /\ ls_code r = Some n /\ (n <= S k)%nat /\
      ls_step r = step * dec_factor P ^ (n - 1).
Proof.
  intros evaluate gradient P x fx g d step xp k HC (D0 & D1) (H0 & HM) HS L1 L2 HF HA Hk Hmin.
  destruct (C40_defined Backtracking evaluate gradient P x fx g d step xp ltac:(discriminate) L1 L2 HF) as (r & E). cbn [line_search] in E.
  assert (NS : forall a, ~ short_step evaluate gradient P xp d fx (dot d g) a) by (intros a (? & ? & ? & _ & _ & Q & _); congruence).
  assert (Pow : forall i j, (i <= j)%nat -> 0 < dec_factor P ^ j <= dec_factor P ^ i).
  { intros i j Hij. split; [now apply pow_lt|]. replace j with (i + (j - i))%nat by lia. rewrite pow_add.
    assert (dec_factor P ^ (j - i) <= 1) by (rewrite <- (pow1 (j - i)); apply pow_incr; lra). pose proof (pow_lt (dec_factor P) i D0). nra. }
  assert (Lk : forall i a, a = step * dec_factor P ^ i -> long_step evaluate gradient P xp d fx (dot d g) a -> (i < k)%nat).
  { intros i a -> (z & f & h & (_ & Ez & Ef & _) & [Q|(Q & _)]); [|congruence]. destruct (Nat.lt_ge_cases i k) as [Hi|Hi]; auto. exfalso.
    subst z. apply HA in Ef; [lra|]. destruct (Pow k i Hi). split; [apply Rmult_lt_0_compat; lra|apply Rmult_le_compat_l; lra]. }
  pose proof E as E'.
  apply backtracking_cases in E as [(_ & [E|E])|(_ & _ & _ & s & tried & (I & _) & T & A & B & D)]; [lra|lra|].
  pose proof (armijo_geometric NS I) as G. rewrite <- T in G.
  assert (Ln : length (ls_tried r) = S (length tried)) by (rewrite T, app_length; cbn; lia).
  assert (Last : nth_error (ls_tried r) (length tried) = Some (ls_step r)) by (rewrite T, nth_error_app2, Nat.sub_diag by lia; auto).
  destruct (G _ _ Last) as (GL & _).
  destruct (ls_code r) as [n|] eqn:C.
  - destruct D as (Dn & _). exists r, n. split; [exact E'|]. split; [exact C|]. subst n. rewrite Ln. split; [|replace (S (length tried) - 1)%nat with (length tried) by lia; auto].
    destruct tried as [|b t] eqn:Et; [cbn; lia|]. rewrite <- Et in *. assert (Hl : (length tried - 1 < length (ls_tried r))%nat) by lia.
    apply nth_error_Some in Hl. destruct (nth_error (ls_tried r) (length tried - 1)) as [a|] eqn:Ea; [|congruence].
    destruct (G _ _ Ea) as (Ga & Gl). assert (length tried <> 0)%nat by (rewrite Et; discriminate). pose proof (Lk _ _ Ga (Gl ltac:(lia))). lia.
  - destruct D as ([D|D] & X); [|now apply NS in D]. pose proof (Lk _ _ GL D) as Hi. exfalso. destruct X as [X|[X|X]].
    + rewrite GL in X. destruct (Pow (length tried) k ltac:(lia)) as (P1 & P2). apply (Rmult_le_compat_l step) in P2; lra.
    + rewrite GL in X. destruct (Pow 0%nat (length tried) ltac:(lia)) as (P1 & P2). cbn [pow] in P2. apply (Rmult_le_compat_l step) in P2; lra.
    + lia.
Qed.
Print Assumptions C40_armijo_succeeds.

(** In particular for an objective whose curvature along d is bounded by L: k need only satisfy
    L * step * dec^k <= 2 * (1 - ftol) * |slope|. *)
Theorem C40_armijo_smooth :
  forall evaluate gradient P x fx g d step xp k L,
    condition P = Armijo -> 0 < dec_factor P < 1 -> 0 < step <= max_step P -> dot d g <= 0 ->
    length d = length xp -> length g = length xp ->
    (forall z, length z = length xp -> exists f h, evaluate z = Ok f /\ gradient z = Ok h /\ length h = length xp) ->
    (forall t f, 0 < t -> evaluate (vadd xp (vscale t d)) = Ok f -> f <= fx + t * dot d g + L / 2 * t * t) ->
    0 <= L -> L * (step * dec_factor P ^ k) <= 2 * (1 - ftol P) * - dot d g ->
    (k < max_linesearch P)%nat -> min_step P <= step * dec_factor P ^ k ->
    exists r n, backtracking evaluate gradient P x fx g d step xp = Ok r /\ ls_code r = Some n /\ (n <= S k)%nat.
Proof.
  intros evaluate gradient P x fx g d step xp k L HC HD H0 HS L1 L2 HF HQ HL Hk1 Hk Hmin.
  destruct (C40_armijo_succeeds evaluate gradient P x fx g d step xp k HC HD H0 HS L1 L2 HF) as (r & n & A & B & C & _); auto; [|eauto].
  intros t f (Ht1 & Ht2) E. apply HQ in E; auto. eapply Rle_trans; [exact E|].
  assert (L * t <= 2 * (1 - ftol P) * - dot d g) by (apply (Rmult_le_compat_l L) in Ht2; lra).
  assert (t * (L * t) <= t * (2 * (1 - ftol P) * - dot d g)) by (apply Rmult_le_compat_l; lra). nra.
Qed.
Print Assumptions C40_armijo_smooth.

(** f(x) = x^2 from x = 1 along -2 with the default parameters: the first trial overshoots, the second is accepted. *)
Definition parabola (x : list R) : outcome R := match x with [a] => Ok (a * a) | _ => UB end.
Definition parabola_grad (x : list R) : outcome (list R) := match x with [a] => Ok [2 * a] | _ => UB end.
Definition default_params : ls_params := LsParams (1/2) (21/10) (1/10000) (9/10) (10^20) (/ 10^20) 40 Wolfe.
Lemma case_steps {St} tl ts (next : St -> R -> R) s0 fuel : next (tl s0 1) 1 = 1 / 2 ->
  search_loop parabola parabola_grad default_params tl ts next (S (S fuel)) 1 (-4) [-2] [1] s0 0 1 [] =
  Ok (LsResult (Some 2%nat) [0] 0 [0] (1/2) [1; 1/2]).
Proof.
  intro Hn. cbn [search_loop]. unfold add. cbn [vscale map length Nat.eqb bind]. change (vadd [1] [1 * -2]) with [1 + 1 * -2].
  replace (1 + 1 * -2) with (-1) by lra. cbn [parabola parabola_grad bind].
  assert (J1 : judge default_params 1 (-4) (-1 * -1) [2 * -1] [-2] 1 = Ok TooLong).
  { unfold judge. cbn [ftol default_params]. rewrite (proj2 (Rltb_true _ _)) by lra. reflexivity. }
  rewrite J1. cbn [bind]. clear J1. cbn [min_step max_step default_params].
  rewrite (proj2 (Rltb_false 1 _)); [|rewrite <- Rinv_1; apply Rinv_le_contravar; [lra|]; apply pow_R1_Rle; lra].
  rewrite (proj2 (Rltb_false _ 1)) by (apply pow_R1_Rle; lra). cbn [max_linesearch default_params Nat.leb]. rewrite Hn.
  change (vadd [1] [1/2 * -2]) with [1 + 1/2 * -2]. replace (1 + 1/2 * -2) with 0 by lra. cbn [parabola parabola_grad bind].
  assert (J2 : judge default_params 1 (-4) (0 * 0) [2 * 0] [-2] (1/2) = Ok Accept).
  { unfold judge. cbn [ftol condition wolfe default_params]. rewrite (proj2 (Rltb_false _ _)) by lra. unfold dotM. cbn [length Nat.eqb bind].
    change (dot [-2] [2 * 0]) with (-2 * (2 * 0) + 0). rewrite (proj2 (Rltb_false _ _)) by lra. reflexivity. }
  rewrite J2. cbn [bind app]. rewrite !Rmult_0_r. reflexivity.
Qed.
Example C40_armijo_case :
  exists r n, backtracking parabola parabola_grad (LsParams (1/2) (21/10) (1/10000) (9/10) (10^20) (/ 10^20) 40 Armijo) [1] 1 [2] [-2] 1 [1] = Ok r /\
    ls_code r = Some n /\ (n <= 2)%nat.
Proof.
  assert (L40 : (1 < 40)%nat) by lia.
  apply (C40_armijo_smooth parabola parabola_grad (LsParams (1/2) (21/10) (1/10000) (9/10) (10^20) (/ 10^20) 40 Armijo) [1] 1 [2] [-2] 1 [1] 1 8);
    cbn [condition dec_factor max_step min_step ftol max_linesearch pow]; try reflexivity; try lra; try exact L40.
  - change (dot [-2] [2]) with (-2 * 2 + 0). lra.
  - intros [|a [|b z]] Hz; try discriminate. exists (a * a), [2 * a]. auto.
  - intros t f Ht E. cbn in E. injection E as <-. change (dot [-2] [2]) with (-2 * 2 + 0). nra.
  - change (dot [-2] [2]) with (-2 * 2 + 0). lra.
Qed.
Example C40_case :
  (forall policy, policy <> OtherPolicy ->
    line_search policy parabola parabola_grad default_params [1] 1 [2] [-2] 1 [1] = Ok (LsResult (Some 2%nat) [0] 0 [0] (1/2) [1; 1/2])) /\
  line_search Backtracking parabola parabola_grad default_params [1] 1 [2] [2] 1 [1] = Ok (LsResult None [1] 1 [2] 1 []).
Proof.
  split.
  - intros policy NP. destruct policy; [| |congruence]; unfold line_search, backtracking, bracketing, search; rewrite (proj2 (Rltb_true 0 1)) by lra;
      cbn [negb]; unfold dotM; cbn [length Nat.eqb bind]; change (dot [-2] [2]) with (-2 * 2 + 0); replace (-2 * 2 + 0) with (-4) by lra;
      rewrite (proj2 (Rltb_false 0 _)) by lra; apply case_steps; cbn; lra.
  - unfold line_search, backtracking, search. rewrite (proj2 (Rltb_true 0 1)) by lra. cbn [negb]; unfold dotM; cbn [length Nat.eqb bind].
    change (dot [2] [2]) with (2 * 2 + 0). rewrite (proj2 (Rltb_true _ _)) by lra. reflexivity.
Qed.

(** The theorems on the two searches of [C40_case]: one that succeeds, one that refuses the direction. *)
Example C40_success_case := C40_success Backtracking _ _ default_params _ _ _ _ _ _ _ 2%nat ltac:(unfold default_params; cbn; lra) ltac:(unfold default_params; cbn; lra) (proj1 C40_case Backtracking ltac:(discriminate)) eq_refl.
Example C40_decrease_case := C40_decrease Backtracking _ _ default_params _ _ _ _ _ _ _ 2%nat ltac:(unfold default_params; cbn; lra) ltac:(unfold default_params; cbn; lra) ltac:(unfold default_params; cbn; lra)
  (proj1 C40_case Backtracking ltac:(discriminate)) eq_refl.
Example C40_failure_case := C40_failure _ _ _ _ _ _ _ _ _ _ _ (proj2 C40_case) eq_refl.
Example C40_terminates_case := C40_terminates Bracketing parabola parabola_grad default_params [1] 1 [2] [-2] 1 [1] ltac:(intros [|? [|]]; discriminate) ltac:(intros [|? [|]]; discriminate).
Example C40_defined_case := C40_defined Bracketing parabola parabola_grad default_params [1] 1 [2] [-2] 1 [1] ltac:(discriminate) eq_refl eq_refl
  ltac:(intros [|a [|]] H; try discriminate; exists (a * a), [2 * a]; auto).
Example C40_backtracking_steps_case := C40_backtracking_steps _ _ default_params _ _ _ _ _ _ _ (proj1 C40_case Backtracking ltac:(discriminate)) ltac:(discriminate).
Example C40_bracketing_steps_case := C40_bracketing_steps _ _ default_params _ _ _ _ _ _ _ (proj1 C40_case Bracketing ltac:(discriminate)) ltac:(discriminate).
